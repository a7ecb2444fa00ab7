(** Model of Map.Iterate and MapIterator (map.go:1512-1514, 1776-1873). *)
From Coq Require Import ZArith List Lia Bool.
From Verif.Base Require Import GoInt.
Import ListNotations.
Open Scope Z_scope.

Definition key := list Z.
Definition key_dec : forall a b : key, {a = b} + {a <> b} := list_eq_dec Z.eq_dec.
(** errors of the system calls: ErrKeyNotExist, or any other *)
Inductive kerr := NotExist | Other (code : Z).
(** MapIterator.err: ErrIterationAborted, or an error of one of the steps *)
Inductive ierr := Aborted | GetNextKey (e : kerr) | LookUp (e : kerr) | DecodeKey (e : Z).
(** map.go:1776-1784.  [i_cursor] is the contents of the buffer, None if it isn't allocated. *)
Record iter := mkIter { i_cursor : option key; i_count : Z; i_maxEntries : Z; i_done : bool; i_err : option ierr }.
(** map.go:1790-1795 *)
Definition newMapIterator (maxEntries : Z) : iter := mkIter None 0 maxEntries false None.

Section Iter.
  Context {K V : Type}.
  (** What the kernel answers depends on time: nextKey t k is the answer to MapGetNextKey at time t, lookup t k that to
      MapLookupElem, with the value already decoded.  Every system call takes one unit of time.  Kernels before 4.4.132,
      which don't accept a nil key, aren't modelled. *)
  Variable nextKey : nat -> option key -> res kerr key.
  Variable lookup : nat -> key -> res kerr V.
  (** sysenc.Unmarshal of the key into keyOut *)
  Variable decode : key -> res Z K.

  (** map.go:1812-1862, the loop of Next; [fuel] bounds the number of rounds, None if it isn't enough.  If NextKey fails
      the buffer keeps its contents (of a new buffer, zeroes written as [] here: they are never used, since the iterator is at
      its end). *)
  Fixpoint nextLoop (fuel t : nat) (mi : iter) : option (nat * iter * option (K * V)) :=
    match fuel with
    | O => None
    | S f =>
        if i_count mi <=? i_maxEntries mi then
          match nextKey t (i_cursor mi) with
          | Err e =>
              let cursor := match i_cursor mi with None => Some [] | c => c end in
              match e with
              | NotExist => Some (S t, mkIter cursor (i_count mi) (i_maxEntries mi) true None, None)
              | _ => Some (S t, mkIter cursor (i_count mi) (i_maxEntries mi) (i_done mi) (Some (GetNextKey e)), None)
              end
          | Ok k =>
              let count := u32 (i_count mi + 1) in
              match lookup (S t) k with
              | Err NotExist => nextLoop f (S (S t)) (mkIter (Some k) count (i_maxEntries mi) (i_done mi) None)
              | Err e => Some (S (S t), mkIter (Some k) count (i_maxEntries mi) (i_done mi) (Some (LookUp e)), None)
              | Ok v =>
                  match decode k with
                  | Err e => Some (S (S t), mkIter (Some k) count (i_maxEntries mi) (i_done mi) (Some (DecodeKey e)), None)
                  | Ok k' => Some (S (S t), mkIter (Some k) count (i_maxEntries mi) (i_done mi) None, Some (k', v))
                  end
              end
          end
        else Some (t, mkIter (i_cursor mi) (i_count mi) (i_maxEntries mi) (i_done mi) (Some Aborted), None)
    end.
  (** map.go:1807-1866 Next: Some (key, value) if it returns true *)
  Definition Next (fuel t : nat) (mi : iter) : option (nat * iter * option (K * V)) :=
    if (match i_err mi with Some _ => true | None => false end) || i_done mi then Some (t, mi, None) else nextLoop fuel t mi.

  (** for it.Next(&k, &v) { ... }: the entries seen, and the iterator afterwards.  [n] bounds the number of calls of Next. *)
  Fixpoint iterate (n fuel t : nat) (mi : iter) : option (list (K * V) * nat * iter) :=
    match n with
    | O => None
    | S n' =>
        match Next fuel t mi with
        | None => None
        | Some (t, mi, None) => Some ([], t, mi)
        | Some (t, mi, Some e) => match iterate n' fuel t mi with None => None | Some (l, t, mi) => Some (e :: l, t, mi) end
        end
    end.
End Iter.
