(** Vocabulary for C64 and C65: what the kernel does. *)
From Coq Require Import ZArith List Lia Bool.
From Verif.Base Require Import GoInt.
From Verif.Maps Require Import Iter IterSpec Batch.
Import ListNotations.

(** the entries which have a value *)
Fixpoint live {V} (l : entries V) : list (key * V) :=
  match l with [] => [] | (k, Some v) :: l' => (k, v) :: live l' | (_, None) :: l' => live l' end.

(** *** Arrays and LPM tries: generic_map_lookup_batch (kernel/bpf/syscall.c) *)
Section Generic.
  Context {V : Type}.
  (** goes on until it has [n] elements; also the key visited last, and whether the end was reached *)
  Fixpoint visit (r : entries V) (n : nat) {struct n} : list (key * V) * option key * bool :=
    match n with
    | O => ([], None, false)
    | S n' =>
        (fix skip (r : entries V) : list (key * V) * option key * bool :=
          match r with
          | [] => ([], None, true)
          | (k, Some v) :: r' => match visit r' n' with (out, last, e) => ((k, v) :: out, Some (match last with Some x => x | None => k end), e) end
          | (k, None) :: r' => match skip r' with (out, last, e) => (out, Some (match last with Some x => x | None => k end), e) end
          end) r
    end.
  (** [l] are the contents of the map, [keySize] the size of its keys.  The state is the number of calls so far; call number i
      fails with [fail i], if that isn't None, before it writes anything. *)
  Definition generic_batch (keySize : nat) (l : entries V) (fail : nat -> option Z) (i : nat) (a : attr) : nat * reply V :=
    (S i,
     match fail i with
     | Some e => mkReply (Some (Errno e)) 0 [] []
     | None =>
         if (a_count a =? 0)%Z then mkReply None 0 [] []
         else
           let from := match a_in a with None => l | Some b => match rest l (firstn keySize b) with Some r => r | None => l end end in
           match visit from (Z.to_nat (a_count a)) with
           | (out, last, e) => mkReply (if e then Some ENOENT else None) (Z.of_nat (length out)) out (match out, last with _ :: _, Some k => k | _, _ => [] end)
           end
     end).
End Generic.

(** *** Hash tables: __htab_map_lookup_and_delete_batch (kernel/bpf/hashtab.c) *)
Section Hash.
  Context {V : Type}.
  Variable hash : key -> nat.
  (** what others do: [env t] happens before the t-th access to a bucket.  A bucket is copied, and emptied, at once. *)
  Variable env : nat -> list (op V).
  (** [n] buckets are left, from number [batch] on; there is [room] for so many elements; [any] if there are elements already *)
  Fixpoint hash_visit (del : bool) (n : nat) (t : nat) (tb : buckets V) (batch room : nat) (any : bool) : nat * buckets V * list (key * V) * nat * option errno :=
    match n with
    | O => (t, tb, [], batch, Some ENOENT)
    | S n' =>
        let tb := fold_left (apply hash) (env t) tb in
        let b := nth batch tb [] in
        if (room <? length b)%nat then (S t, tb, [], batch, if any then None else Some ENOSPC)
        else
          let tb := if del then change tb batch (fun _ => []) else tb in
          match hash_visit del n' (S t) tb (S batch) (room - length b) (any || negb (length b =? 0)%nat) with
          | (t, tb, out, batch, e) => (t, tb, live b ++ out, batch, e)
          end
    end.
  (** The state is the number of calls, the time and the table.  Call number i fails with [fail i], if that isn't None, before it does
      anything.  The cursor is the number of a bucket, 4 bytes in native byte order. *)
  Definition hash_batch (bo : byteorder) (fail : nat -> option Z) (st : nat * nat * buckets V) (a : attr) : (nat * nat * buckets V) * reply V :=
    let '(i, t, tb) := st in
    match fail i with
    | Some e => ((S i, t, tb), mkReply (Some (Errno e)) 0 [] [])
    | None =>
        if (a_count a =? 0)%Z then ((S i, t, tb), mkReply None 0 [] [])
        else
          let batch := match a_in a with None => 0%nat | Some b => Z.to_nat (get bo (firstn 4 b)) end in
          if (length tb <=? batch)%nat then ((S i, t, tb), mkReply (Some ENOENT) 0 [] [])
          else
            match hash_visit (match a_cmd a with LookupBatch => false | LookupAndDeleteBatch => true end) (length tb - batch) t tb batch (Z.to_nat (a_count a)) false with
            | (t, tb, out, batch, e) => ((S i, t, tb), mkReply e (Z.of_nat (length out)) out (put bo 4 (Z.of_nat batch)))
            end
    end.
End Hash.
