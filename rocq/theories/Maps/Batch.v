(** Model of Map.BatchLookup, Map.BatchLookupAndDelete and MapBatchCursor (map.go:1234-1380, 1488-1504). *)
From Coq Require Import ZArith List Lia Bool.
From Verif.Base Require Import GoInt.
From Verif.Maps Require Import Iter.
Import ListNotations.
Open Scope Z_scope.

Inductive cmd := LookupBatch | LookupAndDeleteBatch.
(** errno of the system call *)
Inductive errno := ENOENT | ENOSPC | Errno (code : Z).
(** The fields of ebpf.Map which matter (map.go:240-255); [m_ptr] is the identity of the Go object. *)
Record bmap := mkMap { m_ptr : Z; m_fd : Z; m_keySize : Z; m_fullValueSize : Z }.
(** sys.MapLookupBatchAttr: pointers are represented by what is behind them.  [a_keysLen], [a_valuesLen] and [a_outLen]
    are the sizes of the buffers behind Keys, Values and OutBatch. *)
Record attr := mkAttr { a_cmd : cmd; a_fd : Z; a_count : Z; a_keysLen : Z; a_valuesLen : Z; a_in : option (list Z); a_outLen : nat }.
(** What the kernel does with it: error, new value of Count, the elements written to Keys and Values, and the bytes
    written to the start of OutBatch. *)
Record reply {V : Type} := mkReply { r_err : option errno; r_count : Z; r_elems : list (key * V); r_out : list Z }.
Arguments reply : clear implicits.
Arguments mkReply {V}.
Inductive berr := BSys (e : errno) | BTooSmall | BNoBatchAPI (code : Z) | BReused | BLength.

(** map.go:1288-1291 MapBatchCursor: None if opaque is nil *)
Definition cursor := option (Z * list Z).

Section Batch.
  Context {V St : Type}.
  (** the kernel: a state machine *)
  Variable kernel : St -> attr -> St * reply V.
  (** haveBatchAPI() *)
  Variable haveBatchAPI : option Z.

  (** map.go:1327 *)
  Definition cursorLen (m : bmap) : nat := Z.to_nat (Z.max (m_keySize m) 4).
  (** memory behind OutBatch after the kernel wrote [w] to its start *)
  Definition overwrite (old w : list Z) : list Z := w ++ skipn (length w) old.

  (** map.go:1318-1380 batchLookupCmd.  [count] is the length of keysOut; [valuesLen] the size of the buffer for values.
      The result is the number of elements, the error and the elements which have been put into keysOut and valuesOut.
      Unmarshalling of keys and values is left out: see C46 and C53. *)
  Definition batchLookupCmd (c : cmd) (m : bmap) (st : St) (cur : cursor) (count valuesLen : Z) : St * cursor * (Z * option berr * list (key * V)) :=
    let go (inBatch : option (list Z)) (opaque : list Z) :=
      let a := mkAttr c (m_fd m) (u32 count) (count * m_keySize m) valuesLen inBatch (length opaque) in
      let (st', r) := kernel st a in
      let cur' := Some (m_ptr m, overwrite opaque (r_out r)) in
      match r_err r with
      | Some ENOENT => (st', cur', (r_count r, Some (BSys ENOENT), r_elems r))
      | Some e => (st', cur', (0, Some (match haveBatchAPI with Some f => BNoBatchAPI f | None => BSys e end), []))
      | None => (st', cur', (r_count r, None, r_elems r))
      end in
    match cur with
    | None => go None (repeat 0 (cursorLen m))
    | Some (ptr, opaque) => if ptr =? m_ptr m then go (Some opaque) opaque else (st, cur, (0, Some BReused, []))
    end.

  (** map.go:1293-1313 batchLookup for maps without per-CPU values, with 1488-1504 batchCount; [keysLen] and [valuesLen] are the
      lengths of the slices *)
  Definition batchLookup (c : cmd) (m : bmap) (st : St) (cur : cursor) (keysLen valuesLen : Z) : St * cursor * (Z * option berr * list (key * V)) :=
    if negb (keysLen =? valuesLen) then (st, cur, (0, Some BLength, []))
    else
      match batchLookupCmd c m st cur keysLen (keysLen * m_fullValueSize m) with
      | (st, cur, (n, err, out)) =>
          match err with
          | None | Some (BSys ENOENT) => (st, cur, (n, err, out))
          | Some (BSys ENOSPC) => (st, cur, (n, Some BTooSmall, out))
          | Some e => (st, cur, (0, Some e, out))
          end
      end.

  (** A program which calls BatchLookup with slices of the given lengths until it gets ErrKeyNotExist, and goes on after other
      errors.  The result is what it has collected and whether it got ErrKeyNotExist. *)
  Fixpoint run (c : cmd) (m : bmap) (st : St) (cur : cursor) (sizes : list Z) : St * list (key * V) * bool :=
    match sizes with
    | [] => (st, [], false)
    | n :: sizes' =>
        match batchLookup c m st cur n n with
        | (st, cur, (_, Some (BSys ENOENT), out)) => (st, out, true)
        | (st, cur, (_, _, out)) => match run c m st cur sizes' with (st, out', fin) => (st, out ++ out', fin) end
        end
    end.
End Batch.
