(** Vocabulary for the ring buffer properties: what the kernel puts in a ring buffer
    (Linux kernel/bpf/ringbuf.c: __bpf_ringbuf_reserve, bpf_ringbuf_commit). Independent of the model. *)
From Coq Require Import ZArith List Lia Bool.
From Verif.Base Require Import GoInt.
Import ListNotations.
Open Scope Z_scope.

(** Status of a record reserved by a BPF program. *)
Inductive kstatus := KBusy | KSubmitted (payload : list Z) | KDiscarded.

Record krec := mkRec { k_len : Z; k_status : kstatus }.

(** A record takes an 8 byte header plus its length rounded up to a multiple of 8. *)
Definition round8 (n : Z) : Z := 8 * ((n + 7) / 8).
Definition rec_bytes (r : krec) : Z := 8 + round8 (k_len r).
Definition total_bytes (l : list krec) : Z := fold_right (fun r a => rec_bytes r + a) 0 l.

(** The 32 bit length word: bit 31 = busy, bit 30 = discarded. *)
Definition len_word (r : krec) : Z :=
  k_len r + match k_status r with KBusy => 2 ^ 31 | KSubmitted _ => 0 | KDiscarded => 2 ^ 30 end.

(** The bytes of the ring starting at stream position [pos]: position p lives at offset p mod size. *)
Definition stream_at (sz : Z) (mem : Z -> Z) (pos n : Z) : list Z :=
  map (fun i => mem ((pos + Z.of_nat i) mod sz)) (seq 0 (Z.to_nat n)).

(** Record [r] is laid out at stream position [pos]. *)
Definition laid_out (bo : byteorder) (sz : Z) (mem : Z -> Z) (pos : Z) (r : krec) : Prop :=
  stream_at sz mem pos 4 = put bo 4 (len_word r) /\
  forall p, k_status r = KSubmitted p -> stream_at sz mem (pos + 8) (k_len r) = p.

(** The whole list of records is laid out from [pos] on. *)
Fixpoint ring_holds (bo : byteorder) (sz : Z) (mem : Z -> Z) (pos : Z) (l : list krec) : Prop :=
  match l with
  | [] => True
  | r :: rs => laid_out bo sz mem pos r /\ ring_holds bo sz mem (pos + rec_bytes r) rs
  end.

(** What a consumer should see of a list of records: payloads of submitted ones in order, each with the
    number of bytes behind it. *)
Fixpoint expected (l : list krec) : list (list Z * Z) :=
  match l with
  | [] => []
  | r :: rs => match k_status r with
               | KSubmitted p => (p, total_bytes rs) :: expected rs
               | _ => expected rs
               end
  end.

(** A ring size the kernel accepts: a power of two; at least one 8 byte unit, and addressable twice. *)
Definition valid_size (sz : Z) : Prop := exists k, 3 <= k <= 61 /\ sz = 2 ^ k.

(** Lengths the kernel accepts: RINGBUF_MAX_RECORD_SZ = UINT_MAX/4. *)
Definition valid_len (r : krec) : Prop :=
  0 <= k_len r < 2 ^ 30 /\ forall p, k_status r = KSubmitted p -> Z.of_nat (length p) = k_len r.

Definition settled (r : krec) : Prop := k_status r <> KBusy.
