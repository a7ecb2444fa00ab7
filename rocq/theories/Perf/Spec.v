(** What the kernel writes into a perf ring (include/uapi/linux/perf_event.h, kernel/events/ring_buffer.c). *)
From Coq Require Import ZArith List Lia Bool.
From Verif.Base Require Import GoInt.
Import ListNotations.
Open Scope Z_scope.

(** [misc] and [size] of the header are arbitrary. *)
Inductive prec :=
| PSample (misc size : Z) (data : list Z)      (* PERF_RECORD_SAMPLE with PERF_SAMPLE_RAW *)
| PLost (misc size id lost : Z).               (* PERF_RECORD_LOST *)

Definition wire (bo : byteorder) (r : prec) : list Z :=
  match r with
  | PSample misc size d => put bo 4 9 ++ put bo 2 misc ++ put bo 2 size ++ put bo 4 (Z.of_nat (length d)) ++ d
  | PLost misc size id lost => put bo 4 2 ++ put bo 2 misc ++ put bo 2 size ++ put bo 8 id ++ put bo 8 lost
  end.
Definition wires (bo : byteorder) (l : list prec) : list Z := concat (map (wire bo) l).

Definition prec_ok (r : prec) : Prop :=
  match r with
  | PSample _ _ d => Z.of_nat (length d) < 2 ^ 32
  | PLost _ _ _ lost => in_u 64 lost
  end.

(** Payload and lost count a reader should report. *)
Definition payload (r : prec) : list Z := match r with PSample _ _ d => d | PLost _ _ _ _ => [] end.
Definition lost (r : prec) : Z := match r with PSample _ _ _ => 0 | PLost _ _ _ n => n end.

(** The [n] bytes of the ring from stream position [pos]: position p lives at offset p mod size. *)
Definition stream (sz : Z) (mem : Z -> Z) (pos n : Z) : list Z :=
  map (fun i => mem ((pos + Z.of_nat i) mod sz)) (seq 0 (Z.to_nat n)).

Definition valid_size (sz : Z) : Prop := exists k, 3 <= k <= 61 /\ sz = 2 ^ k.
