(** Specification of C99 *)
From Coq Require Import List Bool Arith Permutation.
From Verif Require Import Kernel.Iter.
Import ListNotations.

(** The caller asks for the next object, keeps the current one, waits, or closes an object they kept. *)
Inductive step (world : nat -> list nat) (fails : nat -> bool) : st -> st -> Prop :=
| step_next fuel s s' b : next world fails fuel s = Some (s', b) -> step world fails s s'
| step_take s : step world fails s (take s)
| step_wait s n : step world fails s (St (it s) (fds s) (taken s) (seen s) (time s + n))
| step_free s l1 f l2 : taken s = l1 ++ f :: l2 -> step world fails s (St (it s) (List.remove Nat.eq_dec f (fds s)) (l1 ++ l2) (seen s) (time s)).
Definition init : st := St (It 0 None false) [] [] [] 1.
Inductive reachable (world : nat -> list nat) (fails : nat -> bool) : st -> Prop :=
| reach_init : reachable world fails init
| reach_step s s' : reachable world fails s -> step world fails s s' -> reachable world fails s'.
(** The object is there all the time until [t]. *)
Definition always (world : nat -> list nat) (n t : nat) : Prop := 0 < n /\ forall u, u < t -> In n (world u).
(** Ids in the order in which they were returned *)
Fixpoint increasing (l : list nat) : Prop := match l with [] => True | n :: r => (forall m, In m r -> n < m) /\ increasing r end.
