(** Specification of C103 *)
From Coq Require Import List Bool Arith.
From Verif Require Import Pin.Walk.
Import ListNotations.

(** The order of names, and of paths: component by component *)
Fixpoint nlt (a b : name) : Prop :=
  match a, b with
  | _, [] => False
  | [], _ :: _ => True
  | x :: a, y :: b => x < y \/ x = y /\ nlt a b
  end.
Fixpoint plt (p q : path) : Prop :=
  match p, q with
  | _, [] => False
  | [], _ :: _ => True
  | m :: p, n :: q => nlt m n \/ m = n /\ plt p q
  end.
Fixpoint sorted (l : list path) : Prop := match l with [] => True | p :: r => (forall q, In q r -> plt p q) /\ sorted r end.
(** The entries of a directory have different names. *)
Inductive wfTree : tree -> Prop :=
| wf_dir es : NoDup (map fst es) -> (forall n t, In (n, t) es -> wfTree t) -> wfTree (Dir es)
| wf_object o c : wfTree (Object o c)
| wf_other : wfTree Other.
Definition wfWorld (world : nat -> option tree) : Prop := forall t T, world t = Some T -> wfTree T.
(** Paths are shorter than [n]. *)
Definition bounded (world : nat -> option tree) (n : nat) : Prop := forall t p, see world t p <> None -> length p < n.

Definition pathsOf (tr : list event) : list path := flat_map (fun e => match e with EPin p _ _ _ => [p] | EError => [] end) tr.
(** The descriptors that the caller has taken, if it has seen [pre] before [tr] *)
Fixpoint held (takes : list event -> bool) (pre tr : list event) : list nat :=
  match tr with
  | [] => []
  | EPin p o fd l :: r => held takes (pre ++ [EPin p o fd l]) r ++ (if takes (pre ++ [EPin p o fd l]) then [fd] else [])
  | EError :: r => held takes (pre ++ [EError]) r
  end.
