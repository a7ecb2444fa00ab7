(** Specification of C92 *)
From Verif Require Import Base.GoInt Fd.Fd.
Open Scope nat_scope.

(** At first there are only descriptors of others. *)
Definition initial (s : state) : Prop :=
  (forall k, objs s k = None) /\ nobj s = 0 /\ NoDup (others s) /\ (forall i, In i (others s) <-> exists n, tab s n = Some i) /\
  (forall n m i, tab s n = Some i -> tab s m = Some i -> n = m) /\ (forall n i, tab s n = Some i -> i < next s).
(** The program keeps an FD until its methods have returned. *)
Definition careful (s s' : state) : Prop :=
  forall k x x', objs s k = Some x -> objs s' k = Some x' -> held x = true -> held x' = false -> busy x = None.
Inductive runs : bool -> state -> list event -> state -> Prop :=
| RunNil : forall c s, runs c s [] s
| RunStep : forall c s es s1 e s2, runs c s es s1 -> step s1 e s2 -> (c = true -> careful s1 s2) -> runs c s (es ++ [e]) s2.
(** The descriptor an FD was made for *)
Definition made (s : state) (k i : nat) : Prop := exists x, objs s k = Some x /\ ident x = i.
Definition isOpen (s : state) (i : nat) : Prop := exists n, tab s n = Some i.
(** What was closed: by which FD, and what was hit *)
Fixpoint closes (es : list event) : list (nat * option nat) :=
  match es with
  | [] => []
  | EClose k _ hit :: r => (k, hit) :: closes r
  | _ :: r => closes r
  end.
