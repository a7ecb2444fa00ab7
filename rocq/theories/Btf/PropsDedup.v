(** C36: deduplication replaces types by equivalent ones. *)
From Coq Require Import ZArith List Lia Bool.
From Verif.Base Require Import GoInt ListExtra.
From Verif.Btf Require Import Types TypesSpec Dedup DedupSpec DedupProof DedupHistory.
Import ListNotations.
Open Scope Z_scope.

(** C36.  Whatever the hash function: if types which are added to a Builder are part of a graph in which every cycle goes
    through a struct or union with a single definition (up to equivalence), then every addition which returns succeeds and
    gives a type which is equivalent to the one which was added, and every type of the graph stays equivalent to what it was:
    no reference has been replaced by one to a type of another shape.
    Missing: termination (refuted below); cycles through structs which are defined twice (refuted below); and equivalence
    ignores the attributes which [skeleton] drops (refuted below). *)
Theorem C36_sound_partial sum fuel key h ts d rs :
  one_definition key h ts -> (forall x, from h ts x -> grounded key h x) ->
  dedup_all sum fuel (newDeduper h) ts = Some (d, rs) ->
  Forall2 (fun t r => exists t', r = Ok t' /\ equivalent h t (dd_heap d) t') ts rs /\
  forall x, from h ts x -> equivalent h x (dd_heap d) x.
Proof.
  intros OD GR E. destruct (dedup_all_ok sum key h ts OD GR fuel ts (newDeduper h) d rs) as (I & _ & F).
  - apply (DI_new key h ts GR).
  - apply Forall_forall. intros t It. exists t. split; [exact It|constructor].
  - exact E.
  - split; [exact F|]. apply I.
Qed.

(** Graphs without cycles need no assumption. *)
Inductive acyclic (h : heap) : ref -> Prop :=
| acyclic_void : acyclic h RVoid
| acyclic_node x n : deref h x = Some n -> supported n -> (forall y, In y (parts n) -> acyclic h y) -> acyclic h x.
Theorem C36_acyclic_partial sum fuel h ts d rs :
  Forall (acyclic h) ts -> dedup_all sum fuel (newDeduper h) ts = Some (d, rs) ->
  Forall2 (fun t r => exists t', r = Ok t' /\ equivalent h t (dd_heap d) t') ts rs /\
  forall x, from h ts x -> equivalent h x (dd_heap d) x.
Proof.
  intros A. apply (C36_sound_partial sum fuel (fun _ => false)).
  - intros s t n m _ _ _ _ _ K. unfold is_key in K. destruct (head n); discriminate K.
  - assert (AG : forall x, acyclic h x -> grounded (fun _ => false) h x). { intros x Ax. induction Ax as [|x n D S _ IH]; [constructor|]. apply (grounded_node _ _ _ n D S). now apply Forall_forall. }
    intros x (t & It & R). rewrite Forall_forall in A. apply AG. specialize (A t It). clear It. induction R as [|x y z (n & D & J) R IH]; [exact A|]. apply IH. inversion A as [|? n' D' _ H]; subst; [discriminate D|]. rewrite D in D'. injection D' as <-. auto.
Qed.

(** A Builder which has been given the same C program twice: all structs and unions with the same kind, name, size and
    number of members are the same; every cycle goes through one. *)
Theorem C36_same_names_partial sum fuel h ts d rs :
  (forall s t n m, from h ts s -> from h ts t -> deref h s = Some n -> deref h t = Some m -> head n <> None -> head n = head m -> equivalent h s h t) ->
  (forall x, from h ts x -> grounded (fun _ => true) h x) ->
  dedup_all sum fuel (newDeduper h) ts = Some (d, rs) ->
  Forall2 (fun t r => exists t', r = Ok t' /\ equivalent h t (dd_heap d) t') ts rs /\
  forall x, from h ts x -> equivalent h x (dd_heap d) x.
Proof.
  intros S. apply C36_sound_partial. intros s t n m Fs Ft Ds Dt E K. apply (S s t n m Fs Ft Ds Dt); [|exact E]. unfold is_key in K. destruct (head n); discriminate || congruence.
Qed.

(** The hypotheses are met by two copies of a linked list: the second is replaced by the first. *)
Definition ex_list : heap :=
  [NInt [105] 4 1; NStruct [110] 16 [mkMember [97] (RPtr 2) 0 0 []; mkMember [98] (RPtr 0) 64 0 []] []; NPtr (RPtr 1);
   NInt [105] 4 1; NStruct [110] 16 [mkMember [97] (RPtr 5) 0 0 []; mkMember [98] (RPtr 3) 64 0 []] []; NPtr (RPtr 4)].
Lemma ex_list_live x : from ex_list [RPtr 1; RPtr 4] x -> In x [RPtr 0; RPtr 1; RPtr 2; RPtr 3; RPtr 4; RPtr 5].
Proof.
  intros (t & It & R). assert (J : In t [RPtr 0; RPtr 1; RPtr 2; RPtr 3; RPtr 4; RPtr 5]) by (cbn in *; tauto). clear It. induction R as [|x y z (n & D & K) R IH]; [exact J|]. apply IH.
  cbn [In] in J. repeat destruct J as [<-|J]; try destruct J; cbn in D; injection D as <-; cbn in *; tauto.
Qed.
(** what a history of additions results in *)
Definition outcome (sum : list wr -> Z) (h : heap) (ts : list ref) : option (heap * list (res derr ref)) :=
  match dedup_all sum 20 (newDeduper h) ts with Some (d, rs) => Some (dd_heap d, rs) | None => None end.
Ltac run := repeat (cbn; match goal with
  | |- context [?a =? ?a] => rewrite (Z.eqb_refl a)
  | |- context [?a =? ?b] => match a with _ _ => idtac end; let Q := fresh "Q" in destruct (a =? b) eqn:Q
  end); try reflexivity.
(** here all hashes collide *)
Example C36_example : outcome (fun _ => 0) ex_list [RPtr 1; RPtr 4] = Some (
  [NInt [105] 4 1; NStruct [110] 16 [mkMember [97] (RPtr 2) 0 0 []; mkMember [98] (RPtr 0) 64 0 []] []; NPtr (RPtr 1);
   NInt [105] 4 1; NStruct [110] 16 [mkMember [97] (RPtr 2) 0 0 []; mkMember [98] (RPtr 0) 64 0 []] []; NPtr (RPtr 1)],
  [Ok (RPtr 1); Ok (RPtr 1)]).
Proof. vm_compute. reflexivity. Qed.
Example C36_example_hypotheses :
  (forall s t n m, from ex_list [RPtr 1; RPtr 4] s -> from ex_list [RPtr 1; RPtr 4] t -> deref ex_list s = Some n -> deref ex_list t = Some m -> head n <> None -> head n = head m -> equivalent ex_list s ex_list t) /\
  (forall x, from ex_list [RPtr 1; RPtr 4] x -> grounded (fun _ => true) ex_list x).
Proof.
  set (R := fun x y => exists a b, x = RPtr a /\ y = RPtr b /\ (a < 6)%nat /\ (b < 6)%nat /\ Nat.modulo a 3 = Nat.modulo b 3).
  assert (B : bisimulation ex_list ex_list R).
  { intros x y (a & b & -> & -> & La & Lb & E). right.
    assert (P : forall c d, In (RPtr c, RPtr d) (combine (map RPtr (seq 0 6)) (map RPtr (seq 0 6))) \/ (c < 6 /\ d < 6 /\ Nat.modulo c 3 = Nat.modulo d 3)%nat -> R (RPtr c) (RPtr d)).
    { intros c d [I|(Lc & Ld & Em)]; [|exists c, d; auto]. cbn in I. exists c, d. repeat destruct I as [I|I]; try (injection I as <- <-; repeat split; lia). destruct I. }
    do 6 (destruct a as [|a]; [do 6 (destruct b as [|b]; [try discriminate E; eexists; eexists; (split; [reflexivity|]); (split; [reflexivity|]); (split; [reflexivity|]); cbn [parts refs map m_type]; repeat constructor; apply P; right; repeat split; lia|]); lia|]); lia. }
  split.
  - intros s t n m Fs Ft Ds Dt Hn He. exists R. split; [exact B|]. apply ex_list_live in Fs, Ft. cbn [In] in Fs, Ft.
    repeat destruct Fs as [<-|Fs]; try destruct Fs; repeat destruct Ft as [<-|Ft]; try destruct Ft; cbn in Ds, Dt; injection Ds as <-; injection Dt as <-; cbn in He, Hn; try congruence; (eexists; eexists; repeat split; lia).
  - intros x F. apply ex_list_live in F.
    assert (K : forall x, x = RPtr 1 \/ x = RPtr 4 -> grounded (fun _ => true) ex_list x) by (intros y [->| ->]; eapply grounded_key; reflexivity).
    assert (I : forall x, x = RPtr 0 \/ x = RPtr 3 -> grounded (fun _ => true) ex_list x) by (intros y [->| ->]; eapply grounded_node; [reflexivity|exact Coq.Init.Logic.I|constructor|reflexivity|exact Coq.Init.Logic.I|constructor]).
    cbn [In] in F. repeat destruct F as [<-|F]; try destruct F; try (apply K; tauto); try (apply I; tauto); (eapply grounded_node; [reflexivity|exact Coq.Init.Logic.I|]; cbn [parts refs]; repeat constructor; apply K; tauto).
Qed.

(** ** What deduplication loses *)
(** a hash function without collisions *)
Definition collision_free (sum : list wr -> Z) : Prop := forall a b, sum a = sum b -> a = b.
Ltac run' Hs := repeat (cbn; match goal with
  | |- context [?a =? ?a] => rewrite (Z.eqb_refl a)
  | |- context [?a =? ?b] => match a with _ _ => idtac end; let Q := fresh "Q" in destruct (a =? b) eqn:Q; [exfalso; apply Z.eqb_eq, Hs in Q; try discriminate Q; repeat (injection Q as Q; try apply Hs in Q; try discriminate Q)|]
  end); try reflexivity.
(** C36 refuted: the width of bitfields is ignored.  Even if the hash has no collisions, a struct with a member of 4 bits is
    replaced by one where it has 3 bits. *)
Definition two_bitfields : heap :=
  [NInt [105] 4 0; NStruct [115] 4 [mkMember [97] (RPtr 0) 0 3 []] []; NStruct [115] 4 [mkMember [97] (RPtr 0) 0 4 []] []].
Theorem C36_refuted_bitfield sum : collision_free sum -> outcome sum two_bitfields [RPtr 1; RPtr 2] = Some (two_bitfields, [Ok (RPtr 1); Ok (RPtr 1)]).
Proof. intros Hs. unfold outcome. run' Hs. Qed.
(** C36 refuted: the linkage of functions and the tags of declarations are ignored.  A global function is replaced by
    a static one, a struct with a tag by one without. *)
Definition two_functions : heap := [NFuncProto RVoid []; NFunc [102] (RPtr 0) 0 [] []; NFunc [102] (RPtr 0) 1 [] []].
Theorem C36_refuted_linkage sum : collision_free sum -> outcome sum two_functions [RPtr 1; RPtr 2] = Some (two_functions, [Ok (RPtr 1); Ok (RPtr 1)]).
Proof. intros Hs. unfold outcome. run' Hs. Qed.
Definition two_tags : heap := [NStruct [115] 4 [] []; NStruct [115] 4 [] [[116]]].
Theorem C36_refuted_tags sum : outcome sum two_tags [RPtr 0; RPtr 1] = Some (two_tags ++ [NDeclTag (RPtr 1) [116] (-1)], [Ok (RPtr 0); Ok (RPtr 0)]).
Proof. unfold outcome. run. Qed.
(** C36 refuted: the size of an enum is compared only by the hash, which does not follow more than one pointer.  Already for a
    polynomial hash function (without collisions here): a pointer which leads to an enum of 8 bytes is replaced by one which leads to an enum of 4 bytes. *)
Definition poly (ws : list wr) : Z :=
  fold_left (fun a w => a * 1000003 + match w with WZ z => 3 * z | WS s => 3 * fold_left (fun a c => a * 257 + c) s 1 + 1 | WH v => 3 * v + 2 end) ws 1.
Definition two_enums : heap :=
  [NEnum [101] 4 false [mkEV [120] 1]; NPtr (RPtr 0); NStruct [98] 8 [mkMember [112] (RPtr 1) 0 0 []] []; NPtr (RPtr 2);
   NEnum [101] 8 false [mkEV [120] 1]; NPtr (RPtr 4); NStruct [98] 8 [mkMember [112] (RPtr 5) 0 0 []] []; NPtr (RPtr 6)].
Theorem C36_refuted_enum : outcome poly two_enums [RPtr 3; RPtr 7] = Some (two_enums, [Ok (RPtr 3); Ok (RPtr 3)]).
Proof. vm_compute. reflexivity. Qed.
(** C36 refuted: two structs of the same name, size and number of members.  The first is a list ([struct s { struct s *p; }]),
    the second refers to an int.  A pointer to the second is replaced by the pointer to the first, which is not equivalent:
    what was an int has become a struct. *)
Definition two_lists : heap :=
  [NStruct [115] 8 [mkMember [112] (RPtr 1) 0 0 []] []; NPtr (RPtr 0);
   NPtr (RPtr 3); NStruct [115] 8 [mkMember [112] (RPtr 4) 0 0 []] []; NPtr (RPtr 5); NInt [105] 4 0].
Theorem C36_refuted_cycle :
  outcome poly two_lists [RPtr 1; RPtr 2] = Some (two_lists, [Ok (RPtr 1); Ok (RPtr 1)]) /\ ~ equivalent two_lists (RPtr 2) two_lists (RPtr 1).
Proof.
  split; [vm_compute; reflexivity|]. intros E.
  assert (Step : forall x y n m p q, equivalent two_lists x two_lists y -> deref two_lists x = Some n -> deref two_lists y = Some m -> parts n = [p] -> parts m = [q] -> equivalent two_lists p two_lists q).
  { intros x y n m p q Exy Dx Dy Pn Pm. destruct (equivalent_inv _ _ _ _ _ Exy Dx) as (m' & Dm & _ & F). rewrite Dy in Dm. injection Dm as <-. rewrite Pn, Pm in F. inversion F; assumption. }
  pose proof (Step _ _ _ _ _ _ E eq_refl eq_refl eq_refl eq_refl) as E1. pose proof (Step _ _ _ _ _ _ E1 eq_refl eq_refl eq_refl eq_refl) as E2.
  pose proof (Step _ _ _ _ _ _ E2 eq_refl eq_refl eq_refl eq_refl) as E3.
  destruct (equivalent_inv _ _ _ _ _ E3 eq_refl) as (m & D & S & _). injection D as <-. discriminate S.
Qed.
(** C36 refuted: a pointer to a function which takes that pointer is hashed forever (until the stack overflows): the depth
    budget which a pointer uses up is given back by the function. *)
Definition self_function : heap := [NPtr (RPtr 1); NFuncProto RVoid [mkParam [] (RPtr 0)]].
Theorem C36_refuted_hang sum fuel : dedup_all sum fuel (newDeduper self_function) [RPtr 0] = None.
Proof.
  assert (H : forall f c, hash sum f self_function c (RPtr 0) 2 = None /\ hash sum f self_function c (RPtr 1) 1 = None).
  { induction f as [|f IH]; intros c; [split; reflexivity|]. split.
    - cbn. rewrite (proj2 (IH c)). reflexivity.
    - cbn. rewrite (proj1 (IH c)). reflexivity. }
  assert (H1 : forall c, hash sum fuel self_function c (RPtr 0) (-1) = None).
  { intros c. destruct fuel as [|f]; [reflexivity|]. cbn. rewrite (proj2 (H f c)). reflexivity. }
  assert (E : dd_heap (newDeduper self_function) = self_function) by reflexivity.
  cbn [dedup_all]. unfold deduplicate. cbn [dd_done newDeduper find_done dd_heap dd_visited].
  change (postorder self_function [] (RPtr 0)) with (Some ([RVoid; RPtr 1; RPtr 0], [IType RVoid; IType (RPtr 1); IType (RPtr 0)])).
  destruct fuel as [|f]; [reflexivity|]. remember (S f) as fuel eqn:Ef.
  assert (Hv : forall c, hash sum fuel self_function c RVoid (-1) = Some (c, Ok (sum [WZ 0]))) by (intros c; rewrite Ef; reflexivity).
  set (d0 := with_visited _ _).
  assert (Hvoid : hashInsert sum fuel d0 RVoid = Some (with_hashed (with_hashCache d0 []) [(sum [WZ 0], RVoid)], Ok RVoid)).
  { unfold hashInsert. change (dd_heap d0) with self_function. change (dd_hashCache d0) with (@nil ((ref * Z) * Z)). rewrite Hv. reflexivity. }
  assert (Hi : forall d, dd_heap d = self_function -> dd_done d = [] -> hashInsert sum fuel d (RPtr 0) = None).
  { intros d Eh Ed. unfold hashInsert. rewrite Ed, Eh, H1. reflexivity. }
  cbn [dedup_items]. change (nth_error (dd_heap d0) 1) with (Some (NFuncProto RVoid [mkParam [] (RPtr 0)])). cbn [children map p_type child_refs flat_map app].
  cbn [dedup_children]. rewrite Hvoid. rewrite Hi; reflexivity.
Qed.
