(** Proofs about traversal and copying of type graphs. *)
From Coq Require Import ZArith List Lia Bool.
From Verif.Base Require Import GoInt ListExtra.
From Verif.Btf Require Import Types TypesSpec.
Import ListNotations.
Open Scope nat_scope.

Lemma ref_eqb_eq x y : ref_eqb x y = true <-> x = y.
Proof. unfold ref_eqb. destruct (ref_eq_dec x y); split; congruence. Qed.
Lemma ref_in_In x l : ref_in x l = true <-> In x l.
Proof.
  unfold ref_in. rewrite existsb_exists. split.
  - intros (y & H & E). apply ref_eqb_eq in E. now subst.
  - intros H. exists x. split; [exact H|now apply ref_eqb_eq].
Qed.
Lemma ref_in_false x l : ref_in x l = false <-> ~ In x l.
Proof. rewrite <- ref_in_In. destruct (ref_in x l); split; congruence. Qed.

(** *** children = references and tags *)
Definition crefs (cs : list child) : list ref := flat_map (fun c => match c with CRef r => [r] | _ => [] end) cs.
Definition ctags (cs : list child) : list (str * Z) := flat_map (fun c => match c with CTag v i => [(v, i)] | _ => [] end) cs.
Lemma crefs_app a b : crefs (a ++ b) = crefs a ++ crefs b.
Proof. apply flat_map_app. Qed.
Lemma ctags_app a b : ctags (a ++ b) = ctags a ++ ctags b.
Proof. apply flat_map_app. Qed.
Lemma crefs_tags i t : crefs (tag_items i t) = [].
Proof. induction t; [reflexivity|exact IHt]. Qed.
Lemma ctags_tags i t : ctags (tag_items i t) = map (fun t => (t, i)) t.
Proof. induction t as [|a t IH]; [reflexivity|]. cbn. f_equal. exact IH. Qed.
Lemma crefs_members i ms : crefs (member_items i ms) = map m_type ms.
Proof. revert i. induction ms as [|m ms IH]; intros i; [reflexivity|]. cbn [member_items map]. cbn. rewrite crefs_app, crefs_tags, IH. reflexivity. Qed.
Lemma ctags_members i ms : ctags (member_items i ms) = member_tags i ms.
Proof. revert i. induction ms as [|m ms IH]; intros i; [reflexivity|]. cbn [member_items member_tags]. cbn. rewrite ctags_app, ctags_tags, IH. reflexivity. Qed.
Lemma crefs_params i ps pt : crefs (param_tag_items i ps pt) = [].
Proof. revert i pt. induction ps as [|p ps IH]; intros i [|t pt]; try reflexivity. cbn [param_tag_items]. rewrite crefs_app, crefs_tags, IH. reflexivity. Qed.
Lemma ctags_params i ps pt : ctags (param_tag_items i ps pt) = param_tags i ps pt.
Proof. revert i pt. induction ps as [|p ps IH]; intros i [|t pt]; try reflexivity. cbn [param_tag_items param_tags]. rewrite ctags_app, ctags_tags, IH. reflexivity. Qed.
Lemma crefs_map {A} (f : A -> ref) l : crefs (map (fun x => CRef (f x)) l) = map f l.
Proof. induction l as [|a l IH]; [reflexivity|]. cbn. f_equal. exact IH. Qed.
Lemma ctags_map {A} (f : A -> ref) l : ctags (map (fun x => CRef (f x)) l) = [].
Proof. induction l as [|a l IH]; [reflexivity|]. exact IH. Qed.
Lemma children_refs h n : crefs (children h n) = refs n.
Proof.
  destruct n; cbn [children refs]; try reflexivity.
  - now rewrite crefs_app, crefs_members, crefs_tags, app_nil_r.
  - now rewrite crefs_app, crefs_members, crefs_tags, app_nil_r.
  - change (CRef t :: tag_items (-1) tags) with ([CRef t] ++ tag_items (-1) tags). now rewrite crefs_app, crefs_tags.
  - match goal with |- crefs (?a :: ?b) = _ => change (a :: b) with ([a] ++ b) end. rewrite !crefs_app, crefs_tags.
    destruct (deref h t) as [[]|]; rewrite ?crefs_params; reflexivity.
  - match goal with |- crefs (?a :: ?b) = _ => change (a :: b) with ([a] ++ b) end. now rewrite crefs_app, (crefs_map p_type).
  - change (CRef t :: tag_items (-1) tags) with ([CRef t] ++ tag_items (-1) tags). now rewrite crefs_app, crefs_tags.
  - apply (crefs_map vs_type).
Qed.
Lemma children_tags h n : ctags (children h n) = decl_tags h n.
Proof.
  destruct n; cbn [children decl_tags]; try reflexivity.
  - now rewrite ctags_app, ctags_members, ctags_tags.
  - now rewrite ctags_app, ctags_members, ctags_tags.
  - change (CRef t :: tag_items (-1) tags) with ([CRef t] ++ tag_items (-1) tags). now rewrite ctags_app, ctags_tags.
  - match goal with |- ctags (?a :: ?b) = _ => change (a :: b) with ([a] ++ b) end. rewrite !ctags_app, ctags_tags.
    destruct (deref h t) as [[]|]; rewrite ?ctags_params; reflexivity.
  - match goal with |- ctags (?a :: ?b) = _ => change (a :: b) with ([a] ++ b) end. now rewrite ctags_app, (ctags_map p_type).
  - change (CRef t :: tag_items (-1) tags) with ([CRef t] ++ tag_items (-1) tags). now rewrite ctags_app, ctags_tags.
  - apply (ctags_map vs_type).
Qed.
Lemma children_of_spec h r cs : children_of h r = Some cs -> (forall c, In c (crefs cs) <-> edge h r c) /\ ctags cs = tags_at h r.
Proof.
  unfold children_of, edge, tags_at. destruct r as [| |a]; [discriminate| |].
  - intros E. inversion E; subst. cbn. split; [|reflexivity]. intros c. split; [intros []|intros (n & X & _); discriminate].
  - destruct (deref h (RPtr a)) as [n|]; [|discriminate]. intros E. inversion E; subst. rewrite children_refs, children_tags.
    split; [|reflexivity]. intros c. split; [eauto|intros (n' & X & H); inversion X; subst; exact H].
Qed.
Lemma present_children h r : present h r -> exists cs, children_of h r = Some cs.
Proof.
  destruct r as [| |a]; cbn [present children_of]; [intros []|eauto|]. intros H. cbn [deref]. destruct (nth_error h a) eqn:E; [cbn; eauto|].
  apply nth_error_None in E. lia.
Qed.

Lemma reach_trans h x y z : reach h x y -> reach h y z -> reach h x z.
Proof. induction 1; [auto|]. intros. econstructor; eauto. Qed.
Lemma reach_edge h x y : edge h x y -> reach h x y.
Proof. intros H. econstructor; [exact H|constructor]. Qed.
Lemma reach_snoc h x y z : reach h x y -> edge h y z -> reach h x z.
Proof. intros. eapply reach_trans; [eassumption|]. now apply reach_edge. Qed.

(** *** termination *)
Definition universe (h : heap) : list ref := RVoid :: RNil :: map RPtr (seq 0 (length h)).
Definition unvisited (h : heap) (vis : list ref) : nat := length (filter (fun r => negb (ref_in r vis)) (universe h)).
Lemma present_universe h r : present h r -> In r (universe h).
Proof.
  destruct r as [| |a]; cbn; [intros []|auto|]. intros H. right. right. apply in_map. apply in_seq. lia.
Qed.
Lemma filter_le {A} (f g : A -> bool) l : (forall x, f x = true -> g x = true) -> length (filter f l) <= length (filter g l).
Proof.
  intros H. induction l as [|a l IH]; [cbn; lia|]. cbn [filter]. destruct (f a) eqn:F; [rewrite (H a F); cbn [length]; lia|].
  destruct (g a); cbn [length]; lia.
Qed.
Lemma filter_lt {A} (f g : A -> bool) l x : (forall x, f x = true -> g x = true) -> In x l -> f x = false -> g x = true ->
  length (filter f l) < length (filter g l).
Proof.
  intros H. induction l as [|a l IH]; [intros []|]. intros [->|I] F G.
  - cbn [filter]. rewrite F, G. cbn [length]. pose proof (filter_le f g l H). lia.
  - specialize (IH I F G). cbn [filter]. destruct (f a) eqn:Fa; [rewrite (H a Fa); cbn [length]; lia|]. destruct (g a); cbn [length]; lia.
Qed.
Lemma unvisited_mono h v w : incl v w -> unvisited h w <= unvisited h v.
Proof.
  intros I. apply filter_le. intros x. rewrite !negb_true_iff, !ref_in_false. auto.
Qed.
Lemma unvisited_lt h v r : present h r -> ~ In r v -> unvisited h (r :: v) < unvisited h v.
Proof.
  intros P N. apply (filter_lt _ _ _ r).
  - intros x. rewrite !negb_true_iff, !ref_in_false. cbn. tauto.
  - now apply present_universe.
  - rewrite negb_false_iff, ref_in_In. now left.
  - now rewrite negb_true_iff, ref_in_false.
Qed.
Lemma filter_length_le {A} (f : A -> bool) l : length (filter f l) <= length l.
Proof. induction l as [|a l IH]; [cbn; lia|]. cbn [filter]. destruct (f a); cbn [length]; lia. Qed.
Lemma unvisited_max h v : unvisited h v <= length h + 2.
Proof.
  unfold unvisited. etransitivity; [apply filter_length_le|]. unfold universe. cbn [length]. rewrite map_length, seq_length. lia.
Qed.

Lemma visit_total h root : complete h root -> forall f vis r, reach h root r -> unvisited h vis < f ->
  exists vis' out, visit f h vis r = Some (vis', out) /\ incl vis vis'.
Proof.
  intros C. induction f as [|f IH]; intros vis r R L; [lia|]. cbn [visit].
  destruct (ref_in r vis) eqn:I; [exists vis, []; split; [reflexivity|apply incl_refl]|]. apply ref_in_false in I.
  pose proof (C r R) as P. destruct (present_children h r P) as (cs & E). rewrite E.
  destruct (children_of_spec _ _ _ E) as (Ec & _).
  pose proof (unvisited_lt h vis r P I) as L2.
  assert (G : forall cs0 v, incl (crefs cs0) (crefs cs) -> unvisited h v < f ->
     exists v' out, visit_children (visit f h) r v cs0 = Some (v', out) /\ incl v v').
  { induction cs0 as [|c cs0 IHc]; intros v Ic Lv; [exists v, []; split; [reflexivity|apply incl_refl]|].
    destruct c as [x|t i]; cbn [visit_children].
    - destruct (IH v x) as (v1 & o1 & E1 & I1); [eapply reach_snoc; [exact R|apply Ec, Ic; now left]|exact Lv|]. rewrite E1.
      destruct (IHc v1) as (v2 & o2 & E2 & I2); [intros y Hy; apply Ic; now right|pose proof (unvisited_mono h _ _ I1); lia|]. rewrite E2.
      exists v2, (o1 ++ o2). split; [reflexivity|]. eapply incl_tran; eassumption.
    - destruct (IHc v) as (v2 & o2 & E2 & I2); [intros y Hy; apply Ic; exact Hy|exact Lv|]. rewrite E2. eauto. }
  destruct (G cs (r :: vis)) as (v' & out & E' & I'); [apply incl_refl|lia|]. rewrite E'.
  exists v', (out ++ [IType r]). split; [reflexivity|]. intros x Hx. apply I'. now right.
Qed.

(** *** what is visited *)
Definition types (out : list item) : list ref := flat_map (fun i => match i with IType r => [r] | _ => [] end) out.
Definition owned (x : ref) (out : list item) : list (str * Z) :=
  flat_map (fun i => match i with ITag o v k => if ref_eq_dec o x then [(v, k)] else [] | _ => [] end) out.
Lemma types_app a b : types (a ++ b) = types a ++ types b.
Proof. apply flat_map_app. Qed.
Lemma owned_app x a b : owned x (a ++ b) = owned x a ++ owned x b.
Proof. apply flat_map_app. Qed.
Lemma types_In x out : In x (types out) <-> In (IType x) out.
Proof.
  unfold types. rewrite in_flat_map. split.
  - intros ([r|o v k] & H & I); [destruct I as [->|[]]; exact H|destruct I].
  - intros H. exists (IType x). split; [exact H|now left].
Qed.

Definition ordered (h : heap) (done : list ref) (out : list item) : Prop :=
  forall l1 x l2 c, out = l1 ++ IType x :: l2 -> edge h x c -> In c (types l1) \/ In c done \/ reach h c x.
Lemma ordered_app h done o1 o2 : ordered h done o1 -> ordered h (done ++ types o1) o2 -> ordered h done (o1 ++ o2).
Proof.
  intros H1 H2 l1 x l2 c E Ed. apply app_eq_app in E. destruct E as (l & [(E1 & E2)|(E1 & E2)]).
  - destruct l as [|i l].
    + rewrite app_nil_r in E1. cbn in E2. subst l1. destruct (H2 [] x l2 c (eq_sym E2) Ed) as [[]|[K|K]]; [|auto].
      apply in_app_or in K. tauto.
    + inversion E2; subst. eapply H1; [reflexivity|exact Ed].
  - subst l1. destruct (H2 l x l2 c E2 Ed) as [K|[K|K]]; [left; rewrite types_app; apply in_or_app; auto| |auto].
    apply in_app_or in K. destruct K; [auto|left; rewrite types_app; apply in_or_app; auto].
Qed.
Lemma ordered_skip h done out o v k : ordered h done out -> ordered h done (ITag o v k :: out).
Proof.
  intros H l1 x l2 c E Ed. destruct l1 as [|i l1]; [discriminate E|]. inversion E; subst. change (types (ITag o v k :: l1)) with (types l1).
  eapply H; [reflexivity|exact Ed].
Qed.
(** every tag is followed by its owner, except the tags of [r] *)
Definition owners_follow (r : ref) (out : list item) : Prop :=
  forall l1 o v k l2, out = l1 ++ ITag o v k :: l2 -> o = r \/ In o (types l2).
Lemma owners_app r a b : owners_follow r a -> owners_follow r b -> owners_follow r (a ++ b).
Proof.
  intros H1 H2 l1 o v k l2 E. apply app_eq_app in E. destruct E as (l & [(E1 & E2)|(E1 & E2)]).
  - destruct l as [|i l].
    + cbn in E2. destruct (H2 [] o v k l2 (eq_sym E2)); auto.
    + inversion E2; subst. destruct (H1 l1 o v k l eq_refl) as [K|K]; [auto|]. right. rewrite types_app. apply in_or_app. auto.
  - destruct (H2 l o v k l2 E2); auto.
Qed.

Record visited_ok (h : heap) (vis : list ref) (r : ref) (vis' : list ref) (out : list item) : Prop := {
  vo_set : forall x, In x vis' <-> In x vis \/ In x (types out);
  vo_new : forall x, In x (types out) -> ~ In x vis;
  vo_nodup : NoDup (types out);
  vo_closed : forall x c, In x (types out) -> edge h x c -> In c vis';
  vo_present : forall x, In x (types out) -> exists cs, children_of h x = Some cs }.

Lemma NoDup_app_intro {A} (a b : list A) : NoDup a -> NoDup b -> (forall x, In x a -> ~ In x b) -> NoDup (a ++ b).
Proof.
  induction 1 as [|x a N Na IH]; intros Nb D; [exact Nb|]. cbn. constructor.
  - intros H. apply in_app_or in H. destruct H; [contradiction|]. apply (D x); [now left|assumption].
  - apply IH; [assumption|]. intros y Hy. apply D. now right.
Qed.

Section Visit.
  Variable h : heap.
  Definition good (f : nat) : Prop := forall vis r vis' out, visit f h vis r = Some (vis', out) ->
    visited_ok h vis r vis' out /\ In r vis' /\ (forall x, In x (types out) -> reach h r x) /\
    (forall done gray, (forall x, In x vis -> In x done \/ In x gray) -> (forall g, In g gray -> reach h g r) -> ordered h done out) /\
    (forall x, owned x out = if ref_in x (types out) then tags_at h x else []) /\
    owners_follow RNil out.
  (** for a list of children of [r], which is already marked *)
  Definition good_children (f : nat) : Prop := forall r cs vis vis' out, (forall c, In c (crefs cs) -> edge h r c) -> In r vis ->
    visit_children (visit f h) r vis cs = Some (vis', out) ->
    visited_ok h vis r vis' out /\ (forall c, In c (crefs cs) -> In c vis') /\ (forall x, In x (types out) -> reach h r x) /\
    (forall done gray, (forall x, In x vis -> In x done \/ In x gray) -> (forall g, In g gray -> reach h g r) -> ordered h done out) /\
    (forall x, x <> r -> owned x out = if ref_in x (types out) then tags_at h x else []) /\
    owned r out = ctags cs /\ owners_follow r out.

  Lemma ref_in_app x a b : ref_in x (a ++ b) = ref_in x a || ref_in x b.
  Proof. apply existsb_app. Qed.

  Lemma children_good f : good f -> good_children f.
  Proof.
    intros G r cs. induction cs as [|c cs IH]; intros vis vis' out Ec Ir E.
    - cbn [visit_children] in E. inversion E; subst vis' out. split; [|split; [|split; [|split; [|split; [|split]]]]].
      + constructor; cbn [types flat_map]; try (intros; contradiction); try constructor; try tauto. intros [?|[]]; assumption.
      + intros c [].
      + intros x [].
      + intros done gray _ _ l1 x l2 c E'. destruct l1; discriminate E'.
      + intros x _. reflexivity.
      + reflexivity.
      + intros l1 o v k l2 E'. destruct l1; discriminate E'.
    - destruct c as [c|v i]; cbn [visit_children] in E.
      + destruct (visit f h vis c) as [[v1 o1]|] eqn:E1; [|discriminate].
        destruct (visit_children (visit f h) r v1 cs) as [[v2 o2]|] eqn:E2; [|discriminate]. inversion E; subst vis' out; clear E.
        destruct (G _ _ _ _ E1) as ([S1 N1 D1 C1 P1] & R1 & RE1 & O1 & T1 & W1).
        assert (Ir1 : In r v1) by (apply S1; auto).
        destruct (IH _ _ _ (fun c0 H => Ec c0 (or_intror H)) Ir1 E2) as ([S2 N2 D2 C2 P2] & R2 & RE2 & O2 & T2 & T2r & W2).
        assert (Edge : edge h r c) by (apply Ec; now left).
        assert (Nr1 : ~ In r (types o1)) by (intros H; apply (N1 r H); exact Ir).
        assert (Nr2 : ~ In r (types o2)) by (intros H; apply (N2 r H); exact Ir1).
        split; [|split; [|split; [|split; [|split; [|split]]]]].
        * constructor.
          -- intros x. rewrite types_app, in_app_iff, S2, S1. tauto.
          -- intros x. rewrite types_app, in_app_iff. intros [H|H]; [now apply N1|]. intros K. apply (N2 x H), S1. auto.
          -- rewrite types_app. apply NoDup_app_intro; [assumption|assumption|]. intros x H K. apply (N2 x K), S1. auto.
          -- intros x y. rewrite types_app, in_app_iff. intros [H|H] Ed; [apply S2; left; eapply C1; eassumption|eapply C2; eassumption].
          -- intros x. rewrite types_app, in_app_iff. intros [H|H]; auto.
        * cbn [crefs flat_map]. intros c0 [<-|H]; [apply S2; auto|auto].
        * intros x. rewrite types_app, in_app_iff. intros [H|H]; [|auto]. eapply reach_step; [exact Edge|auto].
        * intros done gray Hv Hg. apply ordered_app.
          -- apply (O1 done gray); [exact Hv|]. intros g Hgg. eapply reach_snoc; [now apply Hg|exact Edge].
          -- apply (O2 (done ++ types o1) gray); [|exact Hg]. intros x Hx. apply S1 in Hx. rewrite in_app_iff. destruct Hx as [Hx|Hx]; [apply Hv in Hx|]; tauto.
        * intros x Hx. rewrite owned_app, T1, T2, types_app, ref_in_app by assumption.
          destruct (ref_in x (types o1)) eqn:I1; [|reflexivity]. cbn [orb].
          destruct (ref_in x (types o2)) eqn:I2; [|apply app_nil_r]. exfalso. apply ref_in_In in I1, I2. apply (N2 x I2), S1. auto.
        * rewrite owned_app, T1, T2r. apply ref_in_false in Nr1. rewrite Nr1. reflexivity.
        * apply owners_app; [|assumption]. intros l1 o v k l2 Eo. right. destruct (W1 l1 o v k l2 Eo) as [->|H]; [|exact H].
          (* a nil owner cannot have been visited *) exfalso.
          assert (Ho : owned RNil o1 <> []).
          { rewrite Eo, owned_app. cbn [owned flat_map]. destruct (ref_eq_dec RNil RNil); [|congruence]. intros X. apply app_eq_nil in X as [_ X]. discriminate X. }
          apply Ho. rewrite T1. destruct (ref_in RNil (types o1)) eqn:I; [|reflexivity]. apply ref_in_In, P1 in I. destruct I as (cs' & Z). discriminate Z.
      + destruct (visit_children (visit f h) r vis cs) as [[v2 o2]|] eqn:E2; [|discriminate]. inversion E; subst vis' out; clear E.
        destruct (IH _ _ _ Ec Ir E2) as ([S2 N2 D2 C2 P2] & R2 & RE2 & O2 & T2 & T2r & W2).
        split; [constructor; assumption|]. split; [exact R2|]. split; [exact RE2|]. split; [|split; [|split]].
        * intros done gray Hv Hg. apply ordered_skip. now apply (O2 done gray).
        * intros x Hx. cbn [owned flat_map]. destruct (ref_eq_dec r x); [congruence|]. now apply T2.
        * cbn [owned flat_map ctags]. destruct (ref_eq_dec r r); [|congruence]. cbn. f_equal. exact T2r.
        * intros l1 o w k l2 Eo. destruct l1 as [|j l1]; inversion Eo; subst; [auto|]. eapply W2. reflexivity.
  Qed.

  Lemma visit_good f : good f.
  Proof.
    induction f as [|f IH]; intros vis r vis' out E; [discriminate E|]. cbn [visit] in E.
    destruct (ref_in r vis) eqn:I.
    - apply ref_in_In in I. inversion E; subst vis' out. split; [|split; [|split; [|split; [|split]]]].
      + constructor; cbn [types flat_map]; try (intros; contradiction); try constructor; try tauto. intros [?|[]]; assumption.
      + exact I.
      + intros x [].
      + intros done gray _ _ l1 x l2 c E'. destruct l1; discriminate E'.
      + reflexivity.
      + intros l1 o v k l2 E'. destruct l1; discriminate E'.
    - apply ref_in_false in I. destruct (children_of h r) as [cs|] eqn:Ec; [|discriminate].
      destruct (children_of_spec _ _ _ Ec) as (Ed & Tg).
      destruct (visit_children (visit f h) r (r :: vis) cs) as [[v1 o1]|] eqn:E1; [|discriminate]. inversion E; subst vis' out; clear E.
      destruct (children_good f IH r cs (r :: vis) v1 o1 (fun c H => proj1 (Ed c) H) (or_introl eq_refl) E1) as ([S N D C P] & R & RE & O & T & Tr & W).
      assert (Nr : ~ In r (types o1)) by (intros H; apply (N r H); now left).
      assert (Ty : forall x, In x (types (o1 ++ [IType r])) <-> In x (types o1) \/ x = r).
      { intros x. rewrite types_app, in_app_iff. cbn. split; [intros [H|[H|[]]]; auto|intros [H| ->]; auto]. }
      split; [|split; [|split; [|split; [|split]]]].
      + constructor.
        * intros x. rewrite Ty, S. cbn [In]. split; [intros [[H|H]|H]; auto|intros [H|[H|H]]; auto].
        * intros x. rewrite Ty. intros [H| ->]; [|exact I]. intros K. apply (N x H). now right.
        * rewrite types_app. apply NoDup_app_intro; [assumption|repeat constructor; intros []|]. intros x H [K|[]]. subst. contradiction.
        * intros x c. rewrite Ty. intros [H| ->] He; [eapply C; eassumption|]. apply R. now apply Ed.
        * intros x. rewrite Ty. intros [H| ->]; [auto|eauto].
      + apply S. left. now left.
      + intros x. rewrite Ty. intros [H| ->]; [auto|constructor].
      + intros done gray Hv Hg. apply ordered_app.
        * apply (O done (r :: gray)); [|intros g [<-|H]; [constructor|auto]]. intros x [<-|H]; [right; now left|]. destruct (Hv x H); [auto|right; now right].
        * intros l1 x l2 c Ex He. destruct l1 as [|j l1]; [|destruct l1; discriminate Ex]. inversion Ex; subst x l2.
          assert (Hc : In c v1) by (apply R, Ed; exact He). apply S in Hc. destruct Hc as [[<-|Hc]|Hc].
          -- right; right; constructor.
          -- destruct (Hv c Hc) as [K|K]; [right; left; apply in_or_app; auto|right; right; now apply Hg].
          -- right; left; apply in_or_app; auto.
      + intros x. rewrite owned_app, types_app, ref_in_app. cbn [owned flat_map types]. rewrite app_nil_r. cbn [app].
        destruct (ref_eq_dec x r) as [->|Hx].
        * rewrite Tr, Tg. apply ref_in_false in Nr. rewrite Nr. cbn [orb]. replace (ref_in r [r]) with true by (symmetry; apply ref_in_In; now left). reflexivity.
        * rewrite T by assumption. replace (ref_in x [r]) with false by (symmetry; apply ref_in_false; intros [H|[]]; congruence). rewrite orb_false_r. reflexivity.
      + intros l1 o v k l2 Eo. right. apply app_eq_app in Eo. destruct Eo as (l & [(Ea & Eb)|(Ea & Eb)]).
        * destruct l as [|j l]; [cbn in Eb; inversion Eb|]. inversion Eb; subst. destruct (W l1 o v k l eq_refl) as [->|H].
          -- rewrite types_app. apply in_or_app. right. now left.
          -- rewrite types_app. apply in_or_app. now left.
        * destruct l as [|j l]; [cbn in Eb; inversion Eb|]. destruct l; discriminate Eb.
  Qed.
End Visit.
