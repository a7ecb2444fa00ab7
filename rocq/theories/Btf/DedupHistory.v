(** A history of additions keeps every type equivalent to itself. *)
From Coq Require Import ZArith List Lia Bool.
From Verif.Base Require Import GoInt ListExtra.
From Verif.Btf Require Import Types TypesSpec TypesProof DecodeProof Dedup DedupSpec DedupProof.
Import ListNotations.
Open Scope Z_scope.

Section History.
  Variable sum : list wr -> Z.
  Variable key : heading -> bool.
  Variable h0 : heap.
  Variable roots : list ref.
  Hypothesis OD : one_definition key h0 roots.
  Hypothesis GR : forall x, from h0 roots x -> grounded key h0 x.

  Definition live (x : ref) : Prop := from h0 roots x.
  (** the types which can occur: those of the original graph, and new decl tags *)
  Definition occurs (h : heap) (x : ref) : Prop := live x \/ exists a, x = RPtr a /\ (length h0 <= a < length h)%nat.
  Record hp (h : heap) : Prop := {
    hp_len : (length h0 <= length h)%nat;
    hp_same : forall x, live x -> equivalent h0 x h x;
    hp_closed : forall x n, occurs h x -> deref h x = Some n -> Forall (occurs h) (parts n);
    hp_tags : forall a, (length h0 <= a < length h)%nat -> exists t v i, nth_error h a = Some (NDeclTag t v i) /\ live t }.
  Lemma live_small a : live (RPtr a) -> (a < length h0)%nat.
  Proof using GR. intros L. destruct (grounded_supported _ _ _ (GR _ L)) as [E|(n & D & _)]; [discriminate E|]. apply nth_error_Some. cbn in D. congruence. Qed.
  Lemma occurs_mono h h' x : (length h <= length h')%nat -> occurs h x -> occurs h' x.
  Proof using. intros L [O|(a & -> & O)]; [now left|]. right. exists a. split; [reflexivity|lia]. Qed.
  Lemma live_ground h x : hp h -> live x -> grounded key h x.
  Proof using GR. intros H L. exact (grounded_equivalent _ _ _ (GR x L) h x (hp_same h H x L)). Qed.
  Lemma occurs_ground h x : hp h -> occurs h x -> grounded key h x.
  Proof using GR.
    intros H [L|(a & -> & B)]; [now apply live_ground|]. destruct (hp_tags h H a B) as (t & v & i & E & L). eapply grounded_node; [exact E|exact Coq.Init.Logic.I|]. repeat constructor. now apply live_ground.
  Qed.
  Lemma occurs_closed h : hp h -> forall x, occurs h x -> x = RVoid \/ exists n, deref h x = Some n /\ supported n /\ Forall (occurs h) (parts n).
  Proof using GR. intros H x O. destruct (grounded_supported _ _ _ (occurs_ground h x H O)) as [->|(n & D & S)]; [now left|]. right. exists n. split; [exact D|]. split; [exact S|]. exact (hp_closed h H x n O D). Qed.
  Lemma occurs_keys h : hp h -> forall s t n m, occurs h s -> occurs h t -> deref h s = Some n -> deref h t = Some m -> head n = head m -> is_key key n = true -> equivalent h s h t.
  Proof using GR OD.
    intros H s t n m Os Ot Ds Dt Eh K.
    assert (Kt : forall x k, occurs h x -> deref h x = Some k -> head k <> None -> live x). { intros x k [L|(a & -> & B)] D N; [exact L|]. destruct (hp_tags h H a B) as (t' & v & i & E & _). cbn in D. rewrite E in D. injection D as <-. destruct (N eq_refl). }
    assert (Hn : head n <> None) by (unfold is_key in K; destruct (head n); discriminate || congruence).
    pose proof (Kt s n Os Ds Hn) as Ls. assert (Lt : live t) by (apply (Kt t m Ot Dt); congruence).
    pose proof (hp_same h H s Ls) as Es. pose proof (hp_same h H t Lt) as Et.
    destruct (equivalent_inv _ _ _ _ _ (equivalent_sym _ _ _ _ Es) Ds) as (n0 & Dn0 & Sn & _).
    destruct (equivalent_inv _ _ _ _ _ (equivalent_sym _ _ _ _ Et) Dt) as (m0 & Dm0 & Sm & _).
    assert (E : equivalent h0 s h0 t). { apply (OD s t n0 m0 Ls Lt Dn0 Dm0); [rewrite <- (skeleton_head _ _ Sn), <- (skeleton_head _ _ Sm); exact Eh|]. now rewrite <- (skeleton_key key _ _ Sn). }
    eapply equivalent_trans; [apply equivalent_sym; exact Es|]. eapply equivalent_trans; [exact E|exact Et].
  Qed.

  Record DI (d : dedup) : Prop := {
    di_hp : hp (dd_heap d);
    di_done : forall t r, In (t, r) (dd_done d) -> occurs (dd_heap d) r /\ equivalent (dd_heap d) t (dd_heap d) r;
    di_hashed : forall v t, In (v, t) (dd_hashed d) -> occurs (dd_heap d) t;
    di_cache : cache_ok (dd_heap d) (dd_eqCache d) }.
  Lemma DI_heap d h : DI d -> hp h -> advances (dd_heap d) h -> DI (with_dheap d h).
  Proof using.
    intros [H D S C] H' A. destruct d; cbn in *. constructor; cbn; [exact H'| | |].
    - intros t r I. destruct (D t r I) as (O & E). split; [exact (occurs_mono _ _ _ (proj1 A) O)|exact (advances_both _ _ _ _ A E)].
    - intros v t I. exact (occurs_mono _ _ _ (proj1 A) (S v t I)).
    - intros a b I. exact (advances_both _ _ _ _ A (C a b I)).
  Qed.

  Lemma find_done_in m t r : find_done m t = Some r -> In (t, r) m.
  Proof using. induction m as [|[k v] m IH]; [discriminate|]. cbn [find_done]. destruct (ref_eq_dec k t) as [->|]; [|right; auto]. intros E. injection E as ->. now left. Qed.
  Lemma try_ok fuel cs : forall d t d' r, DI d -> occurs (dd_heap d) t -> Forall (occurs (dd_heap d)) cs -> try_candidates fuel d t cs = Some (d', r) ->
    DI d' /\ dd_heap d' = dd_heap d /\ dd_hashed d' = dd_hashed d /\ (r = Ok None \/ exists c, r = Ok (Some c) /\ occurs (dd_heap d) c /\ equivalent (dd_heap d) t (dd_heap d) c).
  Proof using GR OD.
    induction cs as [|c cs IH]; intros d t d' r I Ot F E; cbn [try_candidates] in E.
    - injection E as <- <-. auto.
    - inversion F as [|? ? Oc F']; subst. destruct (typesEquivalent fuel (dd_heap d) [] (dd_eqCache d) c t) as [[e1 r1]|] eqn:E1; [|discriminate E]. destruct I as [H D S C].
      destruct (eq_sound key (dd_heap d) (occurs (dd_heap d)) (occurs_closed _ H) (fun x => occurs_ground _ x H) (occurs_keys _ H) fuel [] (dd_eqCache d) c t e1 r1 Oc Ot C) as (C1 & R1 & N1); [right; intros v []|exact E1|].
      assert (I1 : DI (with_eqCache d e1)) by (destruct d; constructor; assumption).
      destruct r1 as [[]|[|]]; [| |congruence].
      + injection E as <- <-. specialize (R1 eq_refl). apply equivalent_sym in R1. split; [|split; [reflexivity|]; split; [reflexivity|right; exists c; auto]]. destruct d; constructor; cbn in *; auto. intros x y [J|J]; [injection J as <- <-; auto|auto].
      + destruct (IH (with_eqCache d e1) t d' r I1 Ot F' E) as (I' & Eh & Es & R). auto.
  Qed.
  Lemma hashInsert_ok fuel d t d' r : DI d -> occurs (dd_heap d) t -> hashInsert sum fuel d t = Some (d', r) ->
    DI d' /\ dd_heap d' = dd_heap d /\ exists t', r = Ok t' /\ occurs (dd_heap d) t' /\ equivalent (dd_heap d) t (dd_heap d) t'.
  Proof using GR OD.
    intros I Ot E. unfold hashInsert in E. destruct (find_done (dd_done d) t) as [t'|] eqn:Ef.
    - injection E as <- <-. split; [exact I|]. split; [reflexivity|]. exists t'. split; [reflexivity|]. exact (di_done d I t t' (find_done_in _ _ _ Ef)).
    - destruct (hash sum fuel (dd_heap d) (dd_hashCache d) t (-1)) as [[c hr]|] eqn:Eh; [|discriminate E].
      destruct (hash_ok (dd_heap d) (occurs (dd_heap d)) (occurs_closed _ (di_hp d I)) sum fuel (dd_hashCache d) t (-1) c hr Ot Eh) as (hv & ->).
      assert (I1 : DI (with_hashCache d c)) by (destruct I, d; constructor; assumption).
      match type of E with context [try_candidates fuel (with_hashCache d c) t ?l] => set (cs := l) in E end.
      destruct (try_candidates fuel (with_hashCache d c) t cs) as [[d1 r1]|] eqn:Et; [|discriminate E].
      edestruct (try_ok fuel cs (with_hashCache d c) t d1 r1 I1 Ot) with (2 := Et) as (I2 & Eh2 & Es2 & R).
      { apply Forall_forall. intros x Hx. apply in_map_iff in Hx as ((v & y) & <- & Hy). apply filter_In in Hy as (Hy & _). exact (di_hashed _ I1 v y Hy). }
      cbn [with_hashCache dd_heap] in *. destruct R as [->|(cand & -> & Oc & Ec)].
      + injection E as <- <-. split; [|split; [exact Eh2|]].
        * destruct I2 as [H D S C]. constructor; cbn; auto. intros v x Hx. apply in_app_or in Hx as [Hx|[Hx|[]]]; [exact (S v x Hx)|]. injection Hx as <- <-. rewrite Eh2. exact Ot.
        * exists t. split; [reflexivity|]. split; [exact Ot|]. exact (P_refl _ _ (occurs_closed _ (di_hp d I)) t Ot).
      + injection E as <- <-. split; [exact I2|]. split; [exact Eh2|]. eauto.
  Qed.

  Lemma hp_set h a n rs rs' : hp h -> live (RPtr a) -> nth_error h a = Some (set_children n rs) -> is_tag n = false -> length rs = length (refs n) -> length rs' = length rs -> Forall (occurs h) rs' ->
    advances h (set_nth h a (set_children n rs')) -> hp (set_nth h a (set_children n rs')).
  Proof using GR.
    intros H La E T L L' F A. assert (Len : length (set_nth h a (set_children n rs')) = length h) by apply set_nth_length.
    assert (Oc : forall x, occurs h x -> occurs (set_nth h a (set_children n rs')) x) by (intros x; apply occurs_mono; lia).
    constructor.
    - rewrite Len. apply H.
    - intros x Lx. apply A, H, Lx.
    - intros x m Ox D. destruct x as [| |b]; try discriminate D. cbn [deref] in D. destruct (Nat.eq_dec a b) as [<-|Nab].
      + rewrite nth_set_same in D by (apply nth_error_Some; congruence). injection D as <-. rewrite set_children_parts by (try assumption; lia). eapply Forall_impl; [|exact F]. exact Oc.
      + rewrite nth_set_other in D by exact Nab. eapply Forall_impl; [exact Oc|]. apply (hp_closed h H (RPtr b) m); [|exact D]. destruct Ox as [O|(c & Ec & B)]; [now left|right; exists c; rewrite Len in B; auto].
    - intros b B. rewrite Len in B. rewrite nth_set_other; [exact (hp_tags h H b B)|]. pose proof (live_small a La). lia.
  Qed.
  Lemma hp_app h t v i : hp h -> live t -> hp (h ++ [NDeclTag t v i]).
  Proof using GR.
    intros H Lt. assert (Len : length (h ++ [NDeclTag t v i]) = S (length h)) by (rewrite app_length; cbn; lia).
    assert (Oc : forall x, occurs h x -> occurs (h ++ [NDeclTag t v i]) x) by (intros x; apply occurs_mono; lia). constructor.
    - rewrite Len. pose proof (hp_len h H). lia.
    - intros x Lx. apply (refines_advances h); [lia|apply refines_app|]. now apply H.
    - intros x m Ox D. destruct x as [| |b]; try discriminate D. cbn [deref] in D. destruct (Nat.eq_dec b (length h)) as [->|Nb].
      + rewrite nth_error_app2, Nat.sub_diag in D by lia. injection D as <-. repeat constructor. exact Lt.
      + assert (b < length (h ++ [NDeclTag t v i]))%nat by (apply nth_error_Some; congruence). rewrite nth_error_app1 in D by lia. eapply Forall_impl; [exact Oc|]. apply (hp_closed h H (RPtr b) m); [|exact D]. destruct Ox as [O|(c & Ec & B)]; [now left|right; exists c; injection Ec as <-; split; [auto|lia]].
    - intros b B. destruct (Nat.eq_dec b (length h)) as [->|Nb].
      + rewrite nth_error_app2, Nat.sub_diag by lia. cbn. eauto.
      + rewrite nth_error_app1 by lia. apply (hp_tags h H). lia.
  Qed.

  Lemma set_nth_F2 {A} (R : A -> A -> Prop) (l : list A) k x y : (forall z, R z z) -> nth_error l k = Some x -> R x y -> Forall2 R l (set_nth l k y).
  Proof using. intros Hr. revert k. induction l as [|z l IH]; intros [|k] E Rxy; try discriminate E; cbn [set_nth]; constructor; auto; [injection E as ->; exact Rxy|]. apply F2_diag. exact Hr. Qed.
  Lemma set_nth_Forall {A} (Q : A -> Prop) (l : list A) k y : Forall Q l -> Q y -> Forall Q (set_nth l k y).
  Proof using. intros F. revert k. induction F; intros [|k] Qy; cbn [set_nth]; constructor; auto. Qed.
  Lemma skipn_nth {A} (l : list A) k x m : skipn k l = x :: m -> nth_error l k = Some x /\ skipn (S k) l = m.
  Proof using. revert k. induction l as [|y l IH]; intros [|k] E; cbn [skipn nth_error] in *; try discriminate E; [injection E as -> ->; auto|]. exact (IH k E). Qed.
  Lemma skipn_set {A} (l : list A) k y : skipn (S k) (set_nth l k y) = skipn (S k) l.
  Proof using. revert k. induction l as [|z l IH]; intros [|k]; try reflexivity. cbn [set_nth]. change (skipn (S k) (set_nth l k y) = skipn (S k) l). apply IH. Qed.

  Lemma children_ok fuel a n cs : live (RPtr a) -> is_tag n = false -> forall d rs k d' r, DI d -> nth_error (dd_heap d) a = Some (set_children n rs) -> length rs = length (refs n) -> child_refs cs = skipn k rs ->
    dedup_children sum fuel d a n rs k cs = Some (d', r) -> DI d' /\ advances (dd_heap d) (dd_heap d') /\ r = Ok tt.
  Proof using GR OD.
    intros La T. induction cs as [|[c|v i] cs IH]; intros d rs k d' r I Ea L Ec E; cbn [dedup_children] in E.
    - injection E as <- <-. split; [exact I|]. split; [apply advances_refl|reflexivity].
    - cbn [child_refs flat_map app] in Ec. fold (child_refs cs) in Ec. symmetry in Ec. destruct (skipn_nth rs k c _ Ec) as (Nk & Sk).
      assert (Frs : Forall (occurs (dd_heap d)) rs). { pose proof (hp_closed _ (di_hp d I) (RPtr a) _ (or_introl La) Ea) as F. now rewrite set_children_parts in F by assumption. }
      assert (Oc : occurs (dd_heap d) c) by (rewrite Forall_forall in Frs; apply Frs; eapply nth_error_In; exact Nk).
      destruct (hashInsert sum fuel d c) as [[d1 r1]|] eqn:E1; [|discriminate E]. destruct (hashInsert_ok fuel d c d1 r1 I Oc E1) as (I1 & Eh & c' & -> & Oc' & Ecc).
      set (rs' := set_nth rs k c') in *. assert (L' : length rs' = length rs) by apply set_nth_length.
      assert (A : advances (dd_heap d) (set_nth (dd_heap d) a (set_children n rs'))).
      { apply refines_advances; [rewrite set_nth_length; lia|]. apply (refines_set _ a n rs rs' Ea T L). apply (set_nth_F2 _ rs k c c'); auto. }
      assert (H' : hp (set_nth (dd_heap d) a (set_children n rs'))). { apply (hp_set _ a n rs rs' (di_hp d I) La Ea T L L'); [|exact A]. now apply set_nth_Forall. }
      rewrite Eh in E. rewrite <- Eh in H', A.
      assert (I2 : DI (with_dheap d1 (set_nth (dd_heap d) a (set_children n rs')))) by (rewrite <- Eh; apply DI_heap; assumption).
      edestruct (IH _ rs' (S k) d' r I2) with (4 := E) as (I' & A' & ->).
      + cbn [with_dheap dd_heap]. apply nth_set_same. apply nth_error_Some. congruence.
      + lia.
      + unfold rs'. now rewrite skipn_set.
      + split; [exact I'|]. split; [|reflexivity]. cbn [with_dheap dd_heap] in A'. rewrite Eh in A. exact (advances_trans _ _ _ A A').
    - cbn [child_refs flat_map app] in Ec. fold (child_refs cs) in Ec.
      set (d1 := with_dheap d (dd_heap d ++ [NDeclTag (RPtr a) v i])) in *.
      assert (A : advances (dd_heap d) (dd_heap d1)) by (apply refines_advances; [cbn; rewrite app_length; lia|apply refines_app]).
      assert (I1 : DI d1) by (apply DI_heap; [exact I|apply hp_app; [apply I|exact La]|exact A]).
      assert (Ot : occurs (dd_heap d1) (RPtr (length (dd_heap d)))). { right. exists (length (dd_heap d)). split; [reflexivity|]. cbn. rewrite app_length. cbn. pose proof (hp_len _ (di_hp d I)). lia. }
      destruct (hashInsert sum fuel d1 (RPtr (length (dd_heap d)))) as [[d2 r2]|] eqn:E2; [|discriminate E]. destruct (hashInsert_ok fuel d1 _ d2 r2 I1 Ot E2) as (I2 & Eh & t' & -> & _ & _).
      edestruct (IH d2 rs k d' r I2) with (4 := E) as (I' & A' & ->); auto.
      + rewrite Eh. cbn. rewrite nth_error_app1; [exact Ea|]. apply nth_error_Some. congruence.
      + split; [exact I'|]. split; [|reflexivity]. rewrite Eh in A'. exact (advances_trans _ _ _ A A').
  Qed.
  Lemma child_refs_children h n : child_refs (children h n) = refs n.
  Proof using. exact (children_refs h n). Qed.
  Lemma items_ok fuel items : forall d d' r, DI d -> (forall x, In (IType x) items -> occurs (dd_heap d) x) -> dedup_items sum fuel d items = Some (d', r) ->
    DI d' /\ advances (dd_heap d) (dd_heap d') /\ r = Ok tt.
  Proof using GR OD.
    induction items as [|it items IH]; intros d d' r I Ho E; cbn [dedup_items] in E.
    - injection E as <- <-. split; [exact I|]. split; [apply advances_refl|reflexivity].
    - assert (Hskip : dedup_items sum fuel d items = Some (d', r) -> DI d' /\ advances (dd_heap d) (dd_heap d') /\ r = Ok tt) by (apply IH; [exact I|intros x Hx; apply Ho; now right]).
      destruct it as [[| |a]|o v i]; try exact (Hskip E). destruct (nth_error (dd_heap d) a) as [n|] eqn:En; [|discriminate E].
      destruct (dedup_children sum fuel d a n _ 0 _) as [[d1 r1]|] eqn:E1; [|discriminate E].
      assert (Hc : DI d1 /\ advances (dd_heap d) (dd_heap d1) /\ r1 = Ok tt).
      { destruct (is_tag n) eqn:T.
        - destruct n; try discriminate T. cbn in E1. injection E1 as <- <-. split; [exact I|]. split; [apply advances_refl|reflexivity].
        - assert (La : live (RPtr a)). { destruct (Ho (RPtr a) (or_introl eq_refl)) as [O|(b & Eb & B)]; [exact O|]. injection Eb as <-. destruct (hp_tags _ (di_hp d I) a B) as (t & v & i & E' & _). rewrite E' in En. injection En as <-. discriminate T. }
          rewrite child_refs_children in E1. refine (children_ok fuel a n _ La T d (refs n) 0 d1 r1 I _ eq_refl _ E1); [now rewrite set_children_refs|apply child_refs_children]. }
      destruct Hc as (I1 & A1 & ->). edestruct (IH d1 d' r I1) with (2 := E) as (I' & A' & ->); [intros x Hx; apply (occurs_mono _ _ _ (proj1 A1)), Ho; now right|]. split; [exact I'|]. split; [exact (advances_trans _ _ _ A1 A')|reflexivity].
  Qed.
  Lemma reach_occurs h x y : hp h -> reach h x y -> occurs h x -> occurs h y.
  Proof using.
    intros H R. induction R as [|x y z (n & D & J) R IH]; [auto|]. intros O. apply IH. pose proof (hp_closed h H x n O D) as F. rewrite Forall_forall in F. apply F. destruct n; try exact J; destruct J.
  Qed.
  Lemma deduplicate_ok fuel d t d' r : DI d -> live t -> deduplicate sum fuel d t = Some (d', r) ->
    DI d' /\ advances (dd_heap d) (dd_heap d') /\ exists t', r = Ok t' /\ equivalent h0 t (dd_heap d') t'.
  Proof using GR OD.
    intros I L E. unfold deduplicate in E. destruct (find_done (dd_done d) t) as [t'|] eqn:Ef.
    - injection E as <- <-. split; [exact I|]. split; [apply advances_refl|]. exists t'. split; [reflexivity|]. eapply equivalent_trans; [exact (hp_same _ (di_hp d I) t L)|]. exact (proj2 (di_done d I t t' (find_done_in _ _ _ Ef))).
    - destruct (postorder (dd_heap d) (dd_visited d) t) as [[vis items]|] eqn:Ep; [|discriminate E].
      destruct (visit_good (dd_heap d) _ _ _ _ _ Ep) as (_ & _ & Re & _).
      destruct (dedup_items sum fuel (with_visited d vis) items) as [[d1 r1]|] eqn:E1; [|discriminate E].
      assert (I0 : DI (with_visited d vis)) by (destruct I, d; constructor; assumption).
      edestruct (items_ok fuel items (with_visited d vis) d1 r1 I0) with (2 := E1) as (I1 & A1 & ->).
      { intros x Hx. apply types_In, Re in Hx. exact (reach_occurs _ _ _ (di_hp d I) Hx (or_introl L)). }
      destruct (hashInsert_ok fuel d1 t d' r I1 (or_introl L) E) as (I' & Eh & t' & -> & _ & Et). split; [exact I'|]. rewrite Eh. split; [exact A1|]. exists t'. split; [reflexivity|]. eapply equivalent_trans; [exact (hp_same _ (di_hp d1 I1) t L)|exact Et].
  Qed.
  Theorem dedup_all_ok fuel ts : forall d d' rs, DI d -> Forall live ts -> dedup_all sum fuel d ts = Some (d', rs) ->
    DI d' /\ advances (dd_heap d) (dd_heap d') /\ Forall2 (fun t r => exists t', r = Ok t' /\ equivalent h0 t (dd_heap d') t') ts rs.
  Proof using GR OD.
    induction ts as [|t ts IH]; intros d d' rs I F E; cbn [dedup_all] in E.
    - injection E as <- <-. split; [exact I|]. split; [apply advances_refl|constructor].
    - inversion F as [|? ? Lt F']; subst. destruct (deduplicate sum fuel d t) as [[d1 r]|] eqn:E1; [|discriminate E]. destruct (dedup_all sum fuel d1 ts) as [[d2 rs2]|] eqn:E2; [|discriminate E]. injection E as <- <-.
      destruct (deduplicate_ok fuel d t d1 r I Lt E1) as (I1 & A1 & t' & -> & Et). destruct (IH d1 d2 rs2 I1 F' E2) as (I2 & A2 & F2). split; [exact I2|]. split; [exact (advances_trans _ _ _ A1 A2)|]. constructor; [|exact F2]. exists t'. split; [reflexivity|]. apply A2. exact Et.
  Qed.
  Lemma live_link x y : live x -> link h0 x y -> live y.
  Proof using.
    intros (t & It & R) K. exists t. split; [exact It|]. clear It. revert K. induction R as [|x y' z L R IH]; intros K; [eapply reaches_step; [exact K|constructor]|]. eapply reaches_step; [exact L|auto].
  Qed.
  Lemma DI_new : DI (newDeduper h0).
  Proof using GR.
    constructor; cbn; try (intros; contradiction); [constructor|intros a b []].
    - lia.
    - intros x L. apply (equivalent_refl h0 live); [|exact L]. intros y Ly. destruct (grounded_supported _ _ _ (GR y Ly)) as [->|(n & D & _)]; [now left|]. right. exists n. split; [exact D|]. apply Forall_forall. intros z Hz. apply (live_link y z Ly). exists n. auto.
    - intros x n [L|(a & -> & B)] D; [|lia]. apply Forall_forall. intros z Hz. left. apply (live_link x z L). exists n. auto.
    - intros a B. lia.
  Qed.
End History.
