(** C42: CheckTypeCompatibility decides the documented relation.  C55: coreTypesMatch (bpf_core_type_matches). *)
From Coq Require Import ZArith List Lia Bool.
From Verif.Base Require Import GoInt.
From Verif.Btf Require Import Names Types TypesProof.
From Verif.Core Require Import Compat CompatSpec CompatProof.
Import ListNotations.
Open Scope Z_scope.

(** ** C42 *)
Lemma deref_in_heap h x n : deref h x = Some n -> in_heap h x.
Proof. destruct x as [| |a]; cbn [deref]; try discriminate. intros E. exists a. split; [reflexivity|]. apply nth_error_Some. congruence. Qed.
Lemma sub_params_In ps qs a b : length ps = length qs -> (forall R : ref -> ref -> Prop, (forall s, In s (sub_params ps qs) -> exists x y, s = Sub x y /\ R x y) <-> Forall2 (fun p q => R (p_type p) (p_type q)) ps qs) /\ (In (Sub a b) (sub_params ps qs) -> True).
Proof.
  intros L. split; [|trivial]. revert qs L. induction ps as [|p ps IH]; intros [|q qs] L R; try discriminate L; cbn [sub_params].
  - split; [constructor|intros _ s []].
  - split.
    + intros H. constructor; [destruct (H _ (or_introl eq_refl)) as (x & y & E & r); inversion E; subst; exact r|]. apply IH; [cbn in L; lia|]. intros s I. apply H. now right.
    + intros F. inversion F as [|? ? ? ? r F']; subst. intros s [<-|I]; [eauto|]. revert s I. apply IH; [cbn in L; lia|exact F'].
Qed.
Lemma sub_params_iff ps qs (R : ref -> ref -> Prop) : length ps = length qs -> (forall s, In s (sub_params ps qs) -> exists x y, s = Sub x y /\ R x y) <-> Forall2 (fun p q => R (p_type p) (p_type q)) ps qs.
Proof. intros L. apply (proj1 (sub_params_In ps qs RNil RNil L)). Qed.
Lemma Forall2_len {A B} (P : A -> B -> Prop) a b : Forall2 P a b -> length a = length b.
Proof. induction 1; cbn; auto. Qed.

Lemma compat_sub_in_heap h a b x y : In (Sub x y) (compat_steps h a b) -> in_heap h a /\ in_heap h b.
Proof.
  unfold compat_steps. destruct a as [| |a]; [cbn; intros [E|[]]; discriminate E|intros []|].
  destruct (deref h (RPtr a)) as [n|] eqn:D; [|intros [E|[]]; discriminate E].
  destruct n; try (intros [E|[]]; discriminate E); try (intros []); destruct (deref h b) as [m|] eqn:D'; try (intros [E|[]]; discriminate E); destruct m; try (intros [E|[]]; discriminate E);
    intros _; split; eapply deref_in_heap; eassumption.
Qed.
Ltac fail_case := split; [intros (P & H); destruct (H _ (or_introl eq_refl)) as (? & ? & ? & _); discriminate|intros H; inversion H; subst; cbn [deref] in *; congruence].
Lemma compat_rule_iff h R x y : step_rule (compat_pre h) (compat_steps h) R x y <-> compat_rule h R x y.
Proof.
  unfold step_rule, compat_pre, compat_steps. destruct x as [| |a].
  - cbn [deref]. fail_case.
  - split.
    + intros (P & _). cbn [dyn] in P. destruct y as [| |b]; [discriminate P|constructor|]. cbn [dyn] in P. destruct (nth_error h b) as [[]|]; discriminate P.
    + intros H. inversion H; subst; try discriminate. split; [reflexivity|intros s []].
  - cbn [dyn]. change (nth_error h a) with (deref h (RPtr a)). destruct (deref h (RPtr a)) as [n|] eqn:D; [|fail_case].
    assert (DY : forall z, (if z =? dyn h (Some y) then None else Some Incompatible) = None <-> dyn h (Some y) = z).
    { intros z. destruct (Z.eqb_spec z (dyn h (Some y))); split; congruence. }
    assert (Ty : forall k, dyn h (Some y) = k -> (k = 0 -> y = RVoid) /\ (0 < k -> exists m, deref h y = Some m)).
    { intros k E. destruct y as [| |b]; cbn [dyn] in E; [lia|split; [reflexivity|lia]|]. cbn [deref]. destruct (nth_error h b) as [m|]; [|lia]. split; [destruct m; lia|eauto]. }
    assert (Dn : forall m, deref h y = Some m -> dyn h (Some y) = match m with NInt _ _ _ => 1 | NPtr _ => 2 | NArray _ _ _ => 3 | NStruct _ _ _ _ => 4 | NUnion _ _ _ _ => 5 | NEnum _ _ _ _ => 6
          | NFwd _ _ => 7 | NTypedef _ _ _ => 8 | NVolatile _ => 9 | NConst _ => 10 | NRestrict _ => 11 | NFunc _ _ _ _ _ => 12
          | NFuncProto _ _ => 13 | NVar _ _ _ _ => 14 | NDatasec _ _ _ => 15 | NFloat _ _ => 16 | NDeclTag _ _ _ => 17 | NTypeTag _ _ => 18 | NCycle _ => 100 end).
    { intros m E. destruct y as [| |b]; cbn [deref] in E; try discriminate E. cbn [dyn]. rewrite E. reflexivity. }
    destruct n; rewrite DY; try (split; [intros (P & H); destruct (Ty _ P) as (_ & T); destruct (T ltac:(lia)) as (m & Em); rewrite (Dn m Em) in P; destruct m; try discriminate P;
        try (destruct (H _ (or_introl eq_refl)) as (? & ? & ? & _); discriminate); econstructor; eassumption|
        intros H; inversion H; subst; try congruence; (split; [erewrite Dn by eassumption; reflexivity|intros ? []])]).
    + (* pointer *) split.
      * intros (P & H). destruct (Ty _ P) as (_ & T). destruct (T ltac:(lia)) as (m & Em). rewrite (Dn m Em) in P. rewrite Em in H. destruct m; try discriminate P.
        destruct (H _ (or_introl eq_refl)) as (u & v & E & r). inversion E; subst. eapply cr_ptr; eassumption.
      * intros H. inversion H; subst; try congruence. match goal with H : deref h y = _ |- _ => rewrite H; split; [rewrite (Dn _ H); reflexivity|] end. intros s [<-|[]]. replace target with a0 by congruence. eauto.
    + (* array *) split.
      * intros (P & H). destruct (Ty _ P) as (_ & T). destruct (T ltac:(lia)) as (m & Em). rewrite (Dn m Em) in P. rewrite Em in H. destruct m; try discriminate P.
        destruct (H _ (or_introl eq_refl)) as (u & v & E & r). destruct (H _ (or_intror (or_introl eq_refl))) as (u' & v' & E' & r'). inversion E; inversion E'; subst. eapply cr_array; eassumption.
      * intros H. inversion H as [| | | | | | |? ? i0 e0 n0 i' e' n' D1 D2 r1 r2|]; subst; try congruence. rewrite D2. split; [rewrite (Dn _ D2); reflexivity|]. assert (index = i0 /\ elem = e0) as (-> & ->) by (split; congruence). intros s [<-|[<-|[]]]; eauto.
    + (* function prototype *) split.
      * intros (P & H). destruct (Ty _ P) as (_ & T). destruct (T ltac:(lia)) as (m & Em). rewrite (Dn m Em) in P. rewrite Em in H. destruct m as [| | | | | | | | | | | |ret' params'| | | | | |]; try discriminate P.
        destruct (H _ (or_introl eq_refl)) as (u & v & E & r). inversion E; subst. destruct (Nat.eqb_spec (length params) (length params')) as [L|].
        -- eapply cr_func; try eassumption. apply sub_params_iff; [exact L|]. intros s I. apply H. now right.
        -- destruct (H _ (or_intror (or_introl eq_refl))) as (? & ? & ? & _). discriminate.
      * intros H. inversion H as [| | | | | | | |? ? r0 ps0 r' qs D1 D2 Rr F]; subst; try congruence. rewrite D2. split; [rewrite (Dn _ D2); reflexivity|]. assert (ret = r0 /\ params = ps0) as (-> & ->) by (split; congruence).
        rewrite (Forall2_len _ _ _ F), Nat.eqb_refl. intros s [<-|I]; [eauto|]. revert s I. apply sub_params_iff; [eapply Forall2_len; exact F|exact F].
Qed.

(** The check terminates on every pair of types, cyclic or not. *)
Theorem C42_terminates : forall h l t, exists r, CheckTypeCompatibility h l t = Some r.
Proof.
  intros h l t. unfold CheckTypeCompatibility. destruct (check_terminates h (compat_pre h) (compat_steps h) (compat_sub_in_heap h) l t) as (r & ->). destruct r; eauto.
Qed.
(** It accepts exactly the pairs in the largest relation that follows the rules. *)
Theorem C42_exact : forall h l t, CheckTypeCompatibility h l t = Some (Ok tt) <-> compatible h l t.
Proof.
  intros h l t. unfold compatible. rewrite <- (largest_iff h (step_rule (compat_pre h) (compat_steps h)) _ l t (compat_rule_iff h)).
  rewrite <- (check_iff h (compat_pre h) (compat_steps h) (compat_sub_in_heap h) l t). unfold CheckTypeCompatibility. split.
  - destruct (check _ _ _ _ _ _ _) as [[w|e]|]; try discriminate. eauto.
  - intros (w & ->). reflexivity.
Qed.
(** A supported type is compatible with itself. *)
Theorem C42_reflexive : forall h t, supported h t -> CheckTypeCompatibility h t t = Some (Ok tt).
Proof.
  intros h t (S & St & C). apply C42_exact. exists (fun x y => x = y /\ S x). split; [auto|]. intros x y (<- & Sx). destruct (C x Sx) as (z & Z & K & P). exists z, z. split; [exact Z|]. split; [exact Z|].
  destruct K as [->|(n & D & K)]; [constructor|]. destruct n; try contradiction; try (econstructor; eassumption).
  - eapply cr_ptr; try eassumption. split; [reflexivity|]. apply P. econstructor. exact D.
  - eapply cr_array; try eassumption; (split; [reflexivity|]); apply P; [eapply part_index; exact D|eapply part_elem; exact D].
  - eapply cr_func; try eassumption; [split; [reflexivity|]; apply P; eapply part_ret; exact D|].
    assert (G : forall p, In p params -> S (p_type p)) by (intros p I; apply P; eapply part_param; eassumption). clear -G. induction params as [|p ps IH]; constructor; [split; [reflexivity|]; apply G; now left|]. apply IH. intros q I. apply G. now right.
Qed.
(** If neither type has unsupported parts, the error is the one that says "incompatible". *)
Theorem C42_error : forall h l t e, supported h l -> supported h t -> CheckTypeCompatibility h l t = Some (Err e) -> e = Incompatible.
Proof.
  intros h l t e (S & Sl & CS) (Q & Qt & CQ) E. unfold CheckTypeCompatibility in E. destruct (check _ _ _ _ _ _ _) as [[w|e']|] eqn:K; try discriminate E. inversion E; subst e'. clear E.
  assert (G : forall f v l t e, S l -> Q t -> check h (compat_pre h) (compat_steps h) f v l t = Some (Err e) -> e = Incompatible); [|eapply G; [exact Sl|exact Qt|exact K]]. clear - CS CQ.
  induction f as [|f IH]; intros v l t e Sl Qt E; cbn [check] in E; [discriminate E|].
  destruct (CS l Sl) as (a & A & Ka & Pa), (CQ t Qt) as (b & B & Kb & Pb). apply Underlying_stripped in A. apply Underlying_stripped in B. rewrite A, B in E.
  change (compat_pre h (Some a) (Some b)) with (if dyn h (Some a) =? dyn h (Some b) then None else Some Incompatible) in E. destruct (Z.eqb_spec (dyn h (Some a)) (dyn h (Some b))) as [Ed|]; [|congruence]. destruct (pair_in (a, b) v); [discriminate E|].
  assert (Steps : forall s, In s (compat_steps h a b) -> match s with Sub x y => S x /\ Q y | Fail e => e = Incompatible end).
  { unfold compat_steps. intros s I. destruct Ka as [->|(n & D & Kn)]; [destruct I|]. destruct a as [| |a]; cbn [deref] in D; try discriminate D. change (nth_error h a) with (deref h (RPtr a)) in D. rewrite D in I.
    destruct Kb as [->|(m & Dm & Km)].
    { exfalso. cbn [dyn] in Ed. change (nth_error h a) with (deref h (RPtr a)) in Ed. rewrite D in Ed. destruct n; try discriminate Ed; contradiction. }
    destruct b as [| |b]; cbn [deref] in Dm; try discriminate Dm. change (nth_error h b) with (deref h (RPtr b)) in Dm. rewrite Dm in I.
    cbn [dyn] in Ed. change (nth_error h a) with (deref h (RPtr a)) in Ed. change (nth_error h b) with (deref h (RPtr b)) in Ed. rewrite D, Dm in Ed.
    destruct n; try contradiction; destruct m; try contradiction; try discriminate Ed; try (destruct I).
    - subst s. split; [apply Pa|apply Pb]; econstructor; eassumption.
    - destruct H.
    - subst s. split; [apply Pa|apply Pb]; eapply part_index; eassumption.
    - destruct H as [<-|[]]. split; [apply Pa|apply Pb]; eapply part_elem; eassumption.
    - subst s. split; [apply Pa|apply Pb]; eapply part_ret; eassumption.
    - destruct (length params =? length params0)%nat; [|destruct H as [<-|[]]; reflexivity].
      assert (GS : forall p, In p params -> S (p_type p)) by (intros p J; apply Pa; eapply part_param; eassumption). assert (GQ : forall p, In p params0 -> Q (p_type p)) by (intros p J; apply Pb; eapply part_param; eassumption).
      revert H GS GQ. clear. revert params0. induction params as [|p ps IH]; intros [|q qs] H GS GQ; try contradiction. cbn [sub_params] in H. destruct H as [<-|H]; [split; [apply GS|apply GQ]; now left|].
      eapply IH; [exact H|intros r J; apply GS; now right|intros r J; apply GQ; now right]. }
  revert E Steps. generalize (compat_steps h a b). generalize ((a, b) :: v). intros v' ss. revert v'. induction ss as [|[x y|e'] ss IHs]; intros v' E G; cbn [run_steps] in E; [discriminate E| |].
  - destruct (G _ (or_introl eq_refl)) as (Sx & Qy). destruct (check h (compat_pre h) (compat_steps h) f v' x y) as [[w|e']|] eqn:K; [|inversion E; subst; eapply IH; [exact Sx|exact Qy|exact K]|discriminate E].
    eapply IHs; [exact E|]. intros s I. apply G. now right.
  - inversion E; subst. exact (G _ (or_introl eq_refl)).
Qed.

(** C42 at work: a list type (struct list { struct list *next }) is modelled with its pointer, a typedef of it, an int and
    a recursive function pointer: ptr 2 -> proto 3 returning ptr 2. *)
Definition c42_heap : heap :=
  [ NStruct [115] 8 [mkMember [110] (RPtr 1) 0 0 []] []; NPtr (RPtr 0); NPtr (RPtr 3); NFuncProto (RPtr 2) [mkParam [] (RPtr 4)]; NInt [105] 4 1; NTypedef [116] (RPtr 1) [];
    NPtr (RPtr 7); NFuncProto (RPtr 5) [mkParam [] (RPtr 4)] ].
Example C42_example :
  CheckTypeCompatibility c42_heap (RPtr 2) (RPtr 2) = Some (Ok tt) /\ CheckTypeCompatibility c42_heap (RPtr 5) (RPtr 1) = Some (Ok tt) /\
  CheckTypeCompatibility c42_heap (RPtr 2) (RPtr 6) = Some (Err Incompatible) /\ CheckTypeCompatibility [NFloat [] 4] (RPtr 0) (RPtr 0) = Some (Err Unsupported).
Proof. repeat split; reflexivity. Qed.
Example C42_supported_example : supported c42_heap (RPtr 2).
Proof.
  assert (St : forall a n, nth_error c42_heap a = Some n -> match n with NPtr _ | NFuncProto _ _ | NInt _ _ _ => True | _ => False end -> stripped c42_heap (RPtr a) (RPtr a)).
  { intros a n E K. exists 0%nat. split; [lia|]. constructor. intros y (m & E' & W). cbn [deref] in E'. rewrite E in E'. inversion E'; subst m. destruct n; try contradiction; destruct W as [(s' & tg' & X)|[X|[X|[X|(v' & X)]]]]; discriminate X. }
  exists (fun x => x = RPtr 2 \/ x = RPtr 3 \/ x = RPtr 4). split; [auto|]. intros y [ -> | [ -> | -> ] ]; eexists; (split; [eapply St; [reflexivity|exact I]|]); (split; [right; eexists; split; [reflexivity|exact I]|]); intros w P; inversion P; subst; cbn [deref nth_error c42_heap] in *; try discriminate;
    match goal with H : Some _ = Some _ |- _ => inversion H; subst end; auto.
  match goal with H : In _ _ |- _ => destruct H as [<-|[]] end. cbn. auto.
Qed.

(** ** C55 *)
Lemma str_eqb_eq a b : str_eqb a b = true <-> a = b.
Proof. unfold str_eqb. destruct (list_eq_dec Z.eq_dec a b); split; congruence. Qed.
Lemma names_agree_iff a b : coreEssentialNamesMatch a b = true <-> names_agree a b.
Proof.
  unfold coreEssentialNamesMatch, names_agree. destruct a as [|x a]; [tauto|]. destruct b as [|y b]; [tauto|]. rewrite str_eqb_eq. split; [auto|]. intros [E|[E|E]]; [discriminate E|discriminate E|exact E].
Qed.
Lemma last_member_spec name ms : match last_member name ms with Some m => last_named ms name m | None => forall m, In m ms -> m_name m <> name end.
Proof.
  induction ms as [|m ms IH]; cbn [last_member]; [intros m []|]. destruct (last_member name ms) as [m'|].
  - destruct IH as (p & q & -> & E & N). exists (m :: p), q. split; [reflexivity|]. auto.
  - destruct (str_eqb (m_name m) name) eqn:E.
    + apply str_eqb_eq in E. exists [], ms. split; [reflexivity|]. auto.
    + intros m' [<-|I]; [|now apply IH]. intros X. apply str_eqb_eq in X. congruence.
Qed.
Lemma last_named_In ms name m : last_named ms name m -> In m ms.
Proof. intros (p & q & -> & _). apply in_elt. Qed.
Lemma last_named_fun ms name m m' : last_named ms name m -> last_named ms name m' -> m = m'.
Proof.
  intros (p & q & -> & E & N) (p' & q' & X & E' & N'). revert p' X. induction p as [|a p IH]; intros [|b p'] X; cbn in X; inversion X; subst; auto.
  - exfalso. apply (N m'); [apply in_elt|congruence].
  - exfalso. apply (N' m); [apply in_elt|congruence].
  - eapply IH; eassumption.
Qed.
Lemma last_member_iff name ms m : last_member name ms = Some m <-> last_named ms name m.
Proof.
  pose proof (last_member_spec name ms) as H. split; [intros E; rewrite E in H; exact H|]. intros L. destruct (last_member name ms) as [m'|]; [f_equal; eapply last_named_fun; eassumption|].
  exfalso. apply (H m); [eapply last_named_In; exact L|]. destruct L as (p & q & _ & E & _). exact E.
Qed.
Lemma as_fwd_iff h x k : as_fwd h x = Some k <-> exists n, forward h x n k.
Proof.
  unfold as_fwd, forward. split.
  - destruct (UnderlyingType h x) as [r|] eqn:U; [|discriminate]. apply Underlying_stripped in U. destruct (deref h r) as [[]|] eqn:D; try discriminate. intros E. inversion E; subst. eauto.
  - intros (n & z & S & D). apply Underlying_stripped in S. rewrite S, D. reflexivity.
Qed.
Lemma fwd_matches_iff h x k : fwd_matches h k x = true <-> exists n, defined h x n k.
Proof.
  unfold fwd_matches, defined. split.
  - destruct (UnderlyingType h x) as [r|] eqn:U; [|discriminate]. apply Underlying_stripped in U. destruct (deref h r) as [[]|] eqn:D; try discriminate; intros E; apply Z.eqb_eq in E; eauto 10.
  - intros (n & z & s & ms & tg & S & D). apply Underlying_stripped in S. rewrite S. destruct D as [(-> & ->)|(-> & ->)]; reflexivity.
Qed.
Lemma stripped_not h x y : stripped h x y -> forall z, ~ wrapper h y z.
Proof. intros (n & _ & R). induction R; auto. Qed.

Lemma match_sub_in_heap h a b x y : In (Sub x y) (match_steps h a b) -> in_heap h a /\ in_heap h b.
Proof.
  unfold match_steps. destruct a as [| |a]; [cbn; intros [E|[]]; discriminate E|intros []|].
  destruct (deref h (RPtr a)) as [n|] eqn:D; [|intros [E|[]]; discriminate E].
  destruct n; destruct (deref h b) as [m|] eqn:D'; try (intros [E|[]]; discriminate E); destruct m; try (intros [E|[]]; discriminate E);
    intros _; split; eapply deref_in_heap; eassumption.
Qed.
Theorem C55_terminates : forall h l t, exists r, coreTypesMatch h l t = Some r.
Proof.
  intros h l t. unfold coreTypesMatch. destruct (check_terminates h (match_pre h) (match_steps h) (match_sub_in_heap h) l t) as (r & ->). destruct r; eauto.
Qed.
Definition ctor (n : node) : Z :=
  match n with
  | NInt _ _ _ => 1 | NPtr _ => 2 | NArray _ _ _ => 3 | NStruct _ _ _ _ => 4 | NUnion _ _ _ _ => 5 | NEnum _ _ _ _ => 6
  | NFwd _ _ => 7 | NTypedef _ _ _ => 8 | NVolatile _ => 9 | NConst _ => 10 | NRestrict _ => 11 | NFunc _ _ _ _ _ => 12
  | NFuncProto _ _ => 13 | NVar _ _ _ _ => 14 | NDatasec _ _ _ => 15 | NFloat _ _ => 16 | NDeclTag _ _ _ => 17 | NTypeTag _ _ => 18 | NCycle _ => 100
  end.
Lemma dyn_deref h x n : deref h x = Some n -> dyn h (Some x) = ctor n.
Proof. destruct x as [| |a]; cbn [deref dyn]; try discriminate. intros ->. reflexivity. Qed.
Lemma dyn_inv h y k : dyn h (Some y) = k -> 0 < k -> exists m, deref h y = Some m /\ ctor m = k.
Proof. destruct y as [| |b]; cbn [deref dyn]; try lia. destruct (nth_error h b) as [m|]; [|lia]. intros E _. exists m. split; [reflexivity|exact E]. Qed.
Lemma match_pre_iff h x y n m : deref h x = Some n -> deref h y = Some m -> match_pre h (Some x) (Some y) = None <-> names_agree (type_name n) (type_name m) /\ ctor n = ctor m.
Proof.
  intros D D'. unfold match_pre. cbn [name_of]. rewrite D, D', (dyn_deref _ _ _ D), (dyn_deref _ _ _ D'). rewrite <- names_agree_iff.
  destruct (coreEssentialNamesMatch _ _); cbn [negb]; [|split; [discriminate|intros (? & _); discriminate]]. destruct (Z.eqb_spec (ctor n) (ctor m)); split; try tauto; try discriminate; intros (_ & ?); congruence.
Qed.
Lemma ctor_pos n : 0 < ctor n.
Proof. destruct n; cbn; lia. Qed.
Lemma match_pre_inv h x y n : deref h x = Some n -> match_pre h (Some x) (Some y) = None -> exists m, deref h y = Some m /\ ctor m = ctor n /\ names_agree (type_name n) (type_name m).
Proof.
  intros D P. assert (E : dyn h (Some y) = ctor n).
  { unfold match_pre in P. rewrite (dyn_deref _ _ _ D) in P. destruct (negb _); [discriminate P|]. destruct (Z.eqb_spec (ctor n) (dyn h (Some y))); [congruence|discriminate P]. }
  destruct (dyn_inv h y _ E (ctor_pos n)) as (m & Dm & C). exists m. split; [exact Dm|]. split; [exact C|]. exact (proj1 (proj1 (match_pre_iff h x y n m D Dm) P)).
Qed.
Lemma members_iff (R : ref -> ref -> Prop) ms ns : (forall s, In s (member_steps ms ns) -> exists x y, s = Sub x y /\ R x y) <-> members_match R ms ns.
Proof.
  unfold member_steps, members_match. destruct (Nat.ltb_spec (length ns) (length ms)) as [L|L].
  - split; [intros H; destruct (H _ (or_introl eq_refl)) as (? & ? & ? & _); discriminate|intros (? & _); lia].
  - split.
    + intros H. split; [exact L|]. intros m I. specialize (H _ (in_map _ _ _ I)). cbv beta in H. destruct H as (x & y & E & r). destruct (last_member (m_name m) ns) as [n|] eqn:Q; [|discriminate E]. inversion E; subst. exists n. split; [now apply last_member_iff|exact r].
    + intros (_ & H) s I. apply in_map_iff in I. destruct I as (m & <- & I). destruct (H m I) as (n & Ln & r). apply last_member_iff in Ln. rewrite Ln. eauto.
Qed.
Lemma variants_iff vs ws : forallb (fun v => existsb (fun w => coreEssentialNamesMatch (ev_name v) (ev_name w)) ws) vs = true <-> variants_in vs ws.
Proof.
  rewrite forallb_forall. unfold variants_in. split; intros H v I; specialize (H v I).
  - apply existsb_exists in H. destruct H as (w & J & E). exists w. split; [exact J|]. now apply names_agree_iff.
  - destruct H as (w & J & E). apply existsb_exists. exists w. split; [exact J|]. now apply names_agree_iff.
Qed.
Lemma no_steps (b : bool) (e : cerr) (R : ref -> ref -> Prop) : (forall s, In s (if b then [] else [Fail e]) -> exists x y, s = Sub x y /\ R x y) <-> b = true.
Proof. destruct b; split; try discriminate; try reflexivity; intros H; [intros s []|]. destruct (H _ (or_introl eq_refl)) as (? & ? & ? & _). discriminate. Qed.
Lemma enum_iff (R : ref -> ref -> Prop) s vs s' ws : (forall st, In st (enum_steps s vs s' ws) -> exists x y, st = Sub x y /\ R x y) <-> s = s' /\ (length vs <= length ws)%nat /\ variants_in vs ws.
Proof.
  unfold enum_steps. destruct (Z.eqb_spec s s') as [->|N]; cbn [negb]; [|split; [intros H; destruct (H _ (or_introl eq_refl)) as (? & ? & ? & _); discriminate|intros (? & _); contradiction]].
  destruct (Nat.ltb_spec (length ws) (length vs)); [split; [intros H'; destruct (H' _ (or_introl eq_refl)) as (? & ? & ? & _); discriminate|intros (_ & ? & _); lia]|].
  rewrite no_steps, variants_iff. tauto.
Qed.
Lemma ptr_iff h (R : ref -> ref -> Prop) a b : (forall s, In s (ptr_steps h a b) -> exists x y, s = Sub x y /\ R x y) <->
  (exists n n' k, forward h a n k /\ defined h b n' k \/ forward h b n k /\ defined h a n' k) \/ R a b.
Proof.
  unfold ptr_steps.
  assert (F : forall x y, (match as_fwd h x with Some k => fwd_matches h k y | None => false end) = true <-> exists n n' k, forward h x n k /\ defined h y n' k).
  { intros x y. split.
    - destruct (as_fwd h x) as [k|] eqn:E; [|discriminate]. intros M. apply as_fwd_iff in E. apply fwd_matches_iff in M. destruct E as (n & E), M as (n' & M). eauto 6.
    - intros (n & n' & k & A & B). assert (E : as_fwd h x = Some k) by (apply as_fwd_iff; eauto). rewrite E. apply fwd_matches_iff. eauto. }
  destruct (match as_fwd h a with Some k => fwd_matches h k b | None => false end) eqn:A; [|destruct (match as_fwd h b with Some k => fwd_matches h k a | None => false end) eqn:B].
  - apply F in A. destruct A as (n & n' & k & X). split; [intros _; left; exists n, n', k; auto|intros _ s []].
  - apply F in B. destruct B as (n & n' & k & X). split; [intros _; left; exists n, n', k; auto|intros _ s []].
  - split.
    + intros H. destruct (H _ (or_introl eq_refl)) as (x & y & E & r). inversion E; subst. now right.
    + intros [(n & n' & k & X)|r] s [<-|[]]; [|eauto]. exfalso. destruct X as [X|X]; [assert (true = false) by (rewrite <- A; symmetry; apply F; eauto)|assert (true = false) by (rewrite <- B; symmetry; apply F; eauto)]; discriminate.
Qed.
Lemma match_rule_iff h R x y : step_rule (match_pre h) (match_steps h) R x y <-> match_rule h R x y.
Proof.
  unfold step_rule. destruct x as [| |a].
  - unfold match_steps. cbn [deref]. fail_case.
  - split.
    + intros (P & _). unfold match_pre in P. cbn [name_of deref] in P. change (coreEssentialNamesMatch [] _) with true in P. cbn [negb dyn] in P. destruct y as [| |b]; [discriminate P|constructor|]. cbn [dyn] in P. destruct (nth_error h b) as [[]|]; discriminate P.
    + intros H. inversion H; subst; try discriminate. split; [reflexivity|intros s []].
  - unfold match_steps. destruct (deref h (RPtr a)) as [n|] eqn:D; [|fail_case]. split.
    + intros (P & H). destruct (match_pre_inv h _ _ _ D P) as (m & Dm & C & N). rewrite Dm in H.
      destruct n; destruct m; try discriminate C; cbn [type_name] in N; try (destruct (H _ (or_introl eq_refl)) as (? & ? & ? & _); discriminate).
      * apply no_steps in H. unfold coreEncodingMatches in H. apply andb_true_iff in H. destruct H as (E1 & E2). apply Z.eqb_eq in E1. subst. apply Bool.eqb_prop in E2. eapply mr_int; try eassumption.
        rewrite <- !Z.eqb_eq, E2. reflexivity.
      * apply ptr_iff in H. destruct H as [(n & n' & k & H)|r]; [eapply mr_ptr_fwd; eassumption|eapply mr_ptr; eassumption].
      * destruct (Z.eqb_spec nelems nelems0) as [->|]; [|destruct (H _ (or_introl eq_refl)) as (? & ? & ? & _); discriminate]. destruct (H _ (or_introl eq_refl)) as (u & v & E & r). inversion E; subst. eapply mr_array; eassumption.
      * apply members_iff in H. eapply mr_struct; eassumption.
      * apply members_iff in H. eapply mr_union; eassumption.
      * apply enum_iff in H. destruct H as (-> & L & V). eapply mr_enum; eassumption.
      * apply no_steps in H. apply Z.eqb_eq in H. subst. eapply mr_fwd; eassumption.
      * destruct (Nat.eqb_spec (length params) (length params0)) as [L|]; [|destruct (H _ (or_introl eq_refl)) as (? & ? & ? & _); discriminate].
        destruct (H (Sub ret ret0)) as (u & v & E & r); [apply in_or_app; right; now left|]. inversion E; subst. eapply mr_func; try eassumption. apply sub_params_iff; [exact L|]. intros s I. apply H. apply in_or_app. now left.
    + intros M. assert (G : forall m, deref h y = Some m -> names_agree (type_name n) (type_name m) -> ctor n = ctor m -> match_pre h (Some (RPtr a)) (Some y) = None) by (intros m Dm N C; apply (match_pre_iff h _ _ n m D Dm); auto).
      assert (NN : forall b, names_agree [] b) by (intros b; now left).
      inversion M; subst; try discriminate; match goal with H1 : deref h (RPtr a) = Some ?u, H2 : deref h y = Some ?v |- _ => assert (n = u) by congruence; subst n; clear D; rewrite H2; split; [eapply G; [exact H2|cbn [type_name]; auto|reflexivity]|] end.
      * apply no_steps. apply Z.eqb_refl.
      * apply enum_iff. auto.
      * now apply members_iff.
      * now apply members_iff.
      * apply no_steps. unfold coreEncodingMatches. rewrite Z.eqb_refl. cbn [andb]. apply Bool.eqb_true_iff. match goal with H : _ <-> _ |- _ => rewrite <- !Z.eqb_eq in H; destruct (_ =? 1), (_ =? 1); try reflexivity; exfalso; intuition discriminate end.
      * apply ptr_iff. left. eauto.
      * apply ptr_iff. now right.
      * rewrite Z.eqb_refl. intros s [<-|[]]. eauto.
      * match goal with F : Forall2 _ _ _ |- _ => rewrite (Forall2_len _ _ _ F), Nat.eqb_refl; intros s I; apply in_app_or in I; destruct I as [I|[<-|[]]]; [revert s I; apply sub_params_iff; [eapply Forall2_len; exact F|exact F]|eauto] end.
Qed.
(** The code accepts exactly the largest relation that follows [match_rule]. *)
Theorem C55_exact : forall h l t, coreTypesMatch h l t = Some (Ok tt) <-> largest h (match_rule h) l t.
Proof.
  intros h l t. rewrite <- (largest_iff h (step_rule (match_pre h) (match_steps h)) _ l t (match_rule_iff h)).
  rewrite <- (check_iff h (match_pre h) (match_steps h) (match_sub_in_heap h) l t). unfold coreTypesMatch. split.
  - destruct (check _ _ _ _ _ _ _) as [[w|e]|]; try discriminate. eauto.
  - intros (w & ->). reflexivity.
Qed.
(** If forward declarations behind pointers have the names of the structs and unions they are compared with, whatever the
    code accepts matches according to the documentation. *)
Theorem C55_sound_partial : forall h l t, (forall a b n n' k, forward h a n k -> defined h b n' k -> names_agree n n') ->
  coreTypesMatch h l t = Some (Ok tt) -> documented h l t.
Proof.
  intros h l t FN E. apply C55_exact in E. destruct E as (R & H & C).
  assert (Sym : forall a b, names_agree a b -> names_agree b a) by (unfold names_agree; intros a b [|[|]]; auto).
  exists (fun bp x y => R x y \/ bp = true /\ exists x' y', stripped h x x' /\ stripped h y y' /\ kind_like h x' y').
  split; [now left|]. intros bp x y [r|(-> & x' & y' & A & B & K)].
  - destruct (C x y r) as (x' & y' & A & B & M). exists x', y'. split; [exact A|]. split; [exact B|]. inversion M; subst.
    + constructor.
    + eapply dr_fwd; eassumption.
    + eapply dr_enum; eassumption.
    + destruct bp; [apply dr_behind; eapply kl_struct; eassumption|]. eapply dr_struct; try eassumption.
      match goal with H : members_match _ _ _ |- _ => destruct H as (_ & H); intros m I; destruct (H m I) as (m' & L & r'); exists m'; split; [eapply last_named_In; exact L|]; destruct L as (? & ? & _ & ? & _); auto end.
    + destruct bp; [apply dr_behind; eapply kl_union; eassumption|]. eapply dr_union; try eassumption.
      match goal with H : members_match _ _ _ |- _ => destruct H as (_ & H); intros m I; destruct (H m I) as (m' & L & r'); exists m'; split; [eapply last_named_In; exact L|]; destruct L as (? & ? & _ & ? & _); auto end.
    + eapply dr_int; eassumption.
    + eapply dr_ptr; try eassumption. right. split; [reflexivity|].
      assert (Self : forall z w, stripped h z w -> stripped h w w) by (intros z w Z; exists 0%nat; split; [lia|]; constructor; exact (stripped_not _ _ _ Z)).
      match goal with H : _ \/ _ |- _ => destruct H as [(F & Df)|(F & Df)] end; pose proof (FN _ _ _ _ _ F Df) as Na; pose proof F as (z & Fz & Fd); pose proof Df as (w & s & ms & tg & Dw & Dd).
      * exists z, w. split; [exact Fz|]. split; [exact Dw|]. apply kl_fwd_def with (n := n) (k := k) (n' := n'); [exists z; eauto|exists w, s, ms, tg; split; [eauto|exact Dd]|exact Na].
      * exists w, z. split; [exact Dw|]. split; [exact Fz|]. apply kl_def_fwd with (n := n') (k := k) (n' := n); [exists w, s, ms, tg; split; [eauto|exact Dd]|exists z; eauto|auto].
    + eapply dr_ptr; eauto.
    + eapply dr_array; eauto.
    + eapply dr_func; eauto. match goal with F : Forall2 _ _ _ |- _ => clear -F; induction F; constructor; auto end.
  - exists x', y'. split; [exact A|]. split; [exact B|]. now apply dr_behind.
Qed.
(** A type with distinct member names matches itself. *)
Theorem C55_reflexive_partial : forall h t, matchable h t -> coreTypesMatch h t t = Some (Ok tt).
Proof.
  intros h t (S & St & C). apply C55_exact. exists (fun x y => x = y /\ S x). split; [auto|]. intros x y (<- & Sx). destruct (C x Sx) as (z & Z & K & P & M). exists z, z. split; [exact Z|]. split; [exact Z|].
  assert (NA : forall a, names_agree a a) by (intros a; right; now right).
  assert (ML : forall ms, NoDup (map m_name ms) -> (forall m, In m ms -> S (m_type m)) -> members_match (fun x y => x = y /\ S x) ms ms).
  { intros ms N G. split; [lia|]. intros m I. exists m. split; [|auto]. apply in_split in I. destruct I as (p & q & ->). exists p, q. split; [reflexivity|]. split; [reflexivity|]. intros m' I' E. rewrite map_app in N. cbn [map] in N. apply NoDup_remove_2 in N. apply N. apply in_or_app. right. rewrite <- E. now apply in_map. }
  destruct K as [->|(n & D & K)]; [constructor|]. destruct n; try contradiction.
  - eapply mr_int; try eassumption; [auto|reflexivity].
  - eapply mr_ptr; try eassumption. split; [reflexivity|]. apply P. econstructor. exact D.
  - eapply mr_array; try eassumption. split; [reflexivity|]. apply P. eapply part_elem; exact D.
  - destruct (M _ _ _ _ (or_introl D)) as (N & G). eapply mr_struct; try eassumption; auto.
  - destruct (M _ _ _ _ (or_intror D)) as (N & G). eapply mr_union; try eassumption; auto.
  - eapply mr_enum; try eassumption; auto. intros v I. exists v. auto.
  - eapply mr_fwd; try eassumption; auto.
  - eapply mr_func; try eassumption; [split; [reflexivity|]; apply P; eapply part_ret; exact D|].
    assert (G : forall p, In p params -> S (p_type p)) by (intros p I; apply P; eapply part_param; eassumption). clear -G. induction params as [|p ps IH]; constructor; [split; [reflexivity|]; apply G; now left|]. apply IH. intros q I. apply G. now right.
Qed.
Lemma strip_self h a n : nth_error h a = Some n -> match n with NTypedef _ _ _ | NConst _ | NVolatile _ | NRestrict _ | NTypeTag _ _ => False | _ => True end -> stripped h (RPtr a) (RPtr a).
Proof.
  intros E K. exists 0%nat. split; [lia|]. constructor. intros y (m & E' & W). cbn [deref] in E'. rewrite E in E'. inversion E'; subst m.
  destruct n; try contradiction; destruct W as [(s' & tg' & X)|[X|[X|[X|(v' & X)]]]]; discriminate X.
Qed.
Ltac strip_lit := eapply strip_self; [reflexivity|exact I].
(** A struct with two anonymous members doesn't match itself: the first one is compared with the second. *)
Definition c55_anon : heap :=
  [ NInt [105] 4 0; NStruct [] 4 [mkMember [97] (RPtr 0) 0 0 []] []; NStruct [] 4 [mkMember [98] (RPtr 0) 0 0 []] [];
    NStruct [115] 8 [mkMember [] (RPtr 1) 0 0 []; mkMember [] (RPtr 2) 32 0 []] [] ].
Theorem C55_anonymous_refuted : documented c55_anon (RPtr 3) (RPtr 3) /\ coreTypesMatch c55_anon (RPtr 3) (RPtr 3) = Some (Err Incompatible).
Proof.
  split; [|reflexivity]. exists (fun bp x y => bp = false /\ x = y /\ In x [RPtr 0; RPtr 1; RPtr 2; RPtr 3]). split; [cbn; auto 8|].
  assert (NA : forall a, names_agree a a) by (intros a; right; now right).
  intros bp x y (-> & <- & K). exists x, x. destruct K as [<-|[<-|[<-|[<-|[]]]]]; (split; [strip_lit|split; [strip_lit|]]).
  - eapply dr_int; [reflexivity|reflexivity|apply NA|tauto].
  - eapply dr_struct; [reflexivity|reflexivity|apply NA|]. intros m [<-|[]]. eexists. split; [left; reflexivity|]. cbn. auto.
  - eapply dr_struct; [reflexivity|reflexivity|apply NA|]. intros m [<-|[]]. eexists. split; [left; reflexivity|]. cbn. auto.
  - eapply dr_struct; [reflexivity|reflexivity|apply NA|]. intros m [<-|[<-|[]]]; [eexists; split; [left; reflexivity|]|eexists; split; [right; left; reflexivity|]]; cbn; auto 10.
Qed.
(** Types behind a pointer are compared with all their members. *)
Definition c55_ptr : heap := [ NInt [105] 4 0; NInt [106] 8 0; NStruct [98] 4 [mkMember [120] (RPtr 0) 0 0 []] []; NStruct [98] 8 [mkMember [120] (RPtr 1) 0 0 []] []; NPtr (RPtr 2); NPtr (RPtr 3) ].
Theorem C55_pointer_refuted : documented c55_ptr (RPtr 4) (RPtr 5) /\ coreTypesMatch c55_ptr (RPtr 4) (RPtr 5) = Some (Err Incompatible).
Proof.
  split; [|reflexivity]. exists (fun bp x y => bp = false /\ x = RPtr 4 /\ y = RPtr 5 \/ bp = true /\ x = RPtr 2 /\ y = RPtr 3). split; [auto|].
  intros bp x y [(-> & -> & ->)|(-> & -> & ->)]; eexists; eexists; (split; [strip_lit|split; [strip_lit|]]).
  - eapply dr_ptr; try reflexivity. auto.
  - apply dr_behind. eapply kl_struct; try reflexivity. right. right. reflexivity.
Qed.
(** A pointer to a forward declaration matches a pointer to any struct, whatever its name. *)
Definition c55_fwd : heap := [ NFwd [97] 0; NStruct [98] 0 [] []; NPtr (RPtr 0); NPtr (RPtr 1) ].
Theorem C55_forward_refuted : coreTypesMatch c55_fwd (RPtr 2) (RPtr 3) = Some (Ok tt) /\ ~ documented c55_fwd (RPtr 2) (RPtr 3).
Proof.
  split; [reflexivity|]. intros (R & H & C).
  assert (N : ~ names_agree [97] [98]) by (intros X; apply names_agree_iff in X; discriminate X).
  destruct (C _ _ _ H) as (x & y & A & B & D).
  assert (x = RPtr 2) by (eapply stripped_fun; [exact A|strip_lit]). assert (y = RPtr 3) by (eapply stripped_fun; [exact B|strip_lit]). subst x y.
  inversion D; subst; cbn [deref nth_error c55_fwd] in *; try discriminate. clear D. repeat match goal with H : Some _ = Some _ |- _ => inversion H; subst; clear H end.
  match goal with H : R true _ _ |- _ => destruct (C _ _ _ H) as (x & y & A' & B' & D) end.
  assert (x = RPtr 0) by (eapply stripped_fun; [exact A'|strip_lit]). assert (y = RPtr 1) by (eapply stripped_fun; [exact B'|strip_lit]). subst x y.
  inversion D; subst; cbn [deref nth_error c55_fwd] in *; try discriminate.
  match goal with H : kind_like _ _ _ |- _ => inversion H; subst; cbn [deref nth_error c55_fwd] in *; try discriminate end.
  - apply N. match goal with F : forward _ _ _ _, Df : defined _ _ _ _ |- _ => destruct F as (z & Z & Dz), Df as (w & s & ms & tg & W & Dw) end.
    assert (z = RPtr 0) by (eapply stripped_fun; [exact Z|strip_lit]). assert (w = RPtr 1) by (eapply stripped_fun; [exact W|strip_lit]). subst z w. cbn [deref nth_error c55_fwd] in *.
    destruct Dw as [(_ & Dw)|(_ & Dw)]; inversion Dz; inversion Dw; subst; assumption.
  - match goal with Df : defined _ (RPtr 0) _ _ |- _ => destruct Df as (w & s & ms & tg & W & Dw) end. assert (w = RPtr 0) by (eapply stripped_fun; [exact W|strip_lit]). subst w. cbn [deref nth_error c55_fwd] in *.
    destruct Dw as [(_ & Dw)|(_ & Dw)]; discriminate Dw.
Qed.
(** a recursive list type matches itself and a longer version of itself *)
Definition c55_list : heap :=
  [ NStruct [115] 8 [mkMember [110] (RPtr 1) 0 0 []] []; NPtr (RPtr 0); NStruct [115] 16 [mkMember [120] (RPtr 3) 64 0 []; mkMember [110] (RPtr 4) 0 0 []] []; NInt [105] 4 1; NPtr (RPtr 2) ].
Example C55_example : coreTypesMatch c55_list (RPtr 0) (RPtr 0) = Some (Ok tt) /\ coreTypesMatch c55_list (RPtr 0) (RPtr 2) = Some (Ok tt) /\ coreTypesMatch c55_list (RPtr 2) (RPtr 0) = Some (Err Incompatible).
Proof. repeat split; reflexivity. Qed.
Example C55_matchable_example : matchable c55_list (RPtr 0).
Proof.
  exists (fun x => x = RPtr 0 \/ x = RPtr 1). split; [auto|]. intros y [->| ->]; eexists; (split; [strip_lit|]); (split; [right; eexists; split; [reflexivity|exact I]|]); split.
  - intros w P; inversion P; subst; cbn [deref nth_error c55_list] in *; discriminate.
  - intros n s ms tg [E|E]; cbn [deref nth_error c55_list] in E; inversion E; subst. split; [repeat constructor; intros []|]. intros m [<-|[]]. cbn. auto.
  - intros w P; inversion P; subst; cbn [deref nth_error c55_list] in *; try discriminate. match goal with H : Some _ = Some _ |- _ => inversion H; subst end. auto.
  - intros n s ms tg [E|E]; discriminate E.
Qed.
