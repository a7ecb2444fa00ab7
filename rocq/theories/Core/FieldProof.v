(** Proofs about coreFindMember and coreFindField. *)
From Coq Require Import ZArith List Lia Bool.
From Verif.Base Require Import GoInt.
From Verif.Btf Require Import Names Types TypesSpec TypesProof PropsTypes.
From Verif.Core Require Import Fixup Compat CompatSpec CompatProof Field FieldSpec.
Import ListNotations.
Open Scope Z_scope.

Lemma str_eqb_eq a b : str_eqb a b = true <-> a = b.
Proof. unfold str_eqb. destruct (list_eq_dec Z.eq_dec a b); split; congruence. Qed.
Lemma is_nil_eq {A} (l : list A) : is_nil l = true <-> l = [].
Proof. destruct l; cbn; split; congruence. Qed.
Lemma members_of_iff h c ms : members_of h c = Some ms <-> has_members h c ms.
Proof.
  unfold members_of, has_members. split.
  - destruct (deref h c) as [[]|]; try discriminate; intros E; inversion E; subst; eauto 6.
  - intros (n & s & tg & [->| ->]); reflexivity.
Qed.
Lemma has_members_fun h c ms ms' : has_members h c ms -> has_members h c ms' -> ms = ms'.
Proof. intros H H'. apply members_of_iff in H. apply members_of_iff in H'. congruence. Qed.
Lemma as_composite_iff h t c ms : as_composite h t = Some (c, ms) <-> stripped h t c /\ has_members h c ms.
Proof.
  unfold as_composite. split.
  - destruct (UnderlyingType h t) as [r|] eqn:U; [|discriminate]. destruct (members_of h r) as [ms'|] eqn:M; [|discriminate]. intros E. inversion E; subst. split; [now apply Underlying_stripped|now apply members_of_iff].
  - intros (S & M). apply Underlying_stripped in S. apply members_of_iff in M. rewrite S, M. reflexivity.
Qed.
Lemma u32_mod x : u32 x = x mod 2 ^ 32.
Proof. reflexivity. Qed.
Lemma u32_id x : 0 <= x < 2 ^ 32 -> u32 x = x.
Proof. intros H. rewrite u32_mod. now apply Z.mod_small. Qed.
Lemma u32_add_r a b : u32 (a + u32 b) = u32 (a + b).
Proof. rewrite !u32_mod. apply Zplus_mod_idemp_r. Qed.
Lemma u32_add_l a b : u32 (u32 a + b) = u32 (a + b).
Proof. rewrite !u32_mod. apply Zplus_mod_idemp_l. Qed.
Lemma u32_range x : 0 <= u32 x < 2 ^ 32.
Proof. rewrite u32_mod. apply Z.mod_pos_bound. reflexivity. Qed.

(** *** coreFindMember *)
Lemma scan_spec h name off : forall ms, match scan h ms name off with
  | Found m' last => exists m, In m ms /\ m_name m = name /\ m' = mkMember (m_name m) (m_type m) (u32 (m_offset m + off)) (m_bits m) (m_tags m)
  | BadAnonymous => exists m, In m ms /\ m_name m = [] /\ as_composite h (m_type m) = None
  | More l => (forall m, In m ms -> m_name m <> name) /\
      (forall m, In m ms -> m_name m = [] -> exists c, stripped h (m_type m) c /\ In (c, u32 (off + m_offset m)) l) /\
      (forall x, In x l -> exists m c cms, In m ms /\ m_name m = [] /\ stripped h (m_type m) c /\ has_members h c cms /\ x = (c, u32 (off + m_offset m)))
  end.
Proof.
  induction ms as [|m ms IH]; cbn [scan]; [split; [intros m []|split; [intros m []|intros x []]]|].
  destruct (str_eqb (m_name m) name) eqn:E; [apply str_eqb_eq in E; exists m; split; [now left|auto]|].
  assert (N : m_name m <> name) by (intros X; apply str_eqb_eq in X; congruence).
  destruct (is_nil (m_name m)) eqn:Nil; cbn [negb].
  - apply is_nil_eq in Nil. destruct (as_composite h (m_type m)) as [[c cms]|] eqn:A; [|exists m; split; [now left|auto]]. apply as_composite_iff in A. destruct A as (S & M).
    destruct (scan h ms name off) as [m' last| |l].
    + destruct IH as (m0 & I & H). exists m0. split; [now right|exact H].
    + destruct IH as (m0 & I & H). exists m0. split; [now right|exact H].
    + destruct IH as (H1 & H2 & H3). split; [intros m0 [<-|I]; auto|]. split.
      * intros m0 [<-|I] Z; [exists c; split; [exact S|now left]|]. destruct (H2 m0 I Z) as (c0 & S0 & I0). exists c0. split; [exact S0|now right].
      * intros x [<-|I]; [exists m, c, cms; split; [now left|auto]|]. destruct (H3 x I) as (m0 & c0 & cm0 & I0 & H). exists m0, c0, cm0. split; [now right|exact H].
  - assert (NN : m_name m <> []) by (intros X; apply is_nil_eq in X; congruence). destruct (scan h ms name off) as [m' last| |l].
    + destruct IH as (m0 & I & H). exists m0. split; [now right|exact H].
    + destruct IH as (m0 & I & H). exists m0. split; [now right|exact H].
    + destruct IH as (H1 & H2 & H3). split; [intros m0 [<-|I]; auto|]. split.
      * intros m0 [<-|I] Z; [contradiction|auto].
      * intros x I. destruct (H3 x I) as (m0 & c0 & cm0 & I0 & H). exists m0, c0, cm0. split; [now right|exact H].
Qed.
Lemma next_target_spec vis : forall q, match next_target vis q with
  | None => forall x, In x q -> In x vis
  | Some (t, q') => ~ In t vis /\ In t q /\ (forall x, In x q' -> In x q) /\ forall x, In x q -> In x vis \/ x = t \/ In x q'
  end.
Proof.
  assert (V : forall x, was_visited x vis = true <-> In x vis).
  { intros x. unfold was_visited. rewrite existsb_exists. split; [intros (y & I & E); destruct (target_eq_dec x y); [subst; exact I|discriminate E]|intros I; exists x; split; [exact I|]; destruct (target_eq_dec x x); congruence]. }
  induction q as [|t q IH]; cbn [next_target]; [intros x []|]. destruct (was_visited t vis) eqn:W.
  - apply V in W. destruct (next_target vis q) as [[t' q']|].
    + destruct IH as (A & B & C & D). split; [exact A|]. split; [now right|]. split; [intros x I; right; auto|]. intros x [<-|I]; auto.
    + intros x [<-|I]; auto.
  - split; [intros X; apply V in X; congruence|]. split; [now left|]. split; [intros x I; now right|]. intros x [<-|I]; auto.
Qed.

(** composites nested anonymously in [typ], with the sum of the offsets *)
Inductive nested (h : heap) (typ : ref) : ref -> Z -> Prop :=
| nest_root : nested h typ typ 0
| nest_anon c ms a c' o : nested h typ c o -> has_members h c ms -> In a ms -> m_name a = [] -> stripped h (m_type a) c' -> nested h typ c' (o + m_offset a).
Lemma nested_member h typ c o name m off : nested h typ c o -> member_at h c name m off -> member_at h typ name m (o + off).
Proof.
  intros N. revert name m off. induction N as [|c ms a c' o N IH M I E S]; intros name m off H; [rewrite Z.add_0_l; exact H|].
  rewrite <- Z.add_assoc. apply IH. eapply ma_anon; eassumption.
Qed.
Lemma find_loop_sound h typ name : forall left vis queue m last,
  (forall c o, In (c, o) queue -> exists raw, nested h typ c raw /\ o = u32 raw) ->
  find_loop left h name vis queue = Ok (m, last) ->
  exists m0 off, member_at h typ name m0 off /\ m_type m = m_type m0 /\ m_bits m = m_bits m0 /\ m_name m0 = name /\ m_offset m = u32 off.
Proof.
  induction left as [|left IH]; intros vis queue m last Q E; cbn [find_loop] in E; pose proof (next_target_spec vis queue) as N; destruct (next_target vis queue) as [[[c o] q]|]; try discriminate E.
  destruct N as (_ & I & Sub & _). cbn [fst snd] in E. destruct (members_of h c) as [ms|] eqn:M; [|discriminate E]. apply members_of_iff in M. destruct (Q c o I) as (raw & Nr & ->).
  pose proof (scan_spec h name (u32 raw) ms) as S. destruct (scan h ms name (u32 raw)) as [m' l'| |l]; [|discriminate E|].
  - inversion E; subst m' l'. destruct S as (m0 & I0 & En & ->). exists m0, (raw + m_offset m0). cbn [m_type m_bits m_name m_offset]. split; [|split; [reflexivity|split; [reflexivity|split; [exact En|rewrite u32_add_r; f_equal; lia]]]].
    rewrite <- En. apply nested_member with (c := c); [exact Nr|]. eapply ma_here; eassumption.
  - eapply IH; [|exact E]. intros c' o' I'. apply in_app_or in I'. destruct I' as [I'|I']; [apply Q; auto|]. destruct S as (_ & _ & S). destruct (S _ I') as (a & c0 & cms & Ia & Na & Sa & _ & Ea). inversion Ea; subst.
    exists (raw + m_offset a). split; [|now rewrite u32_add_l]. eapply nest_anon; eassumption.
Qed.
Lemma coreFindMember_sound h typ name m last : coreFindMember h typ name = Ok (m, last) ->
  exists m0 off, member_at h typ name m0 off /\ m_type m = m_type m0 /\ m_bits m = m_bits m0 /\ m_name m0 = name /\ m_offset m = u32 off.
Proof.
  unfold coreFindMember. destruct (is_nil name); [discriminate|]. apply find_loop_sound. intros c o [E|[]]. inversion E; subst. exists 0. split; [constructor|reflexivity].
Qed.
(** no member is missed *)
Lemma find_loop_complete h name : forall left vis queue,
  (forall c o, In (c, o) (vis ++ queue) -> exists ms, has_members h c ms) ->
  (forall c o ms m, In (c, o) vis -> has_members h c ms -> In m ms -> m_name m <> name /\ (m_name m = [] -> exists c', stripped h (m_type m) c' /\ In (c', u32 (o + m_offset m)) (vis ++ queue))) ->
  find_loop left h name vis queue = Err Impossible ->
  forall c o m off, In (c, o) (vis ++ queue) -> ~ member_at h c name m off.
Proof.
  assert (Done : forall vis queue, (forall x, In x queue -> In x vis) ->
    (forall c o ms m, In (c, o) vis -> has_members h c ms -> In m ms -> m_name m <> name /\ (m_name m = [] -> exists c', stripped h (m_type m) c' /\ In (c', u32 (o + m_offset m)) (vis ++ queue))) ->
    forall c o m off, In (c, o) (vis ++ queue) -> ~ member_at h c name m off).
  { intros vis queue N Cl c o m off I H. assert (V : In (c, o) vis) by (apply in_app_or in I; destruct I; auto). clear I. revert o V. induction H as [c ms m M I|c ms a c' name m off M I Na S H IHm]; intros o V.
    + exact (proj1 (Cl _ _ _ _ V M I) eq_refl).
    + destruct (proj2 (Cl _ _ _ _ V M I) Na) as (c2 & S2 & I2). assert (c2 = c') by (eapply stripped_fun; eassumption). subst. eapply (IHm Cl). apply in_app_or in I2. destruct I2 as [I2|I2]; [exact I2|auto]. }
  induction left as [|left IH]; intros vis queue Cm Cl E; cbn [find_loop] in E; pose proof (next_target_spec vis queue) as N; destruct (next_target vis queue) as [[[c1 o1] q]|] eqn:Nt; try discriminate E; try (apply Done; assumption).
  - cbn [fst snd] in E. destruct (members_of h c1) as [ms1|] eqn:M1; [|discriminate E]. apply members_of_iff in M1. pose proof (scan_spec h name o1 ms1) as S. destruct (scan h ms1 name o1) as [m' l'| |l]; try discriminate E.
    destruct S as (S1 & S2 & S3). destruct N as (Nv & It & Sub & Cov). intros c o m off I. apply (IH ((c1, o1) :: vis) (q ++ l)) with (o := o); [| |exact E|].
    + intros c' o' I'. rewrite app_assoc in I'. apply in_app_or in I'. destruct I' as [I'|I'].
      * apply (Cm c' o'). destruct I' as [I'|I']; [inversion I'; subst; apply in_or_app; now right|]. apply in_app_or in I'. apply in_or_app. destruct I' as [I'|I']; [now left|right; auto].
      * destruct (S3 _ I') as (a & c0 & cms & _ & _ & _ & Hc & Ea). inversion Ea; subst. eauto.
    + assert (Mono : forall x, In x (vis ++ queue) -> In x (((c1, o1) :: vis) ++ q ++ l)).
      { intros x Hx. apply in_app_or in Hx. destruct Hx as [Hx|Hx]; [cbn; right; apply in_or_app; now left|]. destruct (Cov x Hx) as [Hv|[->|Hq]]; [cbn; right; apply in_or_app; now left|now left|]. cbn. right. apply in_or_app. right. apply in_or_app. now left. }
      intros c' o' ms' m' [Ev|Iv] Hm Im.
      * inversion Ev; subst c' o'. assert (ms' = ms1) by (eapply has_members_fun; eassumption). subst. split; [auto|]. intros Z. destruct (S2 m' Im Z) as (c0 & Sc & Ic). exists c0. split; [exact Sc|]. cbn. right. apply in_or_app. right. apply in_or_app. now right.
      * destruct (Cl c' o' ms' m' Iv Hm Im) as (A & B). split; [exact A|]. intros Z. destruct (B Z) as (c0 & Sc & Ic). exists c0. split; [exact Sc|auto].
    + apply in_app_or in I. destruct I as [I|I]; [cbn; right; apply in_or_app; now left|]. destruct (Cov _ I) as [Hv|[Et|Hq]]; [cbn; right; apply in_or_app; now left|rewrite Et; now left|]. cbn. right. apply in_or_app. right. apply in_or_app. now left.
Qed.
Lemma coreFindMember_complete h typ ms name m off : has_members h typ ms -> coreFindMember h typ name = Err Impossible -> ~ member_at h typ name m off.
Proof.
  unfold coreFindMember. intros M. destruct (is_nil name); [discriminate|]. intros E. eapply (find_loop_complete h name _ [] [(typ, 0)]); [| |exact E|left; reflexivity].
  - intros c o [X|[]]. inversion X; subst. eauto.
  - intros c o ms' m' [].
Qed.

(** *** offsets *)
Lemma has_size_nonneg h t d z : heap_u32 h -> has_size h t d z -> 0 <= z.
Proof. intros H S. eapply has_size_range; eassumption. Qed.
Lemma nth_element h cf n cf' : heap_u32 h -> 0 <= n < 2 ^ 31 -> in_u 32 (cf_offset cf) -> adjustOffsetToNthElement h cf n = Ok cf' ->
  exists eo, element_at h (cf_type cf) n eo /\ 0 <= eo /\ cf' = mkField (cf_type cf) (u32 (cf_offset cf + eo)) (cf_bfoff cf) (cf_bfsize cf).
Proof.
  intros H N O E. unfold adjustOffsetToNthElement in E. destruct (Z.eqb_spec n 0) as [->|Nz].
  - inversion E; subst. exists 0. split; [left; auto|]. split; [lia|]. rewrite Z.add_0_r, u32_id by exact O. destruct cf'; reflexivity.
  - destruct (Sizeof h (cf_type cf)) as [s|] eqn:S; [|discriminate E]. inversion E; subst. destruct (C37_exact _ _ _ H S) as (d & _ & Hs & _).
    pose proof (has_size_nonneg _ _ _ _ H Hs). exists (n * s). split; [right; eauto|]. split; [apply Z.mul_nonneg_nonneg; lia|]. f_equal. rewrite u32_add_r. rewrite !u32_mod, <- (Zplus_mod_idemp_r (_ * _)), <- Zmult_mod, Zplus_mod_idemp_r. reflexivity.
Qed.
Lemma alignof_pos fuel h : heap_u32 h -> forall t a, alignof fuel h t = Some (Ok a) -> 0 < a < 2 ^ 32.
Proof.
  intros H. induction fuel as [|fuel IH]; intros t a E; cbn [alignof] in E; [discriminate E|]. destruct (UnderlyingType h t) as [r|]; [|discriminate E].
  destruct (deref h r) as [n|] eqn:D; [|discriminate E]. pose proof (deref_u32 _ _ _ H D) as U. destruct n; try discriminate E; cbn [node_u32] in U.
  - destruct (Math.IsPow int64 size) eqn:P; [|discriminate E]. inversion E; subst. unfold Math.IsPow in P. destruct (Z.eqb_spec a 0); [discriminate P|]. unfold in_u in U. lia.
  - eapply IH. exact E.
  - destruct (Math.IsPow int64 size) eqn:P; [|discriminate E]. inversion E; subst. unfold Math.IsPow in P. destruct (Z.eqb_spec a 0); [discriminate P|]. unfold in_u in U. lia.
Qed.
Lemma adjust_bits fuel h cf offset cf' : heap_u32 h -> in_u 32 offset -> adjustOffsetBits fuel h cf offset = Some (Ok cf') ->
  exists a k, alignof fuel h (cf_type cf) = Some (Ok a) /\ 0 < a /\ 0 <= k /\ 0 <= offset - 8 * (k * a) < 8 * a /\
    cf' = mkField (cf_type cf) (u32 (cf_offset cf + k * a)) (offset - 8 * (k * a)) (cf_bfsize cf).
Proof.
  intros H O E. unfold adjustOffsetBits in E. destruct (alignof fuel h (cf_type cf)) as [[a|]|] eqn:A; try discriminate E. inversion E; subst cf'. clear E. pose proof (alignof_pos _ _ H _ _ A) as P.
  exists a, (Bytes offset / a). split; [reflexivity|]. split; [lia|]. rewrite (u32_id a) by lia. unfold Bytes, in_u in *.
  assert (B : 0 <= offset / 8) by (apply Z.div_pos; lia). assert (Bd : 0 <= offset / 8 / a) by (apply Z.div_pos; lia).
  pose proof (Z.mul_div_le (offset / 8) a ltac:(lia)) as L1. pose proof (Z.mul_succ_div_gt (offset / 8) a ltac:(lia)) as L2. pose proof (Z.mul_div_le offset 8 ltac:(lia)) as L3. pose proof (Z.mul_succ_div_gt offset 8 ltac:(lia)) as L4.
  rewrite (Z.mul_comm _ a). set (x := a * (offset / 8 / a)) in *. assert (X : 0 <= x) by (apply Z.mul_nonneg_nonneg; lia). rewrite (u32_id x) by lia. rewrite (u32_id (x * 8)) by lia. rewrite (u32_id (offset - x * 8)) by lia.
  replace (a * Z.succ (offset / 8 / a)) with (x + a) in L2 by (unfold x; ring). split; [exact Bd|]. split; [lia|]. f_equal. lia.
Qed.
Definition pos (f : field) : Z := 8 * cf_offset f + cf_bfoff f.
Lemma member_at_nonneg h c name m off : laid_out h -> member_at h c name m off -> 0 <= off /\ member_laid_out m /\ (m_bits m = 0 -> off mod 8 = 0).
Proof.
  intros (_ & L). induction 1 as [c ms m M I|c ms a c' name m off M I E S H IH].
  - destruct (L _ _ _ M I) as (U & V & W). split; [unfold in_u in U; lia|]. split; [repeat split; auto; unfold in_u in *; lia|]. intros Z. apply W. now left.
  - destruct (L _ _ _ M I) as (U & V & W). destruct IH as (A & B & C). split; [unfold in_u in U; lia|]. split; [exact B|]. intros Z. specialize (C Z). rewrite Z.add_mod, C, (W (or_intror E)) by lia. reflexivity.
Qed.
Lemma at_path_nonneg h t p r o b : laid_out h -> at_path h t p r o b -> 0 <= o.
Proof.
  intros L. induction 1 as [|t c name m off S M|t c name m off p r o b S M B P IH|t a x e n i eo p r o b S D I0 I1 El P IH]; [lia| | |].
  - exact (proj1 (member_at_nonneg _ _ _ _ _ L M)).
  - pose proof (proj1 (member_at_nonneg _ _ _ _ _ L M)). lia.
  - destruct El as [(_ & ->)|(d & sz & Hs & ->)]; [lia|]. pose proof (has_size_nonneg _ _ _ _ (proj1 L) Hs). nia.
Qed.
Lemma denotes_nonneg h t acc p r o b : laid_out h -> denotes h t acc p r o b -> 0 <= o.
Proof.
  intros L. assert (M : forall c ms i m, has_members h c ms -> nth_error ms i = Some m -> 0 <= m_offset m) by (intros c ms i m Hm N; apply nth_error_In in N; destruct (proj2 L _ _ _ Hm N) as ((U & _) & _); exact U).
  induction 1; try lia; try (match goal with Hm : has_members _ _ _, N : nth_error _ _ = _ |- _ => pose proof (M _ _ _ _ Hm N) end; lia).
  match goal with El : element_at _ _ _ _ |- _ => destruct El as [(_ & ->)|(d & sz & Hs & ->)] end; [lia|]. pose proof (has_size_nonneg _ _ _ _ (proj1 L) Hs). nia.
Qed.

(** *** the loop *)
Lemma field_loop_sound fuel h : laid_out h -> forall accs local target lflex tflex lf tf,
  Forall (fun n => 0 <= n < 2 ^ 31) accs -> in_u 32 (cf_offset local) -> in_u 32 (cf_offset target) -> cf_bfoff local = 0 -> cf_bfoff target = 0 -> cf_bfsize local = 0 -> cf_bfsize target = 0 ->
  field_loop fuel h accs local target lflex tflex = Some (Ok (lf, tf)) ->
  exists p lo lb to tb, denotes h (cf_type local) accs p (cf_type lf) lo lb /\ at_path h (cf_type target) p (cf_type tf) to tb /\ cf_bfsize lf = lb /\ cf_bfsize tf = tb /\
    (8 * cf_offset local + lo < 2 ^ 32 -> pos lf = 8 * cf_offset local + lo) /\ (8 * cf_offset target + to < 2 ^ 32 -> pos tf = 8 * cf_offset target + to) /\ 0 <= cf_bfoff lf /\ 0 <= cf_bfoff tf /\ (lb = 0 -> tb = 0 -> cf_bfoff lf = 0 /\ cf_bfoff tf = 0).
Proof.
  intros L. induction accs as [|acc rest IH]; intros local target lflex tflex lf tf Fa Ol Ot B1 B2 B3 B4 E; cbn [field_loop] in E.
  - inversion E; subst. exists [], 0, 0, 0, 0. split; [constructor|]. split; [constructor|]. unfold pos. repeat split; auto; lia.
  - inversion Fa as [|? ? Ha Fr]; subst. destruct (UnderlyingType h (cf_type local)) as [lr|] eqn:Ul; [|discriminate E]. apply Underlying_stripped in Ul.
    destruct (deref h lr) as [n|] eqn:Dl; [|discriminate E].
    assert (Comp : forall lms, has_members h lr lms ->
      match nth_z lms acc with
      | None => Some (Err Other)
      | Some lm =>
          if is_nil (m_name lm) then
            match as_composite h (m_type lm) with
            | None => Some (Err Other)
            | Some (c, _) => field_loop fuel h rest (mkField c (u32 (cf_offset local + Bytes (m_offset lm))) 0 0) target false tflex
            end
          else
            match as_composite h (cf_type target) with
            | None => Some (Err Impossible)
            | Some (tc, _) =>
                match coreFindMember h tc (m_name lm) with
                | Err e => Some (Err e)
                | Ok (tm, last) =>
                    if (m_bits lm =? 0) && (m_bits tm =? 0) then
                      match coreAreMembersCompatible h (m_type lm) (m_type tm) with
                      | Err e => Some (Err e)
                      | Ok _ => field_loop fuel h rest (mkField (m_type lm) (u32 (cf_offset local + Bytes (m_offset lm))) 0 0)
                                (mkField (m_type tm) (u32 (cf_offset target + Bytes (m_offset tm))) 0 0) (acc =? Z.of_nat (length lms) - 1) last
                      end
                    else if negb (is_nil rest) then Some (Err Other)
                    else match adjustOffsetBits fuel h (mkField (m_type lm) (cf_offset local) 0 (m_bits lm)) (m_offset lm) with
                         | None => None
                         | Some (Err e) => Some (Err e)
                         | Some (Ok local) =>
                             match adjustOffsetBits fuel h (mkField (m_type tm) (cf_offset target) 0 (m_bits tm)) (m_offset tm) with
                             | None => None
                             | Some (Err e) => Some (Err e)
                             | Some (Ok target) =>
                                 match coreAreMembersCompatible h (cf_type local) (cf_type target) with
                                 | Err e => Some (Err e)
                                 | Ok _ => field_loop fuel h rest local target (acc =? Z.of_nat (length lms) - 1) last
                                 end
                             end
                         end
                end
            end
      end = Some (Ok (lf, tf)) ->
      exists p lo lb to tb, denotes h (cf_type local) (acc :: rest) p (cf_type lf) lo lb /\ at_path h (cf_type target) p (cf_type tf) to tb /\ cf_bfsize lf = lb /\ cf_bfsize tf = tb /\
        (8 * cf_offset local + lo < 2 ^ 32 -> pos lf = 8 * cf_offset local + lo) /\ (8 * cf_offset target + to < 2 ^ 32 -> pos tf = 8 * cf_offset target + to) /\ 0 <= cf_bfoff lf /\ 0 <= cf_bfoff tf /\ (lb = 0 -> tb = 0 -> cf_bfoff lf = 0 /\ cf_bfoff tf = 0)).
    { clear E n Dl. intros lms Hm E. unfold nth_z in E. destruct (Z.ltb_spec acc 0); [discriminate E|]. destruct (nth_error lms (Z.to_nat acc)) as [lm|] eqn:Nt; [|discriminate E].
      pose proof (proj2 L _ _ _ Hm (nth_error_In _ _ Nt)) as (Lo & Lb & La). destruct (is_nil (m_name lm)) eqn:Nil.
      - apply is_nil_eq in Nil. destruct (as_composite h (m_type lm)) as [[c cms]|] eqn:Ac; [|discriminate E]. apply as_composite_iff in Ac. destruct Ac as (Sc & Mc).
        destruct (IH (mkField c (u32 (cf_offset local + Bytes (m_offset lm))) 0 0) target false tflex lf tf Fr (u32_range _) Ot eq_refl B2 eq_refl B4 E) as (p & lo & lb & to & tb & D & A & Q1 & Q2 & P1 & P2 & P3). cbn [cf_type cf_offset] in *.
        exists p, (m_offset lm + lo), lb, to, tb. split; [eapply dn_anon; eassumption|]. repeat (split; [assumption|]). split; [|split; [exact P2|exact P3]].
        intros Bd. pose proof (denotes_nonneg _ _ _ _ _ _ _ L D). specialize (La (or_intror Nil)). unfold Bytes, in_u in *. pose proof (Z.div_mod (m_offset lm) 8 ltac:(lia)). rewrite u32_id in P1 by lia. rewrite P1; lia.
      - assert (Nn : m_name lm <> []) by (intros X; apply is_nil_eq in X; congruence). destruct (as_composite h (cf_type target)) as [[tc tms]|] eqn:At; [|discriminate E]. apply as_composite_iff in At. destruct At as (St & Mt).
        destruct (coreFindMember h tc (m_name lm)) as [[tm last]|] eqn:Fm; [|discriminate E]. apply coreFindMember_sound in Fm. destruct Fm as (m0 & toff & Ma & Et & Eb & En & Eo).
        destruct (member_at_nonneg _ _ _ _ _ L Ma) as (Tn & Tl & Ta). assert (Ou : in_u 32 (m_offset tm)) by (rewrite Eo; apply u32_range).
        destruct ((m_bits lm =? 0) && (m_bits tm =? 0)) eqn:Bits.
        + apply andb_true_iff in Bits. destruct Bits as (Bl & Bt). apply Z.eqb_eq in Bl. apply Z.eqb_eq in Bt. destruct (coreAreMembersCompatible _ _ _); [|discriminate E].
          eapply IH in E; cbn [cf_type cf_offset cf_bfoff cf_bfsize]; auto using u32_range; [|apply u32_range|apply u32_range]. destruct E as (p & lo & lb & to & tb & D & A & Q1 & Q2 & P1 & P2 & P3). cbn [cf_type cf_offset] in *.
          rewrite Et in A. exists (PMember (m_name lm) :: p), (m_offset lm + lo), lb, (toff + to), tb.
          split; [eapply dn_member; eassumption|]. split; [eapply ap_member; try eassumption; congruence|]. repeat (split; [assumption|]).
          pose proof (denotes_nonneg _ _ _ _ _ _ _ L D). pose proof (at_path_nonneg _ _ _ _ _ _ L A). unfold Bytes, in_u in *. split; [|split; [|exact P3]]; intros Bd.
          * specialize (La (or_introl Bl)). pose proof (Z.div_mod (m_offset lm) 8 ltac:(lia)). rewrite u32_id in P1 by lia. rewrite P1; lia.
          * rewrite Eb in Bt. specialize (Ta Bt). pose proof (Z.div_mod toff 8 ltac:(lia)). rewrite Eo, (u32_id toff) in P2 by lia. rewrite u32_id in P2 by lia. rewrite P2; lia.
        + destruct rest as [|x rest]; [|discriminate E]. cbn [is_nil negb] in E.
          destruct (adjustOffsetBits fuel h (mkField (m_type lm) _ _ _) _) as [[l1|]|] eqn:A1; try discriminate E. destruct (adjustOffsetBits fuel h (mkField (m_type tm) _ _ _) _) as [[t1|]|] eqn:A2; try discriminate E.
          destruct (coreAreMembersCompatible _ _ _) as [[]|]; [|discriminate E]. cbn [field_loop] in E.  inversion E; subst l1 t1. clear E.
          destruct (adjust_bits _ _ _ _ _ (proj1 L) Lo A1) as (a & k & _ & Pa & Pk & Rk & Eq1), (adjust_bits _ _ _ _ _ (proj1 L) Ou A2) as (a' & k' & _ & Pa' & Pk' & Rk' & Eq2); subst lf tf. cbn [cf_type cf_offset cf_bfoff cf_bfsize].
          exists [PMember (m_name lm)], (m_offset lm), (m_bits lm), toff, (m_bits tm). split; [eapply dn_bitfield; eassumption|]. split; [rewrite Et, Eb; eapply ap_bitfield; eassumption|]. split; [reflexivity|]. split; [reflexivity|].
          unfold pos. cbn [cf_offset cf_bfoff]. unfold in_u in *. assert (0 <= k * a) by (apply Z.mul_nonneg_nonneg; lia). assert (0 <= k' * a') by (apply Z.mul_nonneg_nonneg; lia). split; [|split; [|split; [lia|split; [lia|]]]]; [intros Bd|intros Bd|].
          * rewrite u32_id by lia. lia.
          * rewrite Eo, (u32_id toff) in * by lia. rewrite u32_id by lia. lia.
          * intros Z1 Z2. rewrite Z1, Z2 in Bits. discriminate Bits. }
    destruct n; try discriminate E.
    + (* array *) destruct (match UnderlyingType h (cf_type target) with Some r => deref h r | None => None end) as [m|] eqn:Dt; [|discriminate E]. destruct m; try discriminate E.
      destruct (UnderlyingType h (cf_type target)) as [tr|] eqn:Ut; [|discriminate Dt]. apply Underlying_stripped in Ut.
      destruct ((nelems =? 0) && negb lflex); [discriminate E|]. destruct ((nelems0 =? 0) && negb tflex); [discriminate E|].
      destruct ((nelems >? 0) && (acc >=? nelems)) eqn:I1; [discriminate E|]. destruct ((nelems0 >? 0) && (acc >=? nelems0)) eqn:I2; [discriminate E|].
      destruct (adjustOffsetToNthElement h (mkField elem _ _ _) acc) as [l1|] eqn:A1; [|discriminate E]. destruct (adjustOffsetToNthElement h (mkField elem0 _ _ _) acc) as [t1|] eqn:A2; [|discriminate E].
      apply nth_element in A1; [|exact (proj1 L)|exact Ha|exact Ol]. apply nth_element in A2; [|exact (proj1 L)|exact Ha|exact Ot]. destruct A1 as (e1 & El1 & N1 & ->), A2 as (e2 & El2 & N2 & ->). cbn [cf_type cf_offset cf_bfoff cf_bfsize] in *.
      destruct (coreAreMembersCompatible _ _ _); [|discriminate E].
      destruct (IH (mkField elem (u32 (cf_offset local + e1)) 0 0) (mkField elem0 (u32 (cf_offset target + e2)) 0 0) false false lf tf Fr (u32_range _) (u32_range _) eq_refl eq_refl eq_refl eq_refl E) as (p & lo & lb & to & tb & D & A & Q1 & Q2 & P1 & P2 & P3). cbn [cf_type cf_offset] in *.
      assert (U1 : in_u 32 nelems) by exact (deref_u32 _ _ _ (proj1 L) Dl). assert (U2 : in_u 32 nelems0) by exact (deref_u32 _ _ _ (proj1 L) Dt). unfold in_u in U1, U2.
      assert (In1 : acc < nelems \/ nelems = 0) by (destruct (Z.gtb_spec nelems 0), (Z.geb_spec acc nelems); cbn in I1; try discriminate I1; lia).
      assert (In2 : acc < nelems0 \/ nelems0 = 0) by (destruct (Z.gtb_spec nelems0 0), (Z.geb_spec acc nelems0); cbn in I2; try discriminate I2; lia).
      exists (PIndex acc :: p), (8 * e1 + lo), lb, (8 * e2 + to), tb. split; [eapply dn_index; try eassumption; lia|]. split; [eapply ap_index; try eassumption; lia|]. repeat (split; [assumption|]).
      pose proof (denotes_nonneg _ _ _ _ _ _ _ L D). pose proof (at_path_nonneg _ _ _ _ _ _ L A). unfold in_u in *. split; [|split; [|exact P3]]; intros Bd; [rewrite u32_id in P1 by lia; rewrite P1; lia|rewrite u32_id in P2 by lia; rewrite P2; lia].
    + apply (Comp ms); [exists name, size, tags; now left|exact E].
    + apply (Comp ms); [exists name, size, tags; now right|exact E].
Qed.
