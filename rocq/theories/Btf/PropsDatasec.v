(** C94: sizes and offsets of data sections *)
From Verif Require Import Base.GoInt Btf.Datasec Btf.DatasecSpec.
Open Scope Z_scope.

Lemma name_eqb_eq a b : name_eqb a b = true <-> a = b.
Proof. unfold name_eqb. destruct (list_eq_dec Z.eq_dec a b); split; congruence. Qed.
Lemma name_eqb_neq a b : a <> b -> name_eqb a b = false.
Proof. intros N. destruct (name_eqb a b) eqn:E; auto. apply name_eqb_eq in E. easy. Qed.
Lemma same_refl v : same v v. Proof. unfold same; auto. Qed.
(** ** Sections and symbols of the file *)
Lemma symbolOffsets_in secs syms : forall m m' n v z, symbolOffsets secs syms m = Some m' -> m' n v = Some z -> m n v = Some z \/ symbolAt secs syms n v z.
Proof.
  induction syms as [|y r IH]; cbn; intros m m' n v z H E; [injection H as <-; auto|].
  assert (UP : symbolAt secs r n v z -> symbolAt secs (y :: r) n v z) by (intros (y' & s & I & X); exists y', s; cbn; auto).
  destruct ((0xff00 <=? y_section y) && (y_section y <=? 0xffff)) eqn:R; [destruct (IH _ _ _ _ _ H E); auto|].
  destruct (0xffffffff <? y_value y); [destruct (IH _ _ _ _ _ H E); auto|].
  destruct (nth_error secs (Z.to_nat (y_section y))) as [s|] eqn:N; [|discriminate].
  destruct (IH _ _ _ _ _ H E) as [X|X]; auto. unfold upd2 in X. destruct (name_eqb n (s_name s) && name_eqb v (y_name y)) eqn:Q; auto. injection X as <-. apply andb_true_iff in Q. destruct Q as (Q1 & Q2). apply name_eqb_eq in Q1, Q2. subst.
  right. exists y, s. split; [cbn; auto|]. split; auto. split; auto. split; auto. apply andb_false_iff in R. rewrite !Z.leb_gt in R. lia.
Qed.
Lemma symbolOffsets_all secs syms : forall m m' n v, symbolOffsets secs syms m = Some m' -> m' n v = None -> m n v = None /\ forall z, z <= 0xffffffff -> ~ symbolAt secs syms n v z.
Proof.
  induction syms as [|y r IH]; cbn; intros m m' n v H E; [injection H as <-; split; auto; intros z _ (y & s & [] & _)|].
  assert (UP : forall m1, symbolOffsets secs r m1 = Some m' -> (forall s, ~ 0xff00 <= y_section y <= 0xffff -> y_value y <= 0xffffffff -> nth_error secs (Z.to_nat (y_section y)) = Some s -> m1 (s_name s) (y_name y) <> None) -> m1 n v = None /\ forall z, z <= 0xffffffff -> ~ symbolAt secs (y :: r) n v z).
  { intros m1 H1 NN. destruct (IH m1 m' n v H1 E) as (A & B). split; auto. intros z L (y' & s & [<- | I] & Y1 & Y2 & Y3 & Y4 & Y5); [|apply (B z L); exists y', s; auto 10]. subst. elim (NN s Y3 ltac:(lia) Y4 A). }
  destruct ((0xff00 <=? y_section y) && (y_section y <=? 0xffff)) eqn:R.
  - apply UP; auto. intros s X. apply andb_true_iff in R. rewrite !Z.leb_le in R. lia.
  - destruct (Z.ltb_spec 0xffffffff (y_value y)) as [L|L]; [apply UP; auto; intros; lia|].
    destruct (nth_error secs (Z.to_nat (y_section y))) as [s|] eqn:N; [|discriminate]. destruct (UP _ H) as (A & B).
    + intros s' _ _ [= <-]. unfold upd2. rewrite !(proj2 (name_eqb_eq _ _) eq_refl). cbn. discriminate.
    + split; auto. unfold upd2 in A. destruct (name_eqb n (s_name s) && name_eqb v (y_name y)); [discriminate|auto].
Qed.
Lemma sectionSizes_in secs : forall m m' n z, sectionSizes secs m = Some m' -> m' n = Some z -> m n = Some z \/ sectionSize secs n z.
Proof.
  induction secs as [|s r IH]; cbn; intros m m' n z H E; [injection H as <-; auto|].
  assert (UP : sectionSize r n z -> sectionSize (s :: r) n z) by (intros (s' & I & X); exists s'; cbn; auto).
  destruct (name_eqb (s_name s) btfName); [destruct (IH _ _ _ _ H E); auto|].
  assert (G : s_type s <> OtherSec -> (if 0xffffffff <? s_size s then None else sectionSizes r (upd1 m (s_name s) (s_size s))) = Some m' -> m n = Some z \/ sectionSize (s :: r) n z).
  { intros T G. destruct (0xffffffff <? s_size s); [discriminate|]. destruct (IH _ _ _ _ G E) as [X|X]; auto. unfold upd1 in X. destruct (name_eqb n (s_name s)) eqn:Q; auto. injection X as <-. apply name_eqb_eq in Q. right. exists s. cbn. auto. }
  destruct (s_type s) eqn:T; [apply G; auto; discriminate|apply G; auto; discriminate|destruct (IH _ _ _ _ H E); auto].
Qed.
Lemma sectionSizes_all secs : forall m m' n, n <> btfName -> sectionSizes secs m = Some m' -> m' n = None -> m n = None /\ forall z, ~ sectionSize secs n z.
Proof.
  induction secs as [|s r IH]; cbn; intros m m' n NB H E; [injection H as <-; split; auto; intros z (y & [] & _)|].
  assert (UP : forall m1, sectionSizes r m1 = Some m' -> (s_name s = n -> s_type s <> OtherSec -> m1 n <> None) -> m1 n = None /\ forall z, ~ sectionSize (s :: r) n z).
  { intros m1 H1 NN. destruct (IH m1 m' n NB H1 E) as (A & B). split; auto. intros z (s' & [<- | I] & Y1 & Y2 & Y3); [|apply (B z); exists s'; auto]. elim (NN Y1 Y2). auto. }
  destruct (name_eqb (s_name s) btfName) eqn:Q; [apply UP; auto; intros <- _; apply name_eqb_eq in Q; easy|].
  assert (G : s_type s <> OtherSec -> (if 0xffffffff <? s_size s then None else sectionSizes r (upd1 m (s_name s) (s_size s))) = Some m' -> m n = None /\ forall z, ~ sectionSize (s :: r) n z).
  { intros T G. destruct (0xffffffff <? s_size s); [discriminate|]. destruct (UP _ G) as (A & B); [intros <- _; unfold upd1; rewrite (proj2 (name_eqb_eq _ _) eq_refl); discriminate|]. split; auto. unfold upd1 in A. destruct (name_eqb n (s_name s)); [discriminate|auto]. }
  destruct (s_type s) eqn:T; [apply G; auto; discriminate|apply G; auto; discriminate|apply UP; auto; easy].
Qed.

Section Types.
Variables sizeof alignof : nat -> option Z.
Hypothesis WF : wfTypes sizeof alignof.
Notation layout := (layout sizeof alignof). Notation fix_ := (fix_ sizeof alignof). Notation lookup := (lookup sizeof alignof). Notation lookups := (lookups sizeof alignof).
Lemma u32_id x : 0 <= x < 2 ^ 32 -> u32 x = x.
Proof. intros H. unfold u32. apply (wrapu_id 32). exact H. Qed.
Lemma Align_ok n a : 0 <= n -> 1 <= a -> n + a < 2 ^ 32 -> Align n (u32 a) mod a = 0 /\ n <= Align n (u32 a) < n + a.
Proof.
  intros N A L. unfold Align. rewrite (u32_id a) by lia. rewrite (u32_id (n + a - 1)) by lia.
  pose proof (Z.div_mod (n + a - 1) a ltac:(lia)). pose proof (Z.mod_pos_bound (n + a - 1) a ltac:(lia)). rewrite u32_id by lia. split; [apply Z.mod_mul; lia|lia].
Qed.
Lemma space_pos vs : 0 <= space sizeof alignof vs.
Proof. induction vs as [|v vs IH]; cbn; [lia|]. destruct (WF (v_type v)) as (W1 & W2). destruct (sizeof (v_type v)) as [sz|]; [|lia]. destruct (alignof (v_type v)) as [a|]; [|lia]. specialize (W1 _ eq_refl). specialize (W2 _ eq_refl). lia. Qed.
Lemma layout_ok vs : forall off vs' r, 0 <= off -> off + space sizeof alignof vs < 2 ^ 32 -> layout off vs = (vs', r) ->
  match r with
  | Some e => consecutive sizeof alignof off vs' e /\ Forall2 (fun v w => same v w /\ v_link v = v_link w) vs vs' /\ Forall (fun v => v_kind v = Var) vs'
  | None => exists v, In v vs /\ (v_kind v <> Var \/ sizeof (v_type v) = None \/ alignof (v_type v) = None)
  end.
Proof.
  induction vs as [|v vs IH]; cbn; intros off vs' r O L H; [injection H as <- <-; cbn; auto|].
  destruct (WF (v_type v)) as (W1 & W2). destruct (v_kind v) eqn:K; [|injection H as <- <-; exists v; split; auto; left; congruence|injection H as <- <-; exists v; split; auto; left; congruence].
  destruct (sizeof (v_type v)) as [sz|] eqn:SZ; [|injection H as <- <-; exists v; auto]. destruct (alignof (v_type v)) as [a|] eqn:AL; [|injection H as <- <-; exists v; auto].
  specialize (W1 _ eq_refl). specialize (W2 _ eq_refl). pose proof (space_pos vs) as SP.
  destruct (Align_ok off a) as (A1 & A2); try lia. set (o := Align off (u32 a)) in *. rewrite (u32_id sz) in H by lia. rewrite (u32_id (o + sz)) in H by lia.
  destruct (layout (o + sz) vs) as (w & e) eqn:E. injection H as <- <-. specialize (IH (o + sz) w e ltac:(lia) ltac:(lia) E). destruct e as [e|].
  - destruct IH as (I1 & I2 & I3). split; [exists sz, a; cbn; auto|]. split; constructor; auto. unfold same; cbn; auto 10.
  - destruct IH as (x & I & X). exists x. auto.
Qed.
(** The variables of .kconfig are laid out one after another, with their alignment, and are no longer extern. *)
Theorem C94_kconfig : forall s e d id, secs_ s id = Some d -> elf_ s = Some e -> fixups s id = false -> d_name d = kconfig -> space sizeof alignof (d_vars d) < 2 ^ 32 ->
  match fst (lookup s id) with
  | Found d' => d_name d' = kconfig /\ consecutive sizeof alignof 0 (d_vars d') (d_size d') /\ Forall2 same (d_vars d) (d_vars d') /\ Forall (fun v => v_link v = Global) (d_vars d')
  | Failed => exists v, In v (d_vars d) /\ (v_kind v <> Var \/ sizeof (v_type v) = None \/ alignof (v_type v) = None)
  | NotFound => False
  end.
Proof.
  intros s e d id S E F N L. unfold lookup. rewrite S, E, F. unfold fix_. rewrite N. cbn [name_eqb]. rewrite (name_eqb_neq kconfig ksyms) by discriminate. rewrite (proj2 (name_eqb_eq kconfig kconfig) eq_refl).
  destruct (layout 0 (d_vars d)) as (vs & r) eqn:LA. pose proof (layout_ok (d_vars d) 0 vs r ltac:(lia) ltac:(lia) LA) as H. destruct r as [z|]; cbn; auto. destruct H as (H1 & H2 & H3). split; auto.
  assert (C : forall ws off, consecutive sizeof alignof off ws z -> consecutive sizeof alignof off (map setGlobal ws) z).
  { induction ws as [|w ws IH]; cbn; intros off C; auto. destruct C as (sz & al & C1 & C2 & C3 & C4 & C5). exists sz, al. auto 10. }
  split; auto. split.
  - clear - H2. induction H2 as [|v w l m (X & _) H IH]; cbn; constructor; auto.
  - clear. induction vs; cbn; constructor; auto.
Qed.
(** Other sections get their size and the offsets of their variables from the file. *)
Lemma fill_ok m vs : match fillOffsets m vs with
  | (vs', true) => Forall2 (fun v w => same v w /\ v_link v = v_link w /\ m (v_name v) = Some (v_off w)) vs vs'
  | (_, false) => exists v, In v vs /\ m (v_name v) = None
  end.
Proof.
  induction vs as [|v vs IH]; cbn; [constructor|]. destruct (m (v_name v)) as [o|] eqn:M.
  - destruct (fillOffsets m vs) as (w & []); [constructor; auto; unfold same; cbn; auto 10|]. destruct IH as (x & I & X). exists x. auto.
  - exists v. auto.
Qed.
Theorem C94_data : forall secs syms s e d id, loadElf secs syms = Some e -> secs_ s id = Some d -> elf_ s = Some e -> fixups s id = false ->
  d_name d <> kconfig -> d_name d <> ksyms -> d_name d <> btfName -> d_size d = 0 ->
  match fst (lookup s id) with
  | Found d' => d_name d' = d_name d /\ sectionSize secs (d_name d) (d_size d') /\
      Forall2 (fun v w => same v w /\ v_link v = v_link w /\ symbolAt secs syms (d_name d) (v_name v) (v_off w)) (d_vars d) (d_vars d')
  | Failed => (forall z, ~ sectionSize secs (d_name d) z) \/ exists v, In v (d_vars d) /\ forall z, z <= 0xffffffff -> ~ symbolAt secs syms (d_name d) (v_name v) z
  | NotFound => False
  end.
Proof.
  intros secs syms s e d id LE S E F N1 N2 N3 Z0. unfold lookup. rewrite S, E, F. unfold fix_. rewrite !name_eqb_neq by auto. rewrite Z0. cbn [Z.eqb negb].
  unfold loadElf in LE. destruct (sectionSizes secs _) as [sz|] eqn:SS; [|discriminate]. destruct (symbolOffsets secs syms _) as [so|] eqn:SO; [|discriminate]. injection LE as <-. cbn [sizes offsets].
  destruct (sz (d_name d)) as [z|] eqn:Q; cbn.
  - destruct (sectionSizes_in _ _ _ _ _ SS Q) as [X|X]; [discriminate|]. pose proof (fill_ok (so (d_name d)) (d_vars d)) as H. destruct (fillOffsets (so (d_name d)) (d_vars d)) as (vs & ok). destruct ok; cbn.
    + split; auto. split; auto. clear - H SO. induction H as [|v w l m (X1 & X2 & X3) H IH]; constructor; auto. split; auto. split; auto. destruct (symbolOffsets_in _ _ _ _ _ _ _ SO X3); [discriminate|auto].
    + right. destruct H as (v & I & H). exists v. split; auto. apply (symbolOffsets_all _ _ _ _ _ _ SO H).
  - left. apply (sectionSizes_all _ _ _ _ N3 SS Q).
Qed.
(** Nothing else is changed: sections that have a size, .ksyms, other sections, BTF that is not from an ELF file. *)
Theorem C94_unchanged : forall s id, 
  (forall j, j <> id -> secs_ (snd (lookup s id)) j = secs_ s j /\ fixups (snd (lookup s id)) j = fixups s j) /\
  (elf_ s = None -> snd (lookup s id) = s) /\
  (forall d, secs_ s id = Some d -> d_name d = ksyms \/ d_size d <> 0 /\ d_name d <> kconfig -> secs_ (snd (lookup s id)) id = Some d).
Proof.
  intros s id. unfold lookup. split; [|split].
  - intros j J. destruct (secs_ s id); auto. destruct (elf_ s); auto. destruct (fixups s id); auto. destruct (fix_ e d). cbn. unfold set. destruct (Nat.eqb_spec j id); easy.
  - intros ->. destruct (secs_ s id); auto.
  - intros d D C. rewrite D. destruct (elf_ s) as [e|]; cbn; auto. destruct (fixups s id); auto. 
    assert (F : fst (fix_ e d) = d).
    { unfold fix_. destruct C as [-> |(Z0 & N)]; [rewrite (proj2 (name_eqb_eq ksyms ksyms) eq_refl); auto|]. rewrite (name_eqb_neq _ kconfig N). destruct (name_eqb (d_name d) ksyms); auto. destruct (Z.eqb_spec (d_size d) 0); easy. }
    destruct (fix_ e d) as (d' & ok). cbn in *. subst. unfold set. rewrite Nat.eqb_refl. auto.
Qed.
(** What a lookup gives doesn't depend on earlier ones. *)
Lemma fix_idem e d d' : fix_ e d = (d', true) -> fix_ e d' = (d', true).
Proof.
  unfold fix_. destruct (name_eqb (d_name d) ksyms) eqn:K1; [intros [= <- E]; rewrite K1; f_equal; auto|].
  destruct (name_eqb (d_name d) kconfig) eqn:K2.
  - destruct (layout 0 (d_vars d)) as (vs & [z|]) eqn:L; [|discriminate]. intros [= <-]. cbn [d_name d_vars]. rewrite K1, K2.
    assert (G : forall vs off ws, layout off vs = (ws, Some z) -> layout off (map setGlobal ws) = (map setGlobal ws, Some z)).
    { clear. induction vs as [|v vs IH]; cbn; intros off ws H; [injection H as <- <-; auto|]. destruct (v_kind v) eqn:K; [|discriminate|discriminate]. destruct (sizeof (v_type v)) as [sz|] eqn:S; [|discriminate]. destruct (alignof (v_type v)) as [al|] eqn:A; [|discriminate].
      destruct (layout (u32 (Align off (u32 al) + u32 sz)) vs) as (w & e) eqn:E. injection H as <- ->. cbn. rewrite K, S, A. rewrite (IH _ _ E). auto. }
    rewrite (G _ _ _ L). do 2 f_equal. clear. induction vs; cbn; f_equal; auto.
  - destruct (Z.eqb_spec (d_size d) 0) as [Z0|Z0]; cbn [negb].
    + destruct (sizes e (d_name d)) as [sz|] eqn:SZ; [|discriminate]. pose proof (fill_ok (offsets e (d_name d)) (d_vars d)) as H. destruct (fillOffsets _ (d_vars d)) as (vs & []); [|discriminate]. intros [= <-]. cbn [d_name d_size d_vars]. rewrite K1, K2, SZ.
      destruct (Z.eqb_spec sz 0); cbn; auto. subst.
      assert (G : fillOffsets (offsets e (d_name d)) vs = (vs, true)).
      { clear - H. induction H as [|v w l m (X1 & X2 & X3) H IH]; cbn; auto. destruct X1 as (_ & X1 & _). rewrite <- X1, X3, IH. f_equal. f_equal. destruct w; auto. }
      rewrite G. auto.
    + intros [= <-]. rewrite K1, K2. destruct (Z.eqb_spec (d_size d) 0); easy.
Qed.
(** [id] is as at first, or has been repaired. *)
Definition state_of (e : option elf) (d d' : datasec) (id : nat) (s : spec) : Prop :=
  elf_ s = e /\ (secs_ s id = Some d' \/ fixups s id = false /\ secs_ s id = Some d).
Lemma state_lookup e d d' id s j : (match e with Some e => fix_ e d = (d', true) | None => d' = d end) -> state_of e d d' id s ->
  state_of e d d' id (snd (lookup s j)) /\ (j = id -> fst (lookup s j) = Found d').
Proof.
  intros FX (SE & ST). unfold lookup. destruct (secs_ s j) as [x|] eqn:S.
  2:{ split; [split; auto|]. intros ->. destruct ST as [ST|(_ & ST)]; congruence. }
  rewrite SE. destruct e as [e|].
  2:{ subst d'. split; [split; auto|]. intros ->. cbn. destruct ST as [ST|(_ & ST)]; congruence. }
  destruct (fixups s j) eqn:F.
  - split; [split; auto|]. intros ->. cbn. destruct ST as [ST|(ST & _)]; congruence.
  - destruct (fix_ e x) as (x' & ok) eqn:X. cbn. assert (G : j = id -> x' = d' /\ ok = true) by (intros ->; destruct ST as [ST|(_ & ST)]; [pose proof (fix_idem e d d' FX)|]; assert (x = d' \/ x = d) by (rewrite ST in S; injection S; auto); rewrite ST in S; injection S as <-; split; congruence).
    split.
    + split; auto. cbn. unfold set. destruct (Nat.eqb_spec id j) as [<- | N]; auto. left. destruct G; congruence.
    + intros E. destruct (G E) as (-> & ->). auto.
Qed.
Theorem C94_history : forall s id d', fresh s -> fst (lookup s id) = Found d' -> forall ids, fst (lookup (lookups s ids) id) = Found d'.
Proof.
  intros s id d' FR L ids. assert (exists d, secs_ s id = Some d) as (d & D) by (unfold lookup in L; destruct (secs_ s id); [eauto|discriminate]).
  assert (FX : match elf_ s with Some e => fix_ e d = (d', true) | None => d' = d end).
  { unfold lookup in L. rewrite D, (FR id) in L. destruct (elf_ s) as [e|]; [|cbn in L; congruence]. destruct (fix_ e d) as (x & []); cbn in L; congruence. }
  assert (ST : state_of (elf_ s) d d' id s) by (split; auto). revert ST FX. generalize (elf_ s) as e. clear L D FR. revert s. induction ids as [|j ids IH]; cbn; intros s e ST FX.
  - apply (state_lookup e d d' id s id FX ST). auto.
  - apply (IH _ e); auto. apply (state_lookup e d d' id s j FX ST).
Qed.
Lemma lookups_state e d d' id ids : (match e with Some e => fix_ e d = (d', true) | None => d' = d end) -> forall s, state_of e d d' id s -> state_of e d d' id (lookups s ids).
Proof. intros FX. induction ids as [|j ids IH]; cbn; intros s ST; auto. apply IH. apply (state_lookup e d d' id s j FX ST). Qed.
(** ... nor on copying the Spec. *)
Theorem C94_copy : forall s id d', fresh s -> fst (lookup s id) = Found d' -> forall ids ids', fst (lookup (lookups (Copy (lookups s ids)) ids') id) = Found d'.
Proof.
  intros s id d' FR L ids ids'. assert (exists d, secs_ s id = Some d) as (d & D) by (unfold lookup in L; destruct (secs_ s id); [eauto|discriminate]).
  assert (FX : match elf_ s with Some e => fix_ e d = (d', true) | None => d' = d end).
  { unfold lookup in L. rewrite D, (FR id) in L. destruct (elf_ s) as [e|]; [|cbn in L; congruence]. destruct (fix_ e d) as (x & []); cbn in L; congruence. }
  assert (ST : state_of (elf_ s) d d' id s) by (split; auto). pose proof (lookups_state _ _ _ _ ids FX _ ST) as (S1 & S2).
  assert (ST' : state_of (elf_ s) d d' id (Copy (lookups s ids))) by (split; auto; cbn; destruct S2 as [S2|(_ & S2)]; auto).
  pose proof (lookups_state _ _ _ _ ids' FX _ ST') as ST2. apply (state_lookup _ _ _ _ _ id FX ST2). auto.
Qed.
End Types.
(** The user changes a section. *)
Definition modify (s : spec) (id : nat) (d : datasec) : spec := Spec (elf_ s) (set (secs_ s) id (Some d)) (fixups s).
Theorem C94_modified : forall sizeof alignof s id d, (exists x, fst (lookup sizeof alignof s id) = Found x) ->
  forall ids, fst (lookup sizeof alignof (lookups sizeof alignof (modify (snd (lookup sizeof alignof s id)) id d) ids) id) = Found d.
Proof.
  intros sizeof alignof s id d (x & F) ids.
  assert (G : forall j s, fst (lookup sizeof alignof s j) <> NotFound -> elf_ s = None \/ fixups (snd (lookup sizeof alignof s j)) j = true).
  { intros j t. unfold lookup. destruct (secs_ t j) as [y|]; [|easy]. destruct (elf_ t) as [e|]; [|auto]. intros _. right. destruct (fixups t j) eqn:Q; auto. destruct (fix_ sizeof alignof e y). cbn. unfold set. rewrite Nat.eqb_refl. auto. }
  assert (EL : forall j s, elf_ (snd (lookup sizeof alignof s j)) = elf_ s).
  { intros j t. unfold lookup. destruct (secs_ t j) as [y|]; auto. destruct (elf_ t) as [e|] eqn:Q; auto. destruct (fixups t j); auto. destruct (fix_ sizeof alignof e y). auto. }
  assert (I : forall ids t, secs_ t id = Some d -> elf_ t = None \/ fixups t id = true -> fst (lookup sizeof alignof (lookups sizeof alignof t ids) id) = Found d).
  { clear F. induction ids0 as [|j r IH]; cbn; intros t S C.
    - unfold lookup. rewrite S. destruct (elf_ t) as [e|]; auto. destruct C as [C|C]; [discriminate|]. rewrite C. auto.
    - assert (X : secs_ (snd (lookup sizeof alignof t j)) id = Some d /\ (elf_ (snd (lookup sizeof alignof t j)) = None \/ fixups (snd (lookup sizeof alignof t j)) id = true)).
      { rewrite EL. unfold lookup. destruct (secs_ t j) as [y|] eqn:Y; auto. destruct (elf_ t) as [e|]; auto. destruct C as [C|C]; [discriminate|]. destruct (fixups t j) eqn:FJ; auto. destruct (fix_ sizeof alignof e y). cbn. unfold set. destruct (Nat.eqb_spec id j) as [<- | N]; [congruence|auto]. }
      apply IH; apply X. }
  apply I; cbn.
  - unfold set. rewrite Nat.eqb_refl. auto.
  - rewrite EL. destruct (G id s) as [G'|G']; auto. congruence.
Qed.

(** ** Examples *)
Definition four (t : nat) : option Z := match t with 0%nat => Some 1 | 1%nat => Some 4 | 2%nat => Some 8 | _ => None end.
Definition v (k : kind) (n : Z) (t : nat) (o : Z) : vsi := Vsi k [n] t Extern o 0.
Definition data : name := [46; 100].
Definition file : elf := Elf (fun n => if name_eqb n data then Some 12 else None) (fun n x => if name_eqb n data then if name_eqb x [1] then Some 8 else if name_eqb x [2] then Some 0 else None else None).
Definition types (id : nat) : option datasec := match id with
  | 1%nat => Some (Ds kconfig 0 [v Var 1 0 0; v Var 2 1 0; v Var 3 0 0; v Var 4 2 0])
  | 2%nat => Some (Ds data 0 [v Var 1 1 0; v Var 2 2 0])
  | 3%nat => Some (Ds data 0 [v Var 1 1 0; v Var 9 2 0])
  | 4%nat => Some (Ds ksyms 0 [v Func 1 1 0])
  | _ => None
  end.
Definition ex : spec := Spec (Some file) types (fun _ => false).
Theorem C94_example :
  fst (lookup four four ex 1) = Found (Ds kconfig 24 [Vsi Var [1] 0 Global 0 0; Vsi Var [2] 1 Global 4 0; Vsi Var [3] 0 Global 8 0; Vsi Var [4] 2 Global 16 0]) /\
  fst (lookup four four ex 2) = Found (Ds data 12 [v Var 1 1 8; v Var 2 2 0]) /\
  fst (lookup four four ex 4) = Found (Ds ksyms 0 [v Func 1 1 0]) /\
  loadElf [Sec [] OtherSec 0; Sec data Progbits 12; Sec btfName OtherSec 99] [Sym [1] 1 8; Sym [2] 1 0; Sym [7] 0xfff1 5; Sym [2] 1 0x100000000] <> None /\
  loadElf [Sec [] OtherSec 0; Sec data Progbits 0x100000000] [] = None /\ loadElf [Sec [] OtherSec 0] [Sym [1] 1 8] = None.
Proof. split; [vm_compute; reflexivity|]. split; [vm_compute; reflexivity|]. split; [vm_compute; reflexivity|]. split; [vm_compute; discriminate|]. split; vm_compute; reflexivity. Qed.
Theorem C94_example_hyps : wfTypes four four /\ fresh ex /\ space four four (d_vars (Ds kconfig 0 [v Var 1 0 0; v Var 2 1 0; v Var 3 0 0; v Var 4 2 0])) < 2 ^ 32.
Proof. split; [|split; [intros i; auto|vm_compute; auto]]. intros [|[|[|t]]]; cbn; split; intros z; intros [= <-]; lia. Qed.
(** What fails once doesn't fail again: the section is given out half repaired, without an error. *)
Theorem C94_retry_refuted : exists s id s' d, fresh s /\ lookup four four s id = (Failed, s') /\ fst (lookup four four s' id) = Found d /\ exists w, In w (d_vars d) /\ v_name w = [9] /\ v_off w = 0 /\ d_size d = 12.
Proof. exists ex, 3%nat. do 2 eexists. split; [intros i; auto|]. split; [vm_compute; reflexivity|]. split; [vm_compute; reflexivity|]. exists (v Var 9 2 0). cbn. auto 10. Qed.
(** Copy doesn't know what was repaired already: a change of .kconfig is lost in the copy, but not in the original. *)
Theorem C94_copy_refuted : exists s id d x, fst (lookup four four s id) <> NotFound /\ fst (lookup four four s id) <> Failed /\
  let s' := modify (snd (lookup four four s id)) id d in fst (lookup four four s' id) = Found d /\ fst (lookup four four (Copy s') id) = Found x /\ d <> x.
Proof. exists ex, 1%nat, (Ds kconfig 4096 [v Var 1 0 100]). eexists. split; [vm_compute; discriminate|]. split; [vm_compute; discriminate|]. cbv zeta. split; [vm_compute; reflexivity|]. split; [vm_compute; reflexivity|]. discriminate. Qed.
(** Sizes are added up modulo 2^32. *)
Definition huge (t : nat) : option Z := Some 0x80000000.
Theorem C94_wrap_refuted : exists s id d, fst (lookup huge four s id) = Found d /\ d_name d = kconfig /\ d_size d = 0 /\ map v_off (d_vars d) = [0; 0x80000000].
Proof. exists (Spec (Some file) (fun _ => Some (Ds kconfig 0 [v Var 1 0 0; v Var 2 1 0])) (fun _ => false)), 1%nat. eexists. split; [vm_compute; reflexivity|]. auto. Qed.
(** Two sections with the same name: the size is that of the last. *)
Theorem C94_same_name_refuted : exists secs e s1, loadElf secs [Sym [1] 1 8] = Some e /\ nth_error secs 1 = Some s1 /\ s_name s1 = data /\ s_size s1 = 12 /\ sizes e data = Some 4 /\ offsets e data [1] = Some 8.
Proof. exists [Sec [] OtherSec 0; Sec data Progbits 12; Sec data Progbits 4]. eexists. exists (Sec data Progbits 12). split; [cbv; reflexivity|]. auto 10. Qed.

Print Assumptions C94_kconfig.
Print Assumptions C94_data.
Print Assumptions C94_unchanged.
Print Assumptions C94_history.
Print Assumptions C94_copy.
Print Assumptions C94_modified.
Print Assumptions C94_example.
Print Assumptions C94_retry_refuted.
Print Assumptions C94_copy_refuted.
