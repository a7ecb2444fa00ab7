(** C93: pointers to variables of BPF programs *)
From Verif Require Import Base.GoInt Mem.Unsafe Mem.UnsafeSpec.
Open Scope Z_scope.

Section Ind.
Variable P : gty -> Prop.
Hypothesis H0 : forall t, (forall n u, t <> Arr n u) -> (forall fs, t <> Struct fs) -> P t.
Hypothesis H1 : forall n t, P t -> P (Arr n t).
Hypothesis H2 : forall fs, Forall P fs -> P (Struct fs).
Fixpoint gty_ind' (t : gty) : P t :=
  match t with
  | Arr n t => H1 n t (gty_ind' t)
  | Struct fs => H2 fs ((fix go l := match l return Forall P l with [] => Forall_nil P | x :: r => Forall_cons x (gty_ind' x) (go r) end) fs)
  | t0 => H0 t0 ltac:(discriminate) ltac:(discriminate)
  end.
End Ind.
Lemma isHost t : (match t with HostLayout => true | _ => false end) = true <-> t = HostLayout.
Proof. destruct t; split; congruence. Qed.
Theorem C93_types : forall t, checkType t = true <-> shareable t.
Proof.
  induction t as [t N1 N2|n t IH|fs IH] using gty_ind'.
  - split.
    + intros C. split; [intros ->; discriminate|]. intros u W. inversion W as [|? ? ? W'|? ? ? I W']; subst; [|elim (N1 n t0); auto|elim (N2 fs); auto]. destruct t; cbn in C; auto; try discriminate; [elim (N1 n t); auto|elim (N2 fs); auto].
    + intros (NH & S). specialize (S t (Here t)). destruct t; auto; try easy; [elim (N1 n t); auto|elim (N2 fs); auto].
  - cbn. rewrite IH. split.
    + intros (NH & S). split; [discriminate|]. intros u W. inversion W as [|? ? ? W'|]; subst; auto; apply S; auto.
    + intros (_ & S). split; [apply (S _ (Here _))|]. intros u W. apply S. constructor. auto.
  - cbn. rewrite andb_true_iff, forallb_forall, existsb_exists. rewrite Forall_forall in IH. split.
    + intros (A & h & J & E). apply isHost in E. subst h. split; [discriminate|]. intros u W. inversion W as [| |? t ? I W']; subst; auto.
      specialize (A t I). destruct t; try (inversion W'; subst; auto; fail); apply (IH _ I); auto.
    + intros (_ & S). split; [|exists HostLayout; split; auto; apply (S _ (Here _))]. intros t I. destruct (isHost t) as [_ X]. destruct (match t with HostLayout => true | _ => false end) eqn:E; [apply isHost in E; subst; auto|].
      assert (C : checkType t = true) by (apply IH; auto; split; [intros ->; discriminate|intros u W; apply S; econstructor; eauto]). destruct t; auto.
Qed.

Section Word.
Variable word : Z.
Hypothesis W : word = 4 \/ word = 8.
Lemma align_div t : wfType t -> 1 <= align word t /\ (align word t | 8).
Proof.
  induction t as [t N1 N2|n t IH|fs IH] using gty_ind'; intros F.
  - specialize (F t (Here t)). assert (D : (4 | 8) /\ (1 | 8) /\ (2 | 8) /\ (8 | 8)) by (split; [exists 2; lia|split; [exists 8; lia|split; [exists 4; lia|exists 1; lia]]]). destruct D as (D4 & D1 & D2 & D8).
    destruct t; cbn in *; try (split; [lia|destruct W as [-> | ->]; auto]; fail).
    + destruct F as [<- | [<- | [<- | [<- | []]]]]; destruct W as [-> | ->]; cbn; split; auto; lia.
    + destruct F as [<- | [<- | []]]; split; auto; lia.
    + elim (N1 n t); auto.
    + elim (N2 fs); auto.
  - cbn. apply IH. intros u X. apply F. constructor. auto.
  - cbn. rewrite Forall_forall in IH. assert (G : forall t, In t fs -> wfType t) by (intros t I u X; apply F; econstructor; eauto). clear F.
    induction fs as [|t fs IHf]; cbn; [split; [lia|exists 8; lia]|]. destruct IHf as (A & B); [intros; apply IH; cbn; auto|intros; apply G; cbn; auto|].
    destruct (IH t) as (A' & B'); cbn; auto; [apply G; cbn; auto|]. destruct (Z.max_spec (align word t) (fold_right (fun t a => Z.max (align word t) a) 1 fs)) as [(? & ->)|(? & ->)]; auto.
Qed.
Lemma u32_small x : 0 <= x < 2 ^ 32 -> u32 x = x.
Proof. intros. unfold u32, wrapu. apply Z.mod_small. auto. Qed.
Lemma bounds_ok m off sz : fitsMemory m -> in_u 32 off -> in_u 32 sz -> bounds m off sz = true <-> off + sz <= m_len m.
Proof.
  intros (L & _) O S. unfold bounds, in_u in *. rewrite (u32_small (m_len m)) by auto. change (2 ^ 32) with 4294967296 in *.
  assert (U : off + sz < 4294967296 /\ u32 (off + sz) = off + sz \/ 4294967296 <= off + sz /\ u32 (off + sz) = off + sz - 4294967296).
  { unfold u32, wrapu. change (2 ^ 32) with 4294967296. destruct (Z_lt_ge_dec (off + sz) 4294967296); [left|right]; split; lia. }
  destruct U as [(U1 & ->)|(U1 & ->)]; destruct (Z.ltb_spec (off + sz) off), (Z.ltb_spec (off + sz - 4294967296) off); try lia; try (rewrite Z.leb_le; lia); split; intros; try lia; discriminate.
Qed.
(** The type has the variable's size, but for uintptr on 32 bit machines. *)
Definition sizes (t : gty) (n : Z) : Prop := size word t = n \/ t = Uintptr /\ word = 4 /\ n = 8.
Theorem C93_pointer : forall off n mm v t, in_u 32 off -> in_u 32 n -> wfType t -> (forall m, mm = Some m -> fitsMemory m) -> newVariable off n mm = Some v ->
  match VariablePointer word t v with
  | Ptr a => exists m, mm = Some m /\ a = m_base m + off /\ a mod align word t = 0 /\ sizes t n /\ 0 < size word t <= n /\ a + n <= m_base m + m_len m /\ shareable t /\ m_ro m = false /\ m_heap m = true
  | Err _ => ~ exists m, mm = Some m /\ off mod align word t = 0 /\ sizes t n /\ size word t <> 0 /\ shareable t /\ m_ro m = false /\ m_heap m = true
  | Panic => False
  end.
Proof.
  intros off n mm v t O N F FM NV. destruct (align_div t F) as (A1 & A8).
  assert (AU : u32 (align word t) = align word t) by (apply u32_small; apply Z.divide_pos_le in A8; [|lia]; change (2 ^ 32) with 4294967296; lia).
  destruct mm as [m|].
  - cbn in NV. destruct (bounds m off n) eqn:B; [|discriminate]. injection NV as <-. specialize (FM m eq_refl). pose proof FM as FM'. destruct FM as (L & NL & BA). apply (bounds_ok m off n FM' O N) in B.
    unfold VariablePointer, checkVariable, ReadOnly. cbn [v_mm v_size v_off].
    destruct (m_ro m) eqn:RO; [intros (m' & [= <-] & _ & _ & _ & _ & X & _); congruence|].
    assert (SZ : (match (match t with Uintptr => if n =? 8 then None else if negb (n =? size word t) then Some ErrInvalidType else None | _ => if negb (n =? size word t) then Some ErrInvalidType else None end) with None => sizes t n | Some _ => ~ sizes t n end)).
    { unfold sizes. destruct t; try (match goal with |- context [n =? size word ?T] => destruct (Z.eqb_spec n (size word T)) as [E|E]; cbn [negb]; [left; auto|intros [X|(X & _)]; [auto|discriminate]] end; fail).
      destruct (Z.eqb_spec n 8) as [-> | N8]; [destruct W; cbn; auto|]. destruct (Z.eqb_spec n (size word Uintptr)) as [E|E]; cbn [negb]; [left; auto|intros [X|(_ & _ & X)]; auto]. }
    destruct (match t with Uintptr => if n =? 8 then None else if negb (n =? size word t) then Some ErrInvalidType else None | _ => if negb (n =? size word t) then Some ErrInvalidType else None end); [intros (m' & [= <-] & _ & X & _); auto|].
    unfold memoryPointer, checkUnsafeMemory. rewrite NL, RO.
    destruct (m_heap m) eqn:HP; cbn [negb]; [|intros (m' & [= <-] & X); decompose [and] X; congruence].
    destruct (checkType t) eqn:CT; cbn [negb]; [|intros (m' & [= <-] & _ & _ & _ & X & _); apply C93_types in X; congruence]. apply C93_types in CT.
    destruct (Z.eqb_spec (size word t) 0) as [Z0|Z0]; [intros (m' & [= <-] & _ & _ & X & _); auto|]. rewrite AU.
    destruct (Z.eqb_spec (off mod align word t) 0) as [AL|AL]; cbn [negb]; [|intros (m' & [= <-] & X & _); auto].
    assert (SP : 0 < size word t <= n).
    { unfold sizes in SZ. destruct SZ as [SZ|(-> & -> & ->)]; [|cbn; lia]. unfold in_u in N. lia. }
    assert (SU : u32 (size word t) = size word t) by (apply u32_small; unfold in_u in N; lia). rewrite SU.
    assert (BS : bounds m off (size word t) = true) by (apply bounds_ok; auto; [unfold in_u in *; lia|lia]). rewrite BS. cbn [negb]. unfold in_u in *.
    destruct (Z.ltb_spec off (m_len m)); [|lia].
    exists m. split; auto. split; auto. split; [|split; auto; split; auto; split; [lia|auto]].
    rewrite Z.add_mod by lia. rewrite AL. destruct A8 as (q & A8). assert (BM : m_base m mod align word t = 0).
    { apply Z.mod_divide; [lia|]. apply Z.divide_trans with 8; [exists q; lia|]. apply Z.mod_divide; [lia|auto]. }
    rewrite BM. apply Z.mod_0_l. lia.
  - cbn in NV. injection NV as <-. cbn. intros (m & X & _). discriminate.
Qed.
End Word.
(** On a 32 bit machine a uintptr is the first half of a pointer of the BPF program: the upper one on big endian machines. *)
Definition bigEndian (l : list Z) : Z := fold_left (fun a b => 256 * a + b) l 0.
Theorem C93_uintptr_refuted : exists m v mem_ a, fitsMemory m /\ newVariable 8 8 (Some m) = Some v /\ VariablePointer 4 Uintptr v = Ptr a /\
  bigEndian (map mem_ [a; a + 1; a + 2; a + 3; a + 4; a + 5; a + 6; a + 7]) = 0xc0ffee /\ bigEndian (map mem_ [a; a + 1; a + 2; a + 3]) = 0.
Proof.
  exists (Mem 4096 4096 false false true), (Var 8 8 (Some (Mem 4096 4096 false false true))), (fun x => if x =? 4109 then 0xc0 else if x =? 4110 then 0xff else if x =? 4111 then 0xee else 0), 4104.
  split; [split; [cbn; lia|split; reflexivity]|]. split; [reflexivity|]. split; [reflexivity|]. split; reflexivity.
Qed.

(** ** The heap *)
Lemma Align_facts n p : 0 < p -> n <= Align n p < n + p /\ Align n p mod p = 0.
Proof.
  intros P. unfold Align. split; [|apply Z.mod_mul; lia]. pose proof (Z.div_mod (n + p - 1) p ltac:(lia)). pose proof (Z.mod_pos_bound (n + p - 1) p P). lia.
Qed.
(** The memory of a map is put on whole pages inside of the new object. *)
Theorem C93_region : forall page sz base, 0 < page -> 0 < sz -> sz mod page = 0 -> 0 <= base -> base + allocSize page sz < 2 ^ 64 ->
  aligned page base mod page = 0 /\ base <= aligned page base /\ aligned page base + sz <= base + allocSize page sz.
Proof.
  intros page sz base P S M B L. unfold aligned, allocSize in *. pose proof (Align_facts (sz + page) page P). pose proof (Align_facts base page P).
  rewrite (wrapu_id 64) by (unfold in_u; lia). lia.
Qed.
Fixpoint separate (l : list block) : Prop := match l with [] => True | b :: r => Forall (disjoint b) r /\ separate r end.
Lemma disjoint_sym b c : disjoint b c -> disjoint c b. Proof. unfold disjoint. tauto. Qed.
Lemma separate_mid l b r : separate (l ++ b :: r) -> separate (l ++ r) /\ (forall c, In c (l ++ r) -> disjoint b c) /\ forall b', b_base b' = b_base b -> b_len b' = b_len b -> separate (l ++ b' :: r).
Proof.
  induction l as [|x l IH]; cbn.
  - intros (A & B). split; auto. split; [apply Forall_forall; auto|]. intros b' E1 E2. split; auto. rewrite Forall_forall in *. intros c I. specialize (A c I). unfold disjoint in *. rewrite E1, E2. auto.
  - intros (A & B). destruct (IH B) as (C & D & E). rewrite Forall_app in A. destruct A as (A1 & A2). inversion A2 as [|? ? A3 A4]; subst. split; [split; auto; apply Forall_app; auto|]. split.
    + intros c [<- | I]; [apply disjoint_sym; auto|auto].
    + intros b' E1 E2. split; [|auto]. apply Forall_app. split; auto. constructor; auto. unfold disjoint in *. rewrite E1, E2. auto.
Qed.
Definition okB (b : block) : Prop :=
  0 < b_len b /\ match b_map b with Some (a, sz, id, ro) => b_fin b = true /\ b_base b <= a /\ 0 < sz /\ a + sz <= b_base b + b_len b | None => b_fin b = false end.
Definition shows (s : state) (b : block) : Prop :=
  match b_map b with Some (a, sz, id, ro) => forall x, a <= x < a + sz -> mem s x = MapMem id (x - a) ro | None => True end.
Record inv (holes : bool) (s : state) : Prop := Inv { i_sep : separate (blocks s); i_ok : Forall okB (blocks s); i_shows : Forall (shows s) (blocks s); i_anon : holes = false -> forall x, mapped s x \/ mem s x = Anon }.
Lemma inside_iff a b n : inside a b n = true <-> b <= a < b + n.
Proof. unfold inside. rewrite andb_true_iff, Z.leb_le, Z.ltb_lt. lia. Qed.
Lemma setRange_in f b n c x : b <= x < b + n -> setRange f b n c x = c (x - b).
Proof. intros H. unfold setRange. apply inside_iff in H. rewrite H. auto. Qed.
Lemma setRange_out f b n c x : ~ b <= x < b + n -> setRange f b n c x = f x.
Proof. intros H. unfold setRange. destruct (inside x b n) eqn:E; auto. apply inside_iff in E. easy. Qed.
(** Changing memory inside a new or old block leaves the others as they are. *)
Lemma shows_other s l f : (forall c, In c l -> okB c /\ shows s c) -> (forall c x, In c l -> b_base c <= x < b_base c + b_len c -> f x = mem s x) -> forall bs, Forall (shows (St f bs)) l.
Proof.
  intros A B bs. apply Forall_forall. intros c I. destruct (A c I) as (O & S). unfold shows, okB in *. destruct (b_map c) as [(((a & sz) & id) & ro)|]; auto. cbn. intros x X. rewrite (B c x I) by lia. auto.
Qed.
Lemma mapped_app f l b r f' b' : (forall x, mapped (St f (l ++ b :: r)) x -> mapped (St f' (l ++ b' :: r)) x \/ (exists a sz id ro, b_fin b = true /\ b_map b = Some (a, sz, id, ro) /\ a <= x < a + sz)).
Proof.
  intros x (c & a & sz & id & ro & I & FN & M & X). cbn in I. apply in_app_iff in I. destruct I as [I|[<- | I]].
  - left. exists c, a, sz, id, ro. cbn. rewrite in_app_iff. auto.
  - right. exists a, sz, id, ro. auto.
  - left. exists c, a, sz, id, ro. cbn. rewrite in_app_iff. cbn. auto.
Qed.
Lemma step_inv page holes h s s' : 0 < page -> step page h s s' -> (h = true -> holes = true) -> inv holes s -> inv holes s'.
Proof.
  intros P ST HH [SEP OK SH AN]. rewrite Forall_forall in OK, SH. assert (OS : forall c, In c (blocks s) -> okB c /\ shows s c) by auto.
  assert (NEWF : forall b, fits s b -> Forall (disjoint b) (blocks s)) by (intros b (_ & _ & _ & D); apply Forall_forall; auto).
  destruct ST as [s b F M FN|s id sz base f1 f2 m b f S0 F N|h s id sz base f1 f2 f S0 F N NH|s l b r B|s l b r a sz id ro B RF FN M|s l b r B RF FN].
  - (* Alloc *) constructor; cbn.
    + split; auto.
    + constructor; [|apply Forall_forall; auto]. unfold okB. rewrite M. destruct F as (_ & F & _). auto.
    + constructor; [unfold shows; rewrite M; auto|]. apply (shows_other s); auto.
    + intros HF x. destruct (AN HF x) as [(c & a & sz & id & ro & I & X)|X]; auto. left. exists c, a, sz, id, ro. cbn. auto.
  - (* New *) unfold newUnsafeMemory in N. destruct (Z.eqb_spec (sz mod page) 0) as [SM|]; [|discriminate]. destruct (Z.eqb_spec sz 0) as [|SN]; [discriminate|]. cbn [negb orb] in N.
    assert (G : exists ro g, b = Block base (allocSize page sz) (Some (aligned page base, sz, id, ro)) true true /\ f = setRange g (aligned page base) sz (fun o => MapMem id o ro) /\ (forall x, ~ aligned page base <= x < aligned page base + sz -> g x = mem s x)).
    { assert (PU : forall h g x, ~ aligned page base <= x < aligned page base + sz -> punch h g (aligned page base) sz x = g x) by (intros [] g x X; cbn; auto; apply setRange_out; auto).
      destruct f1; [injection N as <- <- <-; exists false, (mem s); auto| |discriminate]. destruct f2; [|discriminate|discriminate]. injection N as <- <- <-. exists true, (punch hole (mem s) (aligned page base) sz). auto. }
    destruct G as (ro & g & -> & -> & G). clear N m. destruct F as (F0 & F1 & F2 & F3). cbn [b_base b_len] in *.
    destruct (C93_region page sz base) as (R1 & R2 & R3); auto; try lia.
    assert (OUT : forall c x, In c (blocks s) -> b_base c <= x < b_base c + b_len c -> ~ aligned page base <= x < aligned page base + sz).
    { intros c x I X. destruct (F3 c I) as [D|D]; cbn in D; lia. }
    constructor; cbn.
    + split; auto. apply Forall_forall. intros c I. apply F3 in I. exact I.
    + constructor; [|apply Forall_forall; auto]. unfold okB. cbn. split; [auto|]. split; auto. lia.
    + constructor; [unfold shows; cbn; intros x X; rewrite setRange_in by auto; auto|]. apply (shows_other s); auto. intros c x I X. pose proof (OUT c x I X). rewrite setRange_out by auto. auto.
    + intros HF x. destruct (Z_le_gt_dec (aligned page base) x), (Z_lt_ge_dec x (aligned page base + sz)); try (left; eexists; do 4 eexists; split; [left; reflexivity|cbn; auto]; fail).
      * assert (E : setRange g (aligned page base) sz (fun o => MapMem id o ro) x = mem s x) by (rewrite setRange_out by lia; apply G; lia). rewrite E. destruct (AN HF x) as [(c & a & sz' & id' & ro' & I & X)|X]; auto. left. exists c, a, sz', id', ro'. cbn. auto.
      * assert (E : setRange g (aligned page base) sz (fun o => MapMem id o ro) x = mem s x) by (rewrite setRange_out by lia; apply G; lia). rewrite E. destruct (AN HF x) as [(c & a & sz' & id' & ro' & I & X)|X]; auto. left. exists c, a, sz', id', ro'. cbn. auto.
      * assert (E : setRange g (aligned page base) sz (fun o => MapMem id o ro) x = mem s x) by (rewrite setRange_out by lia; apply G; lia). rewrite E. destruct (AN HF x) as [(c & a & sz' & id' & ro' & I & X)|X]; auto. left. exists c, a, sz', id', ro'. cbn. auto.
  - (* NewFails *) destruct F as (F0 & F1 & F2 & F3). cbn [b_base b_len] in *.
    assert (G : (forall x, ~ base <= x < base + allocSize page sz -> f x = mem s x) /\ (h = false -> f = mem s)).
    { unfold newUnsafeMemory in N. destruct (Z.eqb_spec (sz mod page) 0) as [SM|]; [|injection N as <-; auto]. destruct (Z.eqb_spec sz 0) as [|SN]; [injection N as <-; auto|]. cbn [negb orb] in N.
      destruct (C93_region page sz base) as (R1 & R2 & R3); auto; try lia.
      assert (PU : forall h g x, ~ base <= x < base + allocSize page sz -> punch h g (aligned page base) sz x = g x) by (intros [] g x X; cbn; auto; apply setRange_out; lia).
      destruct f1 as [|h1|h1]; [discriminate| |].
      - destruct f2 as [|h2|h2]; [discriminate| |]; injection N as <-; (split; [intros x X; rewrite !PU by auto; auto|]); intros ->; specialize (NH eq_refl); destruct h1, h2; try easy.
      - injection N as <-. split; [intros x X; apply PU; auto|]. intros ->. specialize (NH eq_refl). destruct h1; easy. }
    destruct G as (G1 & G2). constructor; cbn.
    + split; auto. apply Forall_forall. intros c I. apply F3 in I. exact I.
    + constructor; [|apply Forall_forall; auto]. unfold okB. cbn. auto.
    + constructor; [exact Logic.I|]. apply (shows_other s); auto. intros c x I X. apply G1. destruct (F3 c I) as [D|D]; cbn in D; lia.
    + intros HF x. rewrite G2 by (destruct h; auto; rewrite HH in HF by auto; discriminate). destruct (AN HF x) as [(c & a & sz' & id' & ro' & I & X)|X]; auto. left. exists c, a, sz', id', ro'. cbn. auto.
  - (* Drop *) rewrite B in *. destruct (separate_mid l b r SEP) as (S1 & S2 & S3). assert (OB : okB b /\ shows s b) by (apply OS; apply in_app_iff; cbn; auto).
    constructor; cbn.
    + apply S3; auto.
    + apply Forall_forall. intros c I. apply in_app_iff in I. destruct I as [I|[<- | I]]; [apply OK; apply in_app_iff; auto|exact (proj1 OB)|apply OK; apply in_app_iff; cbn; auto].
    + apply Forall_forall. intros c I. apply in_app_iff in I. destruct I as [I|[<- | I]]; [apply SH; apply in_app_iff; auto|exact (proj2 OB)|apply SH; apply in_app_iff; cbn; auto].
    + intros HF x. destruct (AN HF x) as [X|X]; auto. left. assert (X' : mapped (St (mem s) (l ++ b :: r)) x) by (destruct X as (c & X); exists c; rewrite B in X; auto). destruct (mapped_app _ _ _ _ (mem s) (unref b) x X') as [Y|(a & sz & id & ro & F1 & F2 & F3)]; auto.
      exists (unref b), a, sz, id, ro. cbn. rewrite in_app_iff. cbn. auto.
  - (* Finalize *) rewrite B in *. destruct (separate_mid l b r SEP) as (S1 & S2 & S3). assert (OB : okB b /\ shows s b) by (apply OS; apply in_app_iff; cbn; auto). destruct OB as (OB1 & OB2). unfold okB in OB1. rewrite M in OB1. destruct OB1 as (L & _ & L1 & L2 & L3).
    assert (OUT : forall c x, In c (l ++ r) -> b_base c <= x < b_base c + b_len c -> ~ a <= x < a + sz) by (intros c x I X; destruct (S2 c I) as [D|D]; lia).
    assert (SO : forall c, In c (l ++ r) -> shows (St (setRange (mem s) a sz (fun _ => Anon)) (l ++ unfin b :: r)) c).
    { intros c I. assert (I' : In c (l ++ b :: r)) by (apply in_app_iff in I; apply in_app_iff; cbn; tauto). destruct (OS c I') as (O1 & O2). unfold shows, okB in *. destruct (b_map c) as [(((a' & sz') & id') & ro')|]; auto. cbn. intros x X. rewrite setRange_out; [auto|]. apply (OUT c); auto. lia. }
    constructor; cbn.
    + apply S3; auto.
    + apply Forall_forall. intros c I. apply in_app_iff in I. destruct I as [I|[<- | I]]; [apply OK; apply in_app_iff; auto|split; [auto|reflexivity]|apply OK; apply in_app_iff; cbn; auto]. 
    + apply Forall_forall. intros c I. apply in_app_iff in I. destruct I as [I|[<- | I]]; [apply SO; apply in_app_iff; auto|exact Logic.I|apply SO; apply in_app_iff; cbn; auto].
    + intros HF x. destruct (Z_le_gt_dec a x), (Z_lt_ge_dec x (a + sz)); try (right; apply (setRange_in (mem s) a sz); lia).
      * rewrite setRange_out by lia. destruct (AN HF x) as [X|X]; auto. left. assert (X' : mapped (St (mem s) (l ++ b :: r)) x) by (destruct X as (c & X); exists c; rewrite B in X; auto). destruct (mapped_app _ _ _ _ (setRange (mem s) a sz (fun _ => Anon)) (unfin b) x X') as [Y|(a' & sz' & id' & ro' & F1 & F2 & F3)]; auto. rewrite M in F2. injection F2 as <- <- <- <-. lia.
      * rewrite setRange_out by lia. destruct (AN HF x) as [X|X]; auto. left. assert (X' : mapped (St (mem s) (l ++ b :: r)) x) by (destruct X as (c & X); exists c; rewrite B in X; auto). destruct (mapped_app _ _ _ _ (setRange (mem s) a sz (fun _ => Anon)) (unfin b) x X') as [Y|(a' & sz' & id' & ro' & F1 & F2 & F3)]; auto. rewrite M in F2. injection F2 as <- <- <- <-. lia.
  - (* Free *) rewrite B in *. destruct (separate_mid l b r SEP) as (S1 & S2 & S3).
    assert (IN : forall c, In c (l ++ r) -> In c (l ++ b :: r)) by (intros c I; apply in_app_iff in I; apply in_app_iff; cbn; tauto).
    constructor; cbn; auto.
    + apply Forall_forall. intros c I. exact (OK c (IN c I)).
    + apply Forall_forall. intros c I. exact (SH c (IN c I)).
    + intros HF x. destruct (AN HF x) as [(c & a & sz & id & ro & I & F1 & X)|X]; auto. left. exists c, a, sz, id, ro. split; [|auto]. cbn. rewrite B in I. apply in_app_iff in I. apply in_app_iff. destruct I as [I|[<- | I]]; auto. congruence.
Qed.
Lemma runs_inv page holes s s' : 0 < page -> initial s -> runs page holes s s' -> inv holes s'.
Proof.
  intros P (I1 & I2) R. induction R as [s|s s1 h s2 R IH ST HH]; [|eapply step_inv; eauto].
  constructor; rewrite ?I2; cbn; auto. 
Qed.
(** As long as somebody has a pointer to it, the memory is that of the map, whatever mmap does elsewhere. *)
Theorem C93_backed : forall page holes s s' b a sz id ro, 0 < page -> initial s -> runs page holes s s' -> In b (blocks s') -> b_map b = Some (a, sz, id, ro) ->
  (forall x, a <= x < a + sz -> mem s' x = MapMem id (x - a) ro) /\ b_base b <= a /\ a + sz <= b_base b + b_len b.
Proof.
  intros page holes s s' b a sz id ro P I R J M. destruct (runs_inv _ _ _ _ P I R) as [SEP OK SH AN]. rewrite Forall_forall in OK, SH. specialize (OK b J). specialize (SH b J). unfold okB, shows in *. rewrite M in *. split; auto. lia.
Qed.
Theorem C93_kept : forall page h s s' b, step page h s s' -> In b (blocks s) -> b_ref b = true -> In b (blocks s') \/ In (unref b) (blocks s').
Proof.
  intros page h s s' b ST I R. destruct ST as [s b0 F M FN|s id sz base f1 f2 m b0 f S0 F N|h s id sz base f1 f2 f S0 F N NH|s l b0 r B|s l b0 r a sz id ro B RF FN M|s l b0 r B RF FN]; cbn; auto;
  rewrite B in I; apply in_app_iff in I; rewrite !in_app_iff; cbn; destruct I as [I|[<- | I]]; auto; congruence.
Qed.
(** Memory the runtime hands out again is ordinary memory: not that of a map, and not read-only. *)
Theorem C93_heap : forall page s s', 0 < page -> initial s -> runs page false s s' ->
  (forall b x, fits s' b -> b_base b <= x < b_base b + b_len b -> mem s' x = Anon) /\
  (forall b x, In b (blocks s') -> b_map b = None -> b_base b <= x < b_base b + b_len b -> mem s' x = Anon).
Proof.
  intros page s s' P I R. destruct (runs_inv _ _ _ _ P I R) as [SEP OK SH AN]. rewrite Forall_forall in OK. specialize (AN eq_refl). split.
  - intros b x (_ & _ & _ & D) X. destruct (AN x) as [(c & a & sz & id & ro & J & F & M & Y)|]; auto. specialize (OK c J). unfold okB in OK. rewrite M in OK. destruct (D c J) as [Q|Q]; lia.
  - intros b x J M X. destruct (AN x) as [(c & a & sz & id & ro & K & F & MC & Y)|]; auto. pose proof (OK c K) as OC. unfold okB in OC. rewrite MC in OC. apply in_split in J. destruct J as (l & r & E). rewrite E in *. destruct (separate_mid l b r SEP) as (_ & D & _).
    apply in_app_iff in K. destruct K as [K|[<- | K]]; [|congruence|]; (destruct (D c) as [Q|Q]; [apply in_app_iff; auto|lia|lia]).
Qed.
(** ... unless a failing mmap has unmapped a part of the heap: nobody repairs it. *)
Lemma fits_small s base len b : blocks s = [] -> b_base b = base -> b_len b = len -> 0 <= base < 2 ^ 32 -> 0 < len < 2 ^ 32 -> fits s b.
Proof. intros E <- <- B L. unfold fits. rewrite E. split; [lia|]. split; [lia|]. split; [change (2 ^ 64) with (2 ^ 32 * 2 ^ 32); lia|easy]. Qed.
Theorem C93_hole_refuted : exists page s s' b x, initial s /\ runs page true s s' /\ fits s' b /\ b_base b <= x < b_base b + b_len b /\ mem s' x = Hole.
Proof.
  set (s0 := St (fun _ => Anon) []). set (f := punch true (mem s0) (aligned 4096 8192) 4096).
  assert (S1 : step 4096 true s0 (St f (Block 8192 (allocSize 4096 4096) None false false :: blocks s0))).
  { apply (NewFails 4096 true s0 1 4096 8192 (Failed true) Mapped f); [lia| |reflexivity|discriminate]. apply (fits_small _ 8192 (allocSize 4096 4096)); [reflexivity|reflexivity|reflexivity|lia|vm_compute; auto]. }
  assert (S2 : step 4096 false (St f (Block 8192 (allocSize 4096 4096) None false false :: blocks s0)) (St f ([] ++ blocks s0))) by (exact (Free 4096 (St f (Block 8192 (allocSize 4096 4096) None false false :: blocks s0)) [] _ (blocks s0) eq_refl eq_refl eq_refl)).
  exists 4096, s0, (St f ([] ++ blocks s0)), (Block 8192 8 None true false), 8192. split; [split; auto|]. split; [|split; [|split]].
  - eapply RunStep; [eapply RunStep; [apply RunNil|exact S1|auto]|exact S2|discriminate].
  - apply (fits_small _ 8192 8); [reflexivity|reflexivity|reflexivity|lia|lia].
  - cbn. lia.
  - reflexivity.
Qed.
(** Example: a struct with an atomic counter in a variable of a map; the memory goes back to the heap *)
Definition exT := Struct [HostLayout; Basic 4; Basic 2; Arr 2 (Basic 1); Atomic 8].
Lemma exT_wf : wfType exT.
Proof.
  intros u Wi. unfold exT in Wi. inversion Wi as [| |? t ? I W']; subst; auto. cbn in I.
  destruct I as [<- | [<- | [<- | [<- | [<- | []]]]]]; inversion W' as [|? ? ? W2|]; subst; cbn; auto. inversion W2; subst; cbn; auto.
Qed.
Theorem C93_example : wfType exT /\ shareable exT /\ size 4 exT = 16 /\ align 4 exT = 8 /\
  exists m b f s', newUnsafeMemory 4096 7 8192 10000 Mapped Mapped (fun _ => Anon) = (Some (m, b), f) /\ fitsMemory m /\ (exists v, newVariable 32 16 (Some m) = Some v /\ VariablePointer 4 exT v = Ptr 12320) /\
    f 12320 = MapMem 7 32 false /\ runs 4096 false (St (fun _ => Anon) []) s' /\ blocks s' = [] /\ mem s' 12320 = Anon.
Proof.
  assert (SH : shareable exT) by (apply C93_types; reflexivity).
  split; [exact exT_wf|]. split; auto. split; [reflexivity|]. split; [reflexivity|].
  set (s0 := St (fun _ => Anon) []). set (b := Block 10000 12288 (Some (12288, 8192, 7, false)) true true). set (f := setRange (mem s0) 12288 8192 (fun o => MapMem 7 o false)).
  set (m := Mem 12288 8192 false false true). set (g := setRange f 12288 8192 (fun _ => Anon)).
  assert (N : newUnsafeMemory 4096 7 8192 10000 Mapped Mapped (fun _ => Anon) = (Some (m, b), f)) by reflexivity.
  assert (S1 : step 4096 false s0 (St f (b :: blocks s0))).
  { apply (New 4096 s0 7 8192 10000 Mapped Mapped m b f); [lia| |exact N]. apply (fits_small _ 10000 (allocSize 4096 8192)); [reflexivity|reflexivity|reflexivity|lia|vm_compute; auto]. }
  assert (S2 : step 4096 false (St f (b :: blocks s0)) (St f ([] ++ unref b :: []))) by (exact (Drop 4096 (St f (b :: blocks s0)) [] b [] eq_refl)).
  assert (S3 : step 4096 false (St f ([] ++ unref b :: [])) (St g ([] ++ unfin (unref b) :: []))) by (exact (Finalize 4096 (St f ([] ++ unref b :: [])) [] (unref b) [] 12288 8192 7 false eq_refl eq_refl eq_refl eq_refl)).
  assert (S4 : step 4096 false (St g ([] ++ unfin (unref b) :: [])) (St g [])) by (exact (Free 4096 (St g ([] ++ unfin (unref b) :: [])) [] (unfin (unref b)) [] eq_refl eq_refl eq_refl)).
  exists m, b, f, (St g []). split; [exact N|]. split; [split; [cbn; lia|split; reflexivity]|]. split; [exists (Var 32 16 (Some m)); split; reflexivity|]. split; [reflexivity|]. split.
  - eapply RunStep; [eapply RunStep; [eapply RunStep; [eapply RunStep; [apply RunNil|exact S1|discriminate]|exact S2|discriminate]|exact S3|discriminate]|exact S4|discriminate].
  - split; reflexivity.
Qed.
Print Assumptions C93_types.
Print Assumptions C93_pointer.
Print Assumptions C93_region.
Print Assumptions C93_backed.
Print Assumptions C93_kept.
Print Assumptions C93_heap.
Print Assumptions C93_hole_refuted.
Print Assumptions C93_uintptr_refuted.
Print Assumptions C93_example.
