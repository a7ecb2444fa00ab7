(** The declarations of GoFormatter have the layout of the C type. *)
From Coq Require Import ZArith List Lia Bool.
From Verif.Base Require Import GoInt ListExtra.
From Verif.Btf Require Import Types TypesSpec TypesProof PropsTypes Format FormatSpec.
Import ListNotations.
Open Scope Z_scope.

Lemma has_size_fun h r d z : has_size h r d z -> forall d' z', has_size h r d' z' -> z = z'.
Proof.
  intros H. induction H; intros d' z' H'; inversion H'; subst; try congruence;
    match goal with
    | H1 : deref h ?r = Some _, H2 : deref h ?r = Some _ |- _ => rewrite H1 in H2; first [discriminate H2 | injection H2; intros; subst; clear H2]
    | _ => idtac
    end; try reflexivity; try discriminate; try (f_equal; eauto; fail); eauto.
Qed.

Lemma array_size h r i e k d z : deref h r = Some (NArray i e k) -> has_size h r d z -> exists d' z', has_size h e d' z' /\ z = k * z'.
Proof. intros D H. destruct H; try discriminate D; rewrite H in D; try discriminate D. injection D as <- <- <-. eauto. Qed.
Lemma typedef_size h r s t tags d z : deref h r = Some (NTypedef s t tags) -> has_size h r d z -> exists d', has_size h t d' z.
Proof. intros D H. destruct H; try discriminate D; rewrite H in D; try discriminate D. injection D as <- <- <-. eauto. Qed.
Lemma var_size h r s t l tags d z : deref h r = Some (NVar s t l tags) -> has_size h r d z -> False.
Proof. intros D H. destruct H; try discriminate D; rewrite H in D; discriminate D. Qed.

Section Proof.
  Variable pf : platform.
  Definition psum (fs : list gofield) : Z := fold_right (fun f z => psize pf (snd f) + z) 0 fs.
  Lemma psum_app a b : psum (a ++ b) = psum a + psum b.
  Proof.  induction a as [|f a IH]; cbn [app psum fold_right]; [reflexivity|]. fold (psum (a ++ b)) (psum a). lia. Qed.
  Lemma poffsets_app a : forall off b, poffsets pf off (a ++ b) = poffsets pf off a ++ poffsets pf (off + psum a) b.
  Proof.
    induction a as [|(s, t) a IH]; intros off b; cbn [app poffsets psum fold_right]; [now rewrite Z.add_0_r|]. rewrite IH, app_assoc. cbn [snd]. fold (psum a). now rewrite Z.add_assoc.
  Qed.
  Lemma padding_ok x : 0 <= x < 2 ^ 32 -> psum (padding (u32 x)) = x /\ forall off, poffsets pf off (padding (u32 x)) = [].
  Proof. intros R.  unfold u32, wrapu. rewrite Z.mod_small by exact R. unfold padding. destruct (Z.gtb_spec x 0); cbn; split; try reflexivity; lia. Qed.
  Variable h : heap.
  Variable names : ref -> option str.
  Variable ident : str -> str.
  Variable offsets : list gofield -> list (str * Z * gotype).
  Variable size : gotype -> Z.
  Variable Q : gotype -> Prop.
  Hypothesis Qarray : forall n g, Q (GArray n g) -> Q g.
  Hypothesis Qstruct : forall fs, Q (GStruct fs) -> Forall (fun f => Q (snd f)) fs /\ offsets fs = poffsets pf 0 fs /\ size (GStruct fs) = psize pf (GStruct fs).
  Hypothesis Hh : c_heap h.
  Hypothesis Hnames : forall t s d z, names t = Some s -> has_size h t d z -> named_size pf s = z.

  Notation shows := (shows offsets size h names ident).
  Definition Qall (fs : list gofield) : Prop := Forall (fun f => Q (snd f)) fs.
  Lemma skip_ok f : forall t u, skip_loop h f t = Some u -> (forall g, shows u g -> shows t g) /\ (forall d z, has_size h t d z -> exists d', has_size h u d' z) /\ qualify h u = None.
  Proof.
    induction f as [|f IH]; intros t u E; [discriminate E|]. cbn [skip_loop] in E. destruct (qualify h t) as [v|] eqn:Ev; [|injection E as <-; eauto 6].
    destruct (IH v u E) as (S & Z & K). split; [|split; [|exact K]].
    - intros g G. eapply shows_qualified; eauto.
    - intros d z Hz. apply Z with (d := pred d). unfold qualify in Ev. destruct Hz; try (rewrite ?H in Ev; discriminate Ev); rewrite H in Ev; injection Ev as <-; exact Hz.
  Qed.
  Lemma fits_prev : forall ms prev sz, fits h prev ms sz -> prev <= sz.
  Proof.
    induction ms as [|m ms IH]; intros prev sz F; cbn [fits] in F; [exact F|]. destruct (m_bits m >? 0); [auto|]. destruct F as (d & z & Hz & L & F). apply IH in F. pose proof (has_size_range _ _ _ _ (proj1 Hh) Hz). lia.
  Qed.
  Lemma fits_vars_prev : forall vs prev sz, fits_vars h prev vs sz -> prev <= sz.
  Proof.
    induction vs as [|m ms IH]; intros prev sz F; cbn [fits_vars] in F; [exact F|].
    destruct (deref h (vs_type m)) as [n|]; [|auto]. destruct n; try (apply IH; exact F). destruct linkage as [|[p|p|]|p]; try (apply IH; exact F). destruct F as ((d & Hz) & L & F). apply IH in F. pose proof (has_size_range _ _ _ _ (proj1 Hh) Hz). lia.
  Qed.

  Definition lit_ok (lit : ref -> res ferr gotype) : Prop := forall t g, lit t = Ok g -> (Q g -> shows t g) /\ forall d z, has_size h t d z -> psize pf g = z.
  Definition field_ok (field : member -> res ferr (list gofield)) : Prop := forall m fs, field m = Ok fs ->
    (exists name off t g pads, fs = (Some (ident name), g) :: pads /\ poffsets pf (m_offset m / 8 + psize pf g) pads = [] /\ visible h m name off t /\ off = m_offset m / 8 /\ (Q g -> shows t g)) /\
    forall d z, has_size h (m_type m) d z -> psum fs = z.
  Lemma writeType_ok lit : lit_ok lit -> lit_ok (writeType h names lit).
  Proof.
    intros L t g E. unfold writeType in E. destruct (skipQualifiers h t) as [u|] eqn:Eu; [|discriminate E]. destruct (skip_ok _ _ _ Eu) as (S & Zs & _).
    destruct (names u) as [s|] eqn:En.
    - injection E as <-. split; [intros _; apply S; now apply shows_named|]. intros d z Hz. destruct (Zs d z Hz) as (d' & Hz'). cbn [psize]. eapply Hnames; eauto.
    - destruct (L u g E) as (G & Zg). split; [auto|]. intros d z Hz. destruct (Zs d z Hz) as (d' & Hz'). eauto.
  Qed.
  Lemma members_ok field sz : field_ok field -> sz < 2 ^ 32 -> forall ms prev fs, 0 <= prev -> fits h prev ms sz -> writeMembers h field sz prev ms = Ok fs ->
    psum fs = sz - prev /\ (Qall fs -> Forall2 (fun m f => exists name off t g, visible h m name off t /\ shows t g /\ f = (ident name, off, g)) (filter not_bitfield ms) (poffsets pf prev fs)).
  Proof.
    intros Ff Hsz. induction ms as [|m ms IH]; intros prev fs P0 F E; cbn [writeMembers fits filter] in *.
    - injection E as <-. destruct (padding_ok (sz - prev)) as (Ps & Po); [lia|]. split; [exact Ps|]. intros _. rewrite Po. constructor.
    - unfold not_bitfield at 1. destruct (m_bits m >? 0) eqn:B; cbn [negb]; [apply (IH prev fs P0 F E)|].
      destruct F as (d & z & Hz & Lp & F). pose proof (has_size_range _ _ _ _ (proj1 Hh) Hz) as Z0. pose proof (fits_prev _ _ _ F) as Le.
      destruct (Sizeof h (m_type m)) as [fz|e] eqn:Es; [|discriminate E]. destruct (C37_exact h (m_type m) fz (proj1 Hh) Es) as (d' & _ & Hz' & _). assert (fz = z) by (eapply has_size_fun; eauto). subst fz.
      cbv zeta in E. replace (u32 (m_offset m / 8 + u32 z)) with (m_offset m / 8 + z) in E by (unfold u32, wrapu; rewrite (Z.mod_small z) by lia; rewrite Z.mod_small by lia; reflexivity).
      destruct (m_offset m / 8 + z >? sz); [discriminate E|]. destruct (field m) as [f|e] eqn:Efm; [|discriminate E]. destruct (writeMembers h field sz _ ms) as [fs'|e] eqn:Ew; [|discriminate E]. injection E as <-.
      destruct (IH (m_offset m / 8 + z) fs') as (Ps' & G'); [lia|exact F|exact Ew|]. destruct (Ff m f Efm) as ((name & off & t & g & pads & -> & Pp & V & -> & G) & Zf). specialize (Zf d z Hz).
      destruct (padding_ok (m_offset m / 8 - prev)) as (Pd & Po); [lia|]. split.
      + rewrite !psum_app, Pd, Zf, Ps'. lia.
      + intros Qf. apply Forall_app in Qf as (_ & Qf). apply Forall_app in Qf as (Qf & Qfs). pose proof (Forall_inv Qf) as Qg. cbn [snd] in Qg.
        rewrite poffsets_app, Po, Pd. cbn [app]. replace (prev + (m_offset m / 8 - prev)) with (m_offset m / 8) by lia. 
        change (((Some (ident name), g) :: pads ++ fs')) with (((Some (ident name), g) :: pads) ++ fs'). rewrite poffsets_app, Zf. cbn [poffsets app]. rewrite Pp. cbn [app]. constructor; [|exact (G' Qfs)]. exists name, (m_offset m / 8), t, g. auto.
  Qed.
  Lemma vars_ok lit sz : lit_ok lit -> sz < 2 ^ 32 -> forall vs prev fs, 0 <= prev -> fits_vars h prev vs sz -> writeVars h names ident lit sz prev vs = Ok fs ->
    psum fs = sz - prev /\ (Qall fs -> Forall2 (fun v f => exists name t tags g, deref h (vs_type v) = Some (NVar name t 1 tags) /\ shows t g /\ f = (ident name, vs_offset v, g)) (filter (is_global h) vs) (poffsets pf prev fs)).
  Proof.
    intros Ll Hsz. induction vs as [|v vs IH]; intros prev fs P0 F E; cbn [writeVars fits_vars filter] in *.
    - injection E as <-. destruct (padding_ok (sz - prev)) as (Ps & Po); [lia|]. split; [exact Ps|]. intros _. rewrite Po. constructor.
    - unfold is_global at 1. destruct (deref h (vs_type v)) as [n|] eqn:Dv; [|discriminate E]. destruct n; try discriminate E.
      destruct (Z.eqb_spec linkage 1) as [->|Nl]; cbn [negb] in E.
      + destruct F as ((d & Hz) & Lp & F). pose proof (has_size_range _ _ _ _ (proj1 Hh) Hz) as Z0. pose proof (fits_vars_prev _ _ _ F) as Le.
        destruct name as [|c name]; [discriminate E|]. destruct (writeType h names lit t) as [g|e] eqn:Et; [|discriminate E]. destruct (writeType_ok lit Ll t g Et) as (G & Zg). specialize (Zg d _ Hz).
        replace (u32 (vs_offset v + vs_size v)) with (vs_offset v + vs_size v) in E by (unfold u32, wrapu; rewrite Z.mod_small by lia; reflexivity).
        destruct (writeVars h names ident lit sz _ vs) as [fs'|e] eqn:Ew; [|discriminate E]. injection E as <-.
        destruct (IH (vs_offset v + vs_size v) fs') as (Ps' & G'); [lia|exact F|exact Ew|]. destruct (padding_ok (vs_offset v - prev)) as (Pd & Po); [lia|]. split.
        * rewrite psum_app, Pd. cbn [psum fold_right snd]. fold (psum fs'). rewrite Ps', Zg. lia.
        * intros Qf. apply Forall_app in Qf as (_ & Qf). pose proof (Forall_inv Qf) as Qg. pose proof (Forall_inv_tail Qf) as Qfs. cbn [snd] in Qg.
          rewrite poffsets_app, Po, Pd. cbn [app poffsets]. replace (prev + (vs_offset v - prev)) with (vs_offset v) by lia. rewrite Zg. constructor; [|exact (G' Qfs)]. exists (c :: name), t, tags, g. auto.
      + assert (F' : fits_vars h prev vs sz) by (destruct linkage as [|[p|p|]|p]; try exact F; congruence).
        destruct (IH prev fs P0 F' E) as (Ps & G). split; [exact Ps|]. destruct linkage as [|[p|p|]|p]; try exact G. congruence.
  Qed.
  Lemma field_from_lit lit deeper : lit_ok lit -> (forall f, deeper = Some f -> field_ok f) -> field_ok (writeStructField h names ident lit deeper).
  Proof.
    intros Ll Ld m fs E. unfold writeStructField in E. destruct (Z.gtb_spec (m_bits m) 0) as [|B]; [discriminate E|]. destruct (Z.eqb_spec (m_offset m mod 8) 0) as [O8|]; cbn [negb] in E; [|discriminate E].
    destruct (m_name m) as [|c name] eqn:Em.
    - destruct (deref h (m_type m)) as [n|] eqn:Dm; [|discriminate E]. destruct n as [| | | |uname size0 ms utags| | | | | | | | | | | | | |]; try discriminate E. destruct ms as [|u ums]; [discriminate E|]. destruct deeper as [field|]; [|discriminate E].
      destruct (Sizeof h (m_type u)) as [uz|e] eqn:Es; [|discriminate E]. destruct (field u) as [f|e] eqn:Eu; [|discriminate E]. injection E as <-.
      destruct (C37_exact h (m_type u) uz (proj1 Hh) Es) as (d & _ & Hz & _). destruct (Ld field eq_refl u f Eu) as ((name & off & t & g & pads & -> & Pp & V & -> & G) & Zf). specialize (Zf d uz Hz).
      assert (Dm' := Dm). destruct (m_type m) as [| |a] eqn:Et; try discriminate Dm'. cbn [deref] in Dm'. pose proof (proj2 Hh a _ Dm') as W. cbn [laid_out] in W. destruct W as (U0 & W). cbn [fits] in W.
      assert (Usz : 0 <= size0 < 2 ^ 32). { pose proof (proj1 Hh) as U. unfold heap_u32 in U. rewrite Forall_forall in U. exact (U _ (nth_error_In _ _ Dm')). }
      assert (Bu : m_bits u <= 0) by (inversion V; assumption). destruct (Z.gtb_spec (m_bits u) 0); [lia|].
      destruct W as (d' & z' & Hz' & _ & Le). assert (z' = uz) by (eapply has_size_fun; eauto). subst z'. rewrite U0 in Le, V, Pp. change (0 / 8) with 0 in *. pose proof (has_size_range _ _ _ _ (proj1 Hh) Hz) as Z0.
      replace (u32 (size0 - u32 uz)) with (u32 (size0 - uz)) by (unfold u32, wrapu; rewrite (Z.mod_small uz) by lia; reflexivity). destruct (padding_ok (size0 - uz)) as (Pd & Po); [lia|].
      assert (Pshift : forall l x y, poffsets pf x l = [] -> poffsets pf y l = []). { clear. induction l as [|([s|], t) l IH]; intros x y E; cbn [poffsets app] in *; [reflexivity|discriminate E|eauto]. }
      split.
      + exists name, (m_offset m / 8 + 0), t, g, (pads ++ padding (u32 (size0 - uz))). split; [reflexivity|]. split; [rewrite poffsets_app, Po, app_nil_r; eapply Pshift; exact Pp|]. split; [|split; [lia|exact G]]. eapply visible_union; eauto. rewrite Et. exact Dm.
      + intros d0 z Hz0. change (psum (((Some (ident name), g) :: pads) ++ padding (u32 (size0 - uz))) = z). rewrite psum_app, Zf, Pd. assert (Hs : has_size h (RPtr a) 1 size0) by (eapply hs_union; exact Dm). rewrite (has_size_fun _ _ _ _ Hs _ _ Hz0). lia.
    - destruct (writeType h names lit (m_type m)) as [g|e] eqn:Et; [|discriminate E]. injection E as <-. destruct (writeType_ok lit Ll _ _ Et) as (G & Zg). split.
      + exists (m_name m), (m_offset m / 8), (m_type m), g, []. rewrite Em. split; [reflexivity|]. split; [reflexivity|]. split; [|auto]. rewrite <- Em. apply visible_member; auto. congruence.
      + intros d z Hz. cbn [psum fold_right snd]. rewrite (Zg d z Hz). lia.
  Qed.
  Lemma struct_ok field sz ms r g : field_ok field -> 0 <= sz < 2 ^ 32 -> fits h 0 ms sz -> writeStructLit h field sz ms = Ok g ->
    (forall fs, size (GStruct fs) = sz -> Forall2 (fun m f => exists name off t g, visible h m name off t /\ shows t g /\ f = (ident name, off, g)) (filter not_bitfield ms) (offsets fs) -> shows r (GStruct fs)) ->
    (Q g -> shows r g) /\ psize pf g = sz.
  Proof.
    intros Ff Rs F E C. unfold writeStructLit in E. destruct (writeMembers h field sz 0 ms) as [fs|] eqn:Ew; [|discriminate E]. injection E as <-.
    destruct (members_ok field sz Ff (proj2 Rs) ms 0 fs (Z.le_refl 0) F Ew) as (Ps & G). split; [|cbn [psize]; fold (psum fs); lia].
    intros Qg. destruct (Qstruct fs Qg) as (Qf & Eo & Ez). apply C; [rewrite Ez; cbn [psize]; fold (psum fs); lia|]. rewrite Eo. exact (G Qf).
  Qed.
  Lemma lit_next lit field : lit_ok lit -> field_ok field -> lit_ok (writeLit h names ident lit field).
  Proof.
    intros Ll Lf t g E. unfold writeLit in E. destruct (skipQualifiers h t) as [u|] eqn:Eu; [|discriminate E]. destruct (skip_ok _ _ _ Eu) as (S & Zs & Kq).
    enough (H : (Q g -> shows u g) /\ forall d z, has_size h u d z -> psize pf g = z). { destruct H as (G & Zg). split; [auto|]. intros d z Hz. destruct (Zs d z Hz) as (d' & Hz'). eauto. }
    clear t Eu S Zs. destruct (deref h u) as [n|] eqn:Du; [|discriminate E].
    assert (Nu : node_u32 n /\ laid_out h n). { destruct u as [| |a]; try discriminate Du. cbn [deref] in Du. split; [|exact (proj2 Hh a n Du)]. pose proof (proj1 Hh) as U. unfold heap_u32 in U. rewrite Forall_forall in U. exact (U _ (nth_error_In _ _ Du)). }
    destruct Nu as (Un & Wn). destruct n; try discriminate E; cbn [node_u32 laid_out] in Un, Wn.
    - (* int *) unfold writeIntLit in E. assert (Hs : has_size h u 1 size0) by (eapply hs_int; exact Du).
      enough (K : (Q g -> shows u g) /\ psize pf g = size0). { destruct K as (G & Zg). split; [exact G|]. intros d z Hz. rewrite Zg. eapply has_size_fun; eauto. }
      destruct (Z.eqb_spec enc 4) as [->|N4].
      + destruct (Z.eqb_spec size0 1) as [->|]; cbn [negb] in E; [|discriminate E]. injection E as <-. split; [intros _; eapply shows_bool; exact Du|reflexivity].
      + destruct (Z.eqb_spec enc 2) as [->|N2].
        * destruct (Z.eqb_spec size0 1) as [->|]; cbn [negb] in E; [|discriminate E]. cbn in E. injection E as <-. split; [intros _; eapply shows_uint; eauto; lia|reflexivity].
        * destruct (Z.eqb_spec enc 0) as [->|N0]; [|destruct (Z.eqb_spec enc 1) as [->|N1]; [|discriminate E]]; cbn [orb] in E; injection E as <-; destruct (Z.gtb_spec size0 8); cbn [Z.eqb]; (split; [intros _|reflexivity]).
          -- eapply shows_wide; eauto.
          -- eapply shows_uint; eauto; lia.
          -- eapply shows_wide; eauto.
          -- eapply shows_int; eauto; lia.
    - (* array *) destruct (writeType h names lit elem) as [ge|e] eqn:Ee; [|discriminate E]. injection E as <-. destruct (writeType_ok lit Ll _ _ Ee) as (G & Zg). split.
      + intros Qg. eapply shows_array; [exact Du|]. apply G. eapply Qarray. exact Qg.
      + intros d z Hz. destruct (array_size _ _ _ _ _ _ _ Du Hz) as (d' & z' & Hz' & ->). cbn [psize]. rewrite (Zg d' z' Hz'). reflexivity.
    - (* struct *) assert (Hs : has_size h u 1 size0) by (eapply hs_struct; exact Du). destruct (struct_ok field size0 ms u g Lf Un Wn E) as (G & Zg).
      { intros fs Hz F2. eapply shows_struct; eauto. } split; [exact G|]. intros d z Hz. rewrite Zg. eapply has_size_fun; eauto.
    - (* union *) destruct ms as [|m ms]; [discriminate E|]. assert (Hs : has_size h u 1 size0) by (eapply hs_union; exact Du). destruct (struct_ok field size0 [m] u g Lf Un (proj2 Wn) E) as (G & Zg).
      { intros fs Hz F2. eapply shows_union; eauto. } split; [exact G|]. intros d z Hz. rewrite Zg. eapply has_size_fun; eauto.
    - (* enum *) unfold writeEnumLit in E. assert (Hs : has_size h u 1 size0) by (eapply hs_enum; exact Du). destruct ((size0 =? 1) || (size0 =? 2) || (size0 =? 4) || (size0 =? 8)) eqn:Ez; [|discriminate E]. injection E as <-. split.
      + intros _. eapply shows_enum; [exact Du|]. rewrite !orb_true_iff, !Z.eqb_eq in Ez. cbn. lia.
      + intros d z Hz. rewrite (has_size_fun _ _ _ _ Hz _ _ Hs). destruct sgn; reflexivity.
    - (* typedef *) destruct (writeType_ok lit Ll _ _ E) as (G & Zg). split.
      + intros Qg. eapply shows_typedef; eauto.
      + intros d z Hz. destruct (typedef_size _ _ _ _ _ _ _ Du Hz) as (d' & Hz'). eauto.
    - (* var *) destruct (Ll _ _ E) as (G & Zg). split.
      + intros Qg. eapply shows_var; eauto.
      + intros d z Hz. destruct (var_size _ _ _ _ _ _ _ _ Du Hz).
    - (* datasec *) assert (Hs : has_size h u 1 size0) by (eapply hs_datasec; exact Du). destruct (writeVars h names ident lit size0 0 vars) as [fs|] eqn:Ew; [|discriminate E]. injection E as <-.
      destruct (vars_ok lit size0 Ll (proj2 Un) vars 0 fs (Z.le_refl 0) Wn Ew) as (Ps & G). assert (Pz : psize pf (GStruct fs) = size0) by (cbn [psize]; fold (psum fs); lia). split.
      + intros Qg. destruct (Qstruct fs Qg) as (Qf & Eo & Ez). eapply shows_datasec; [exact Du|congruence|]. rewrite Eo. exact (G Qf).
      + intros d z Hz. rewrite Pz. eapply has_size_fun; eauto.
  Qed.
  Theorem format_ok : forall n, lit_ok (fst (format h names ident n)) /\ field_ok (snd (format h names ident n)).
  Proof.
    induction n as [|n (IHl & IHf)]; cbn [format fst snd].
    - assert (L : lit_ok (fun _ => Err FTooDeep)) by (intros t g E; discriminate E). split; [exact L|]. apply field_from_lit; [exact L|discriminate].
    - assert (L := lit_next _ _ IHl IHf). split; [exact L|]. apply field_from_lit; [exact L|]. intros f E. injection E as <-. exact IHf.
  Qed.
  Theorem declaration_ok name r g consts : TypeDeclaration h names ident name r = Ok (g, consts) -> Q g -> shows r g.
  Proof.
    intros E Qg. unfold TypeDeclaration in E. destruct name; [discriminate E|]. destruct (skipQualifiers h r) as [u|] eqn:Eu; [|discriminate E]. destruct (skip_ok _ _ _ Eu) as (S & _ & _).
    destruct (fst (format h names ident maxResolveDepth) u) as [g'|] eqn:El; [|discriminate E]. injection E as <- _. apply S. exact (proj1 (proj1 (format_ok _) u g' El) Qg).
  Qed.
End Proof.
