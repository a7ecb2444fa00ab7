(** C78: a map definition in BTF. *)
From Coq Require Import String Sorting.Sorted Permutation.
From Verif Require Import Base.GoInt Asm.Model Asm.Spec Elf.Programs Elf.ProgramsSpec Elf.ProgramsProof Elf.ProgramsStep Elf.Data Elf.BtfMaps Elf.BtfMapsSpec Elf.BtfMapsProof Btf.Types Btf.TypesSpec.
Open Scope string_scope. Open Scope list_scope. Open Scope Z_scope.

(** ** The specification *)
Section Spec.
Variables (h : heap) (ms : list member).
Hypothesis U : usual_def h ms.
Lemma Fi : forall n m, F ms n = Some m <-> has ms n m.
Proof. intros n m. apply F_iff. apply (uf_names _ _ U). Qed.
Lemma number_fun : forall r v w, number h r v -> number h r w -> v = w.
Proof. intros r v w A B. apply uint_spec in A, B. congruence. Qed.
Lemma attribute_num : forall n, In n numbers -> (forall m, has ms n m -> exists v, number h (m_type m) v) -> attribute h ms n (numOf h (F ms n)).
Proof.
  intros n _ H. unfold attribute, numOf. destruct (F ms n) as [m|] eqn:E.
  - apply Fi in E. destruct (H m E) as (v & Hv). left. exists m. split; [exact E|]. pose proof (proj2 (uint_spec h (m_type m) v) Hv) as X. now rewrite X.
  - right. split; [now apply F_none|reflexivity].
Qed.
Lemma attribute_fun : forall n v w, attribute h ms n v -> attribute h ms n w -> v = w.
Proof.
  intros n v w [(m & Hm & A)|(N & ->)] [(m' & Hm' & B)|(N' & ->)]; try reflexivity; try (exfalso; eapply N; eassumption); try (exfalso; eapply N'; eassumption).
  assert (m = m') by (apply (has_fun ms n); auto; apply (uf_names _ _ U)). subst. eapply number_fun; eassumption.
Qed.
Lemma attribute_small : forall n v, In n numbers -> attribute h ms n v -> in_u 64 v /\ (n <> "map_extra" -> in_u 32 v).
Proof. intros n v I [(m & Hm & A)|(_ & ->)]; [eapply (uf_small _ _ U); eassumption|unfold in_u; lia]. Qed.
Lemma sized_fun : forall n t s t' s', sized h ms n t s -> sized h ms n t' s' -> t = t' /\ s = s'.
Proof.
  intros n t s t' s' [(m & r & Hm & Hd & -> & Hs)|(N & -> & A)] [(m' & r' & Hm' & Hd' & -> & Hs')|(N' & -> & A')]; try (exfalso; eapply N; eassumption); try (exfalso; eapply N'; eassumption).
  - assert (m = m') by (apply (has_fun ms n); auto; apply (uf_names _ _ U)). subst. rewrite Hd in Hd'. injection Hd' as <-. split; congruence.
  - split; [reflexivity|]. eapply attribute_fun; eassumption.
Qed.
Lemma sized_state : forall n, n = "key" \/ n = "value" -> (forall m, has ms n m -> isptr h m) -> (forall m, has ms (String.append n "_size") m -> exists v, number h (m_type m) v) ->
  sized h ms n (option_map (tgt h) (F ms n)) (sizeSt h ms n (String.append n "_size")) /\ in_u 32 (sizeSt h ms n (String.append n "_size")).
Proof.
  intros n Hn Hp Hq. assert (I : In (String.append n "_size") numbers) by (destruct Hn as [-> | ->]; cbn; tauto). unfold sizeSt. destruct (F ms n) as [m|] eqn:E.
  - apply Fi in E. destruct (Hp m E) as (t & s & Hd & Hs). assert (Et : tgt h m = t) by (unfold tgt; now rewrite Hd). pose proof (uf_sizes _ _ U n m t s Hn E Hd Hs) as B. assert (Es : szOf h m = s) by (unfold szOf; rewrite Et, Hs; apply u64_small; unfold in_u in B; lia). rewrite Es. cbn [option_map]. rewrite Et. split; [|exact B]. left. eauto 8.
  - pose proof (attribute_num (String.append n "_size") I Hq) as A. split; [right; split; [now apply F_none|auto]|]. apply attribute_small in A; [|exact I]. apply A. destruct Hn as [-> | ->]; discriminate.
Qed.
End Spec.

(** ** Values *)
Lemma elements_spec : forall h m t, resolveBTFArrayMacro h (m_type m) = Ok t <-> elements h m t.
Proof.
  intros h m t. unfold resolveBTFArrayMacro, elements. split.
  - destruct (deref h (m_type m)) as [[]|] eqn:E; try discriminate. destruct (deref h elem) as [[]|] eqn:E'; try discriminate. intros H. injection H as <-. eauto 6.
  - intros (i & e & k & -> & ->). reflexivity.
Qed.
Section Values.
Variables (o : obj) (i : Z) (m0 : rels) (y : sym).
Hypothesis Hm : forall a r, relAt m0 a = Some r <-> relocated o i a r.
Hypothesis (Hv : in_u 32 (y_value y)) (Hs : in_u 32 (y_size y)).
Lemma slots_spec : forall start n k, 0 <= k -> 0 <= start -> start + 8 * (k + Z.of_nat n) < 2 ^ 63 ->
  StronglySorted (fun a b => fst a < fst b) (valuesRelocations m0 start 8 k n) /\
  forall j r, In (j, r) (valuesRelocations m0 start 8 k n) <-> k <= j < k + Z.of_nat n /\ relocated o i (start + 8 * j) r.
Proof.
  intros start n. induction n as [|n IH]; intros k Hk H0 Hb; cbn [valuesRelocations].
  - split; [constructor|]. intros j r. split; [intros []|lia].
  - destruct (IH (k + 1) ltac:(lia) H0 ltac:(lia)) as (A & B). rewrite (u64_small (k * 8)) by lia. rewrite u64_small by lia. replace (start + k * 8) with (start + 8 * k) by lia. destruct (relAt m0 (start + 8 * k)) as [r0|] eqn:E.
    + split.
      * constructor; [exact A|]. apply Forall_forall. intros (j, r) Hj. apply B in Hj. cbn [fst]. lia.
      * intros j r. cbn [In]. rewrite B. split.
        -- intros [Q|Q]; [injection Q as <- <-; split; [lia|now apply Hm]|]. split; [lia|apply Q].
        -- intros (Q1 & Q2). destruct (Z.eq_dec j k) as [->|N]; [left; apply Hm in Q2; congruence|right; split; [lia|exact Q2]].
    + split; [exact A|]. intros j r. rewrite B. split; intros (Q1 & Q2); (split; [|exact Q2]); [lia|]. destruct (Z.eq_dec j k) as [->|N]; [|lia]. apply Hm in Q2. congruence.
Qed.
Lemma stubs_spec : forall l, ((exists c, stubs l = Ok c) <-> forall j r, In (j, r) l -> y_type r = 1 \/ y_type r = 2) /\
  (forall c, stubs l = Ok c -> c = map (fun p => (fst p, y_name (snd p))) l).
Proof.
  induction l as [|(j, r) l (A & B)]; cbn [stubs].
  - split; [split; [intros _ j r []|eauto]|]. intros c H. now injection H.
  - unfold STT_FUNC, STT_OBJECT. destruct ((y_type r =? 2) || (y_type r =? 1)) eqn:E.
    + destruct (stubs l) as [c|e].
      * split; [|intros c' H; injection H as <-; cbn; f_equal; now apply B]. split; [|eauto]. intros _ j' r' [Q|Q]; [injection Q as <- <-; lia|]. revert j' r' Q. apply A. eauto.
      * split; [|discriminate]. split; [intros (c & H); discriminate|]. intros H. assert (X : exists c, Err e = Ok c :> res berr (list (Z * string))) by (apply A; intros j' r' Q; apply (H j' r'); now right). destruct X. discriminate.
    + split; [|discriminate]. split; [intros (c & H); discriminate|]. intros H. destruct (H j r (or_introl eq_refl)); lia.
Qed.
Lemma contents_spec : forall m, in_u 32 (m_offset m) ->
  ((exists c, resolveBTFValuesContents m0 8 y m = Ok c) <-> m_offset m / 8 <= y_size y /\ forall k r, slot o i y m k r -> y_type r = 1 \/ y_type r = 2) /\
  (forall c, resolveBTFValuesContents m0 8 y m = Ok c -> contents_of o i y m c).
Proof.
  intros m Ho. unfold resolveBTFValuesContents. unfold in_u in *. assert (D : 0 <= m_offset m / 8 < 2 ^ 32) by (split; [apply Z.div_pos; lia|apply Z.div_lt_upper_bound; lia]).
  rewrite (u32_small (y_size y)) by lia. destruct (Z.ltb_spec (y_size y) (m_offset m / 8)) as [L|L].
  - split; [|discriminate]. split; [intros (c & H); discriminate|lia].
  - cbn [Z.eqb]. rewrite (u64_small (y_value y + m_offset m / 8)) by lia. rewrite (u64_small (y_value y + y_size y)) by lia. rewrite (u64_small (y_value y + y_size y - _)) by lia.
    set (q := (y_value y + y_size y - (y_value y + m_offset m / 8)) / 8). assert (Hq : 8 * q <= y_size y - m_offset m / 8 < 8 * q + 8 /\ 0 <= q) by (subst q; pose proof (Z.div_mod (y_value y + y_size y - (y_value y + m_offset m / 8)) 8 ltac:(lia)); pose proof (Z.mod_pos_bound (y_value y + y_size y - (y_value y + m_offset m / 8)) 8 ltac:(lia)); lia). clearbody q.
    rewrite (u32_small q) by lia. destruct (slots_spec (y_value y + m_offset m / 8) (Z.to_nat q) 0 ltac:(lia) ltac:(lia) ltac:(lia)) as (A & B). rewrite Z2Nat.id in B by lia.
    assert (B' : forall k r, In (k, r) (valuesRelocations m0 (y_value y + m_offset m / 8) 8 0 (Z.to_nat q)) <-> slot o i y m k r). { intros k r. rewrite B. unfold slot. split; [intros (Q1 & Q2); split; [lia|]; split; [exact Q2|lia]|intros (Q1 & Q2 & Q3); split; [lia|exact Q2]]. }
    clear B. set (l := valuesRelocations m0 (y_value y + m_offset m / 8) 8 0 (Z.to_nat q)) in *. clearbody l. destruct (stubs_spec l) as (S1 & S2). split.
    + rewrite S1. split; [intros H; split; [exact L|]; intros k r Q; apply (H k r); now apply B'|]. intros (_ & H) k r Q. apply (H k r). now apply B'.
    + intros c H. apply S2 in H. subst c. split.
      * clear -A. induction A as [|p l A IH Fa]; cbn; [constructor|]. constructor; [exact IH|]. rewrite Forall_forall in *. intros q Hq. apply in_map_iff in Hq as (q' & <- & Hq'). cbn [fst]. now apply Fa.
      * intros k n. rewrite in_map_iff. split; [intros ((k', r) & E & Q); cbn in E; injection E as <- <-; exists r; split; [now apply B'|reflexivity]|]. intros (r & Q & <-). exists (k, r). split; [reflexivity|]. now apply B'.
Qed.
End Values.

(** ** Success *)
Lemma F_app_none : forall A B n, F (A ++ B) n = None -> F A n = None.
Proof. intros A B n H. apply F_none. intros m (Hm & E). apply (proj1 (F_none (A ++ B) n) H m). split; [apply in_or_app; now left|exact E]. Qed.
Lemma split_new : forall A m B n, NoDup (map m_name (A ++ m :: B)) -> m_name m = lit n -> F A n = None.
Proof. intros A m B n Nd E. apply F_none. intros x (Hx & Ex). rewrite map_app in Nd. cbn in Nd. apply NoDup_remove_2 in Nd. apply Nd. apply in_or_app. left. rewrite E, <- Ex. now apply List.in_map. Qed.
Lemma has_split : forall ms n m, has ms n m -> exists A B, ms = A ++ m :: B /\ m_name m = lit n.
Proof. intros ms n m (H & E). apply in_split in H as (A & B & ->). eauto. Qed.
Lemma NoDup_left : forall {A} (l l' : list A), NoDup (l ++ l') -> NoDup l.
Proof. induction l as [|a l IH]; intros l' H; [constructor|]. cbn in H. inversion H; subst. constructor; [|eapply IH; eassumption]. intros I. apply H2. apply in_or_app. now left. Qed.
Section Ok.
Variables (h : heap) (m0 : rels) (al : Z) (y : sym) (nested : list member -> res berr mapspec) (inner : bool) (ms : list member).
Hypothesis U : usual_def h ms.
Definition values_ok (m : member) : Prop :=
  (exists l, ms = l ++ [m]) /\ (sizeSt h ms "value" "value_size" = 0 \/ sizeSt h ms "value" "value_size" = 4) /\ goodElem h nested inner (u32 (numOf h (F ms "type"))) m /\ exists c, resolveBTFValuesContents m0 al y m = Ok c.
Ltac absurd_name := match goal with A : m_name ?m = lit _, B : m_name ?m = lit _ |- _ => rewrite A in B; first [discriminate B|vm_compute in B; discriminate B] end.
Lemma F_last : forall l m n, ms = l ++ [m] -> m_name m = lit "values" -> n <> "values" -> named m n = false -> F ms n = F l n.
Proof. intros l m n -> _ _ N. rewrite F_snoc, N. now destruct (F l n). Qed.
Lemma values_same : forall l m, ms = l ++ [m] -> m_name m = lit "values" -> sizeSt h l "value" "value_size" = sizeSt h ms "value" "value_size" /\ F l "type" = F ms "type".
Proof.
  intros l m E Ev. assert (N : forall n, In n ["value"; "value_size"; "type"] -> named m n = false) by (intros n I; destruct (named m n) eqn:X; [|reflexivity]; apply named_spec in X; cbn [In] in I; destruct I as [<-|[<-|[<-|[]]]]; absurd_name).
  unfold sizeSt. rewrite !(F_last l m _ E Ev); [auto|discriminate|apply N; cbn; tauto|discriminate|apply N; cbn; tauto|discriminate|apply N; cbn; tauto].
Qed.
Lemma walk_ok : (exists st, walk h m0 al y nested inner ms st0 = Ok st) <-> sound_def h ms inner /\ forall m, has ms "values" m -> values_ok m.
Proof.
  pose proof (uf_names _ _ U) as Nd. destruct (walk_spec h m0 al y nested inner ms [] Nd (fun _ => eq_refl)) as (W & _). change (stateOf h m0 al y nested []) with st0 in W. rewrite W. clear W. cbn [app]. split.
  - intros G. assert (Num : forall n m, In n numbers -> has ms n m -> exists v, number h (m_type m) v).
    { intros n m I Hm. destruct (has_split ms n m Hm) as (A & B & E & En). specialize (G A m B E).
      assert (X : isnum h m) by (destruct G as [(n' & I' & E' & G)|[(E' & G)|[(E' & G)|[(E' & G)|[(E' & G)|[(E' & G)|(E' & G)]]]]]]; first [exact G|apply G|idtac]; exfalso; unfold numbers in I; cbn [In] in I; destruct I as [<-|[<-|[<-|[<-|[<-|[<-|[<-|[]]]]]]]]; absurd_name).
      destruct X as (v & X). exists v. now apply uint_spec. }
    split; [constructor|].
    + intros m Hm. apply in_split in Hm as (A & B & E). specialize (G A m B E). destruct G as [(n' & I' & E' & G)|[(E' & G)|[(E' & G)|[(E' & G)|[(E' & G)|[(E' & G)|(E' & G)]]]]]]; [exists n'; split; [|exact E']; cbn in I'; unfold known, numbers; cbn [app In]; tauto|eexists; split; [|exact E']; cbn; tauto..].
    + exact Num.
    + intros n m Hn Hm. destruct (has_split ms n m Hm) as (A & B & E & En). specialize (G A m B E). destruct G as [(n' & I' & E' & G)|[(E' & _ & G)|[(E' & _ & G)|[(E' & G)|[(E' & G)|[(E' & G)|(E' & G)]]]]]]; [|exact G|exact G|..]; exfalso; destruct Hn as [-> | ->]; try absurd_name; cbn [In] in I'; destruct I' as [<-|[<-|[<-|[<-|[]]]]]; absurd_name.
    + intros n m m' Hn Hm Hm'. destruct (has_split ms n m Hm) as (A & B & E & En). assert (Nm : m' <> m) by (intros ->; destruct Hm' as (_ & Em'); destruct Hn as [-> | ->]; cbn [String.append] in Em'; absurd_name).
      assert (I : In m' A \/ In m' B) by (destruct Hm' as (I & _); rewrite E in I; apply in_app_or in I as [I|[I|I]]; [auto|congruence|auto]). destruct Hm' as (Im' & Em'). destruct I as [I|I].
      * pose proof (G A m B E) as Gm. assert (Fm' : F A (String.append n "_size") = Some m').
        { apply F_iff; [|split; assumption]. rewrite E, map_app in Nd. now apply NoDup_left in Nd. }
        assert (Fn : F A n = None) by (rewrite E in Nd; eapply split_new; eassumption).
        assert (In (String.append n "_size") numbers) by (destruct Hn as [-> | ->]; cbn; tauto). destruct (Num _ m' H (conj Im' Em')) as (v & Hv). assert (Nz : v <> 0) by (eapply (uf_zero _ _ U n m m'); [exact Hn|exact Hm|split; assumption|exact Hv]).
        assert (Sz : sizeSt h A n (String.append n "_size") = v) by (unfold sizeSt; rewrite Fn, Fm'; cbn [numOf]; pose proof (proj2 (uint_spec h (m_type m') v) Hv) as X; now rewrite X).
        destruct Gm as [(n' & I' & E' & _)|[(E' & Z0 & _)|[(E' & Z0 & _)|[(E' & _)|[(E' & _)|[(E' & _)|(E' & _)]]]]]]; destruct Hn as [-> | ->]; try absurd_name; try (cbn [String.append] in Sz; congruence); cbn [In] in I'; destruct I' as [<-|[<-|[<-|[<-|[]]]]]; absurd_name.
      * apply in_split in I as (B1 & B2 & EB). assert (E2 : ms = (A ++ m :: B1) ++ m' :: B2) by (rewrite E, EB, <- app_assoc; reflexivity). pose proof (G _ m' B2 E2) as Gm.
        assert (Nk : F (A ++ m :: B1) n <> None) by (intros X; apply (proj1 (F_none _ _) X m); split; [apply in_or_app; right; now left|exact En]).
        destruct Gm as [(n' & I' & E' & _)|[(E' & _)|[(E' & _)|[(E' & Z0 & _)|[(E' & Z0 & _)|[(E' & _)|(E' & _)]]]]]]; destruct Hn as [-> | ->]; cbn [String.append] in Em'; try absurd_name; try contradiction; cbn [In] in I'; destruct I' as [<-|[<-|[<-|[<-|[]]]]]; absurd_name.
    + intros Hi m Hm. destruct (has_split ms _ m Hm) as (A & B & E & En). specialize (G A m B E). destruct G as [(n' & I' & E' & G)|[(E' & G)|[(E' & G)|[(E' & G)|[(E' & G)|[(E' & G & _)|(E' & G)]]]]]]; try absurd_name; [|congruence]. cbn [In] in I'; destruct I' as [<-|[<-|[<-|[<-|[]]]]]; absurd_name.
    + intros m Hm. destruct (has_split ms _ m Hm) as (A & B & E & En). specialize (G A m B E). destruct G as [(n' & I' & E' & G)|[(E' & G)|[(E' & G)|[(E' & G)|[(E' & G)|[(E' & G)|(_ & Lb & Sz & Ge & C)]]]]]]; try absurd_name; [cbn [In] in I'; destruct I' as [<-|[<-|[<-|[<-|[]]]]]; absurd_name|].
      destruct B; [|discriminate]. destruct (values_same A m E En) as (V1 & V2). rewrite V1 in Sz. rewrite V2 in Ge. split; [now exists A|auto].
  - intros (S & V) A m B E. assert (Hm : In m ms) by (rewrite E; apply in_or_app; right; now left). destruct (sd_known _ _ _ S m Hm) as (n & I & En). assert (Hh : has ms n m) by (split; assumption).
    assert (Nm : In n numbers -> isnum h m). { intros J. destruct (sd_numbers _ _ _ S n m J Hh) as (v & Hv). exists v. now apply uint_spec. }
    assert (Fa : forall k, (forall m', ~ has ms k m') -> F A k = None) by (intros k H; apply F_app_none with (B := m :: B); rewrite <- E; now apply F_none).
    assert (Fn : F A n = None) by (rewrite E in Nd; eapply split_new; eassumption).
    assert (Z0 : forall k, (n = k \/ n = String.append k "_size") -> k = "key" \/ k = "value" -> sizeSt h A k (String.append k "_size") = 0 /\ F A k = None).
    { intros k Hk Hkv. assert (Fk : F A k = None /\ F A (String.append k "_size") = None).
      { destruct Hk as [-> | Hk].
        - split; [exact Fn|]. apply Fa. intros m'. exact (sd_one _ _ _ S k m m' Hkv Hh).
        - rewrite Hk in *. split; [|exact Fn]. apply Fa. intros m' Hm'. exact (sd_one _ _ _ S k m' m Hkv Hm' Hh). }
      split; [|apply Fk]. unfold sizeSt. destruct Fk as (-> & ->). reflexivity. }
    unfold good. unfold known, numbers in I. cbn [app In] in I. destruct I as [<-|[<-|[<-|[<-|[<-|[<-|[<-|[<-|[<-|[<-|[]]]]]]]]]]].
    + left. eexists. split; [|split; [exact En|apply Nm]]; cbn; tauto.
    + left. eexists. split; [|split; [exact En|apply Nm]]; cbn; tauto.
    + left. eexists. split; [|split; [exact En|apply Nm]]; cbn; tauto.
    + do 3 right. left. split; [exact En|]. destruct (Z0 "key" (or_intror eq_refl) (or_introl eq_refl)) as (Q1 & Q2). split; [exact Q2|]. split; [exact Q1|]. apply Nm. cbn; tauto.
    + do 4 right. left. split; [exact En|]. destruct (Z0 "value" (or_intror eq_refl) (or_intror eq_refl)) as (Q1 & Q2). split; [exact Q2|]. split; [exact Q1|]. apply Nm. cbn; tauto.
    + do 5 right. left. split; [exact En|]. split; [|apply Nm; cbn; tauto]. destruct inner eqn:Ei; [|reflexivity]. destruct (sd_pin _ _ _ S eq_refl m Hh).
    + left. eexists. split; [|split; [exact En|apply Nm]]; cbn; tauto.
    + right. left. split; [exact En|]. split; [apply (Z0 "key"); auto|]. exact (sd_types _ _ _ S "key" m (or_introl eq_refl) Hh).
    + do 2 right. left. split; [exact En|]. split; [apply (Z0 "value"); auto|]. exact (sd_types _ _ _ S "value" m (or_intror eq_refl) Hh).
    + do 6 right. split; [exact En|]. destruct (V m Hh) as ((l & El) & Sz & Ge & C).
      assert (Eb : A = l /\ B = []). { rewrite E in El, Nd. clear -El Nd. destruct B as [|b B] using rev_ind; [apply app_inj_tail in El; destruct El; auto|]. exfalso. rewrite app_comm_cons, app_assoc in El. apply app_inj_tail in El as (_ & ->). rewrite map_app in Nd. cbn in Nd. rewrite map_app in Nd. cbn in Nd. apply NoDup_remove_2 in Nd. apply Nd. apply in_or_app. right. apply in_or_app. right. now left. }
      destruct Eb as (-> & ->). destruct (values_same l m E En) as (V1 & V2). rewrite V1, V2. auto.
Qed.
End Ok.

(** ** The result *)
Section Result.
Variables (h : heap) (m0 : rels) (al : Z) (y : sym) (tags : list str) (nested : list member -> res berr mapspec) (inner : bool) (name : string) (ms : list member).
Hypothesis U : usual_def h ms.
Lemma result_ok : (exists mp, mapSpecWith h m0 al y tags nested inner name ms = Ok mp) <-> sound_def h ms inner /\ forall m, has ms "values" m -> values_ok h m0 al y nested inner ms m.
Proof.
  rewrite <- (walk_ok h m0 al y nested inner ms U). unfold mapSpecWith. destruct (walk h m0 al y nested inner ms st0); split; intros (x & H); try discriminate; eauto.
Qed.
Lemma result_attrs : forall mp, mapSpecWith h m0 al y tags nested inner name ms = Ok mp ->
  attributes h ms name tags mp /\ mp_inner mp = innerOf h nested (F ms "values") /\ mp_contents mp = contentsOf m0 al y (F ms "values").
Proof.
  intros mp H. pose proof (proj1 result_ok (ex_intro _ mp H)) as (S & V). unfold mapSpecWith in H. destruct (walk h m0 al y nested inner ms st0) as [st|] eqn:W; [|discriminate].
  destruct (walk_spec h m0 al y nested inner ms [] (uf_names _ _ U) (fun _ => eq_refl)) as (_ & W'). change (stateOf h m0 al y nested []) with st0 in W'. apply W' in W. cbn [app] in W. subst st. clear W'.
  assert (At : forall n, In n numbers -> attribute h ms n (numOf h (F ms n)) /\ in_u 64 (numOf h (F ms n)) /\ (n <> "map_extra" -> in_u 32 (numOf h (F ms n)))).
  { intros n I. assert (A : attribute h ms n (numOf h (F ms n))) by (apply attribute_num; [exact U|exact I|]; intros m Hm; exact (sd_numbers _ _ _ S n m I Hm)). split; [exact A|]. now apply (attribute_small h ms U). }
  destruct (sized_state h ms U "key" (or_introl eq_refl) (fun m => sd_types _ _ _ S "key" m (or_introl eq_refl)) (fun m => sd_numbers _ _ _ S "key_size" m ltac:(cbn; tauto))) as (K1 & K2).
  destruct (sized_state h ms U "value" (or_intror eq_refl) (fun m => sd_types _ _ _ S "value" m (or_intror eq_refl)) (fun m => sd_numbers _ _ _ S "value_size" m ltac:(cbn; tauto))) as (V1 & V2). cbn [String.append] in *.
  assert (Ty : u32 (numOf h (F ms "type")) = numOf h (F ms "type")) by (destruct (At "type" ltac:(cbn; tauto)) as (_ & _ & A); specialize (A ltac:(discriminate)); apply u32_small; exact A).
  cbn [stateOf s_key s_value s_keysize s_valuesize s_type s_flags s_max s_pin s_extra s_inner s_contents] in H. rewrite Ty in H. rewrite (u32_small (sizeSt h ms "key" "key_size")) in H by exact K2.
  rewrite (u32_small (numOf h (F ms "max_entries"))) in H by (apply At; [cbn; tauto|discriminate]). rewrite (u32_small (numOf h (F ms "map_flags"))) in H by (apply At; [cbn; tauto|discriminate]). rewrite (u32_small (numOf h (F ms "pinning"))) in H by (apply At; [cbn; tauto|discriminate]).
  match type of H with Ok (mkMap _ _ _ (u32 ?vs) _ _ _ _ _ _ _ _ _ _) = _ => set (v := vs) in H end. apply Ok_inj in H. subst mp. split; [|split; reflexivity]. constructor; cbn [mp_name mp_type mp_keysize mp_valuesize mp_max mp_flags mp_key mp_value mp_pin mp_inner mp_contents mp_tags mp_mapextra mp_extra]; try reflexivity; try (apply At; cbn; tauto); [exact K1|].
  exists (sizeSt h ms "value" "value_size"). split; [exact V1|]. subst v. unfold valueless, canHaveValueSize, RingBuf, Arena, PerfEventArray. cbn [mp_type mp_value]. split.
  - intros (m & Hm). pose proof (proj2 (Fi h ms U "values" m) Hm) as Fv. rewrite Fv. destruct (V m Hm) as (_ & _ & (t & _ & Ge) & _). rewrite Ty in Ge.
    assert (T : numOf h (F ms "type") = 3 \/ numOf h (F ms "type") = 12 \/ numOf h (F ms "type") = 13) by (destruct Ge as [(? & ? & ? & ? & _ & T & _)|(? & ? & _ & T)]; lia).
    assert (X : negb (negb ((numOf h (F ms "type") =? 27) || (numOf h (F ms "type") =? 33) || (numOf h (F ms "type") =? 4))) = false) by lia. rewrite X. destruct (option_map (tgt h) (F ms "value")); reflexivity.
  - intros Nv. apply F_none in Nv. rewrite Nv. destruct (option_map (tgt h) (F ms "value")) as [r|]; cbn [andb].
    + split.
      * intros (T & _). assert (X : negb (negb ((numOf h (F ms "type") =? 27) || (numOf h (F ms "type") =? 33) || (numOf h (F ms "type") =? 4))) = true) by lia. rewrite X. reflexivity.
      * intros N. assert (X : negb (negb ((numOf h (F ms "type") =? 27) || (numOf h (F ms "type") =? 33) || (numOf h (F ms "type") =? 4))) = false). { destruct (negb (negb _)) eqn:X; [|reflexivity]. exfalso. apply N. split; [lia|discriminate]. } rewrite X. now apply u32_small.
    + split; [intros (_ & N); contradiction|]. intros _. now apply u32_small.
Qed.
End Result.

(** ** C78 *)
Section C78.
Variables (h : heap) (o : obj) (i : Z) (m0 : rels) (y : sym) (tags : list str) (name : string) (ms : list member).
(** the relocations of section [i], which holds the symbol [y] *)
Hypothesis (Hm : forall a r, relAt m0 a = Some r <-> relocated o i a r) (Hv : in_u 32 (y_value y)) (Hs : in_u 32 (y_size y)) (U : usual_defs h ms).
Lemma nested_ok : forall ims, usual_def h ims -> (forall m, ~ has ims "values" m) -> (exists imp, mapSpecWith h m0 8 y tags (fun _ => Err BNested) true (String.append name "_inner") ims = Ok imp) <-> sound_def h ims true.
Proof. intros ims Ui Nv. rewrite result_ok by exact Ui. split; [tauto|]. intros S. split; [exact S|]. intros m Hh. destruct (Nv m Hh). Qed.
Lemma values_sound : forall m, has ms "values" m -> sound_def h ms false ->
  values_ok h m0 8 y (mapSpecWith h m0 8 y tags (fun _ => Err BNested) true (String.append name "_inner")) false ms m <-> sound_values h o i y ms m.
Proof.
  intros m Hh S. pose proof (us_def _ _ U) as Ud.
  destruct (sized_state h ms Ud "value" (or_intror eq_refl) (fun m => sd_types _ _ _ S "value" m (or_intror eq_refl)) (fun m => sd_numbers _ _ _ S "value_size" m ltac:(cbn; tauto))) as (V1 & V2). cbn [String.append] in V1, V2.
  pose proof (attribute_num h ms Ud "type" ltac:(cbn; tauto) (fun m => sd_numbers _ _ _ S "type" m ltac:(cbn; tauto))) as At. pose proof (attribute_small h ms Ud "type" _ ltac:(cbn; tauto) At) as (_ & As). specialize (As ltac:(discriminate)).
  assert (Ty : u32 (numOf h (F ms "type")) = numOf h (F ms "type")) by (apply u32_small; exact As).
  destruct (contents_spec o i m0 y Hm Hv Hs m (us_offset _ _ U m (proj1 Hh))) as (C & _). unfold values_ok. rewrite Ty, C. split.
  - intros (L & Sz & (t & Et & Ge) & Of & Sy). apply elements_spec in Et. constructor; auto.
    + intros t' s' H. destruct (sized_fun h ms Ud _ _ _ _ _ V1 H) as (_ & <-). exact Sz.
    + exists t. split; [exact Et|]. destruct Ge as [(n & sz & ims & tg & Hd & T & _ & imp & Hi)|(r & ps & Hd & T)].
      * left. exists n, sz, ims, tg. split; [exact Hd|]. split; [destruct T as [<-|<-]; auto|]. destruct (us_inner _ _ U m t n sz ims tg Hh Et Hd) as (Ui & Nv). apply (nested_ok ims Ui Nv). eauto.
      * right. exists r, ps. split; [exact Hd|]. now rewrite <- T.
  - intros [L Sz (t & Et & Ge) Of Sy]. split; [exact L|]. split; [exact (Sz _ _ V1)|]. split; [|auto]. exists t. split; [now apply elements_spec|]. destruct Ge as [(n & sz & ims & tg & Hd & T & Si)|(r & ps & Hd & T)].
    + left. exists n, sz, ims, tg. split; [exact Hd|]. split; [destruct T as [T|T]; [left|right]; eapply attribute_fun; eassumption|]. split; [reflexivity|]. destruct (us_inner _ _ U m t n sz ims tg Hh Et Hd) as (Ui & Nv). now apply (nested_ok ims Ui Nv).
    + right. exists r, ps. split; [exact Hd|]. eapply attribute_fun; eassumption.
Qed.
(** A definition is accepted exactly if it is sound. *)
Theorem C78_accepted : (exists mp, mapSpecFromBTF h m0 8 y tags name ms = Ok mp) <-> sound_def h ms false /\ forall m, has ms "values" m -> sound_values h o i y ms m.
Proof.
  unfold mapSpecFromBTF. rewrite result_ok by apply (us_def _ _ U). split; intros (S & V); (split; [exact S|]); intros m Hh; specialize (V m Hh); now apply (values_sound m Hh S).
Qed.
(** The map is the one which is defined. *)
Theorem C78_map : forall mp, mapSpecFromBTF h m0 8 y tags name ms = Ok mp -> the_definition h o i y tags name ms mp.
Proof.
  intros mp H. unfold mapSpecFromBTF in H. pose proof (us_def _ _ U) as Ud. pose proof (proj1 (result_ok _ _ _ _ _ _ _ _ _ Ud) (ex_intro _ mp H)) as (S & V). destruct (result_attrs _ _ _ _ _ _ _ _ _ Ud mp H) as (A & Ei & Ec). constructor; [exact A| |].
  - intros N. apply F_none in N. rewrite Ei, Ec, N. split; reflexivity.
  - intros m t Hh Et. pose proof (proj2 (Fi h ms Ud "values" m) Hh) as Fv. rewrite Fv in Ei, Ec. destruct (V m Hh) as (_ & _ & (t' & Et' & Ge) & c & Hc). assert (Q : elements h m t') by now apply elements_spec. assert (t' = t) by (apply elements_spec in Et; congruence). subst t'.
    cbn [contentsOf] in Ec. rewrite Hc in Ec. cbn [innerOf] in Ei. rewrite Et' in Ei. destruct (contents_spec o i m0 y Hm Hv Hs m (us_offset _ _ U m (proj1 Hh))) as (_ & C). split; [rewrite Ec; now apply C|]. split.
    + intros r ps Hd. now rewrite Hd in Ei.
    + intros n sz ims tg Hd. rewrite Hd in Ei. destruct (us_inner _ _ U m t n sz ims tg Hh Et Hd) as (Ui & Nv). destruct (mapSpecWith h m0 8 y tags (fun _ => Err BNested) true (name ++ "_inner") ims) as [imp|e] eqn:Hi.
      * exists imp. split; [exact Ei|]. destruct (result_attrs _ _ _ _ _ _ _ _ _ Ui imp Hi) as (Ai & Eii & Eic). apply F_none in Nv. rewrite Nv in Eii, Eic. split; [exact Ai|]. split; [exact Eii|exact Eic].
      * exfalso. destruct Ge as [(n' & sz' & ims' & tg' & Hd' & _ & _ & imp & Hi')|(r & ps & Hd' & _)]; rewrite Hd in Hd'; [|discriminate]. injection Hd' as <- <- <- <-. congruence.
Qed.
End C78.
(** The order of the members is irrelevant, as long as the values are last. *)
Theorem C78_order : forall h m0 al y tags name ms ms', NoDup (map m_name ms) -> Permutation ms ms' -> (forall m, has ms "values" m -> exists l, ms' = l ++ [m]) ->
  usual_def h ms -> forall mp, mapSpecFromBTF h m0 al y tags name ms = Ok mp -> mapSpecFromBTF h m0 al y tags name ms' = Ok mp.
Proof.
  intros h m0 al y tags name ms ms' Nd P L U mp H. unfold mapSpecFromBTF in *. set (nested := mapSpecWith h m0 al y tags (fun _ => Err BNested) true (name ++ "_inner")) in *. clearbody nested.
  assert (Nd' : NoDup (map m_name ms')) by (eapply Permutation_NoDup; [apply Permutation_map; exact P|exact Nd]).
  assert (Hp : forall n m, has ms' n m <-> has ms n m) by (intros n m; split; intros (A & B); (split; [|exact B]); [now apply (Permutation_in _ (Permutation_sym P))|now apply (Permutation_in _ P)]).
  assert (Fp : forall n, F ms' n = F ms n) by (intros n; destruct (F ms n) as [m|] eqn:E; [apply F_iff; [exact Nd'|]; apply Hp; now apply F_iff|]; apply F_none; intros m Hm; apply Hp in Hm; exact (proj1 (F_none ms n) E m Hm)).
  assert (U' : usual_def h ms').
  { destruct U as [u1 u2 u3 u4]. constructor; [exact Nd'|..]; intros.
    - eapply u2; [eassumption|apply Hp; eassumption|assumption].
    - eapply u3; [eassumption|apply Hp; eassumption|eassumption|assumption].
    - eapply u4; [eassumption|apply Hp; eassumption|apply Hp; eassumption|assumption]. }
  assert (At : forall n v, attribute h ms' n v <-> attribute h ms n v). { intros n v. unfold attribute. setoid_rewrite Hp. tauto. }
  pose proof (proj1 (result_ok h m0 al y tags nested false name ms U) (ex_intro _ mp H)) as (S & V).
  assert (X : exists mp', mapSpecWith h m0 al y tags nested false name ms' = Ok mp').
  { apply result_ok; [exact U'|]. split.
    - destruct S as [s1 s2 s3 s4 s5]. constructor; intros.
      + apply s1. now apply (Permutation_in _ (Permutation_sym P)).
      + eapply s2; [eassumption|now apply Hp].
      + eapply s3; [eassumption|now apply Hp].
      + intros Q. apply Hp in Q. eapply s4; [eassumption|apply Hp; eassumption|exact Q].
      + intros Q. apply Hp in Q. now apply (s5 H0 m).
    - intros m Hm. apply Hp in Hm. destruct (V m Hm) as (_ & Sz & Ge & C). unfold values_ok, sizeSt in *. rewrite !Fp. auto. }
  destruct X as (mp' & X). rewrite X. f_equal. unfold mapSpecWith in H, X.
  destruct (walk_spec h m0 al y nested false ms [] Nd (fun _ => eq_refl)) as (_ & W). destruct (walk_spec h m0 al y nested false ms' [] Nd' (fun _ => eq_refl)) as (_ & W'). change (stateOf h m0 al y nested []) with st0 in W, W'.
  destruct (walk h m0 al y nested false ms st0) as [st|]; [|discriminate]. destruct (walk h m0 al y nested false ms' st0) as [st'|]; [|discriminate]. specialize (W st eq_refl). specialize (W' st' eq_refl). cbn [app] in W, W'.
  assert (E : st' = st) by (rewrite W, W'; unfold stateOf, sizeSt; now rewrite !Fp). subst st'. rewrite E in X. congruence.
Qed.
Print Assumptions C78_accepted.
Print Assumptions C78_map.
Print Assumptions C78_order.
