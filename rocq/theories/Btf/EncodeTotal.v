(** The encoder doesn't fail on types which the wire format can hold. *)
From Coq Require Import ZArith List Lia Bool.
From Verif.Base Require Import GoInt ListExtra.
From Verif.Btf Require Import Strings StringsProof Wire WireSpec Types TypesSpec TypesProof PropsTypes Encode EncodeSpec EncodeProof EncodeRun EncodeImage EncodeLoop.
Import ListNotations.
Open Scope Z_scope.

Lemma NoDup_left {A} (a b : list A) : NoDup (a ++ b) -> NoDup a.
Proof. induction a as [|x a IH]; [constructor|]. cbn. inversion 1 as [|? ? Nx N]; subst. constructor; [|auto]. intros Hx. apply Nx, in_or_app. now left. Qed.

Section Total.
  Variable o : mopts.
  Variable h : heap.
  Variable roots : list ref.
  Hypothesis Hroots : forall t, In t roots -> complete h t.
  Hypothesis Huser : forall t x n, In t roots -> reach h t x -> deref h x = Some n -> user_type n.
  Hypothesis Hbound : Z.of_nat (bound h) < 2 ^ 32.

  Definition pres (r : ref) : Prop := exists a, r = RPtr a /\ (a < length h)%nat.
  Record Cnt (ids : list (ref * Z)) (all : list pitem) : Prop := {
    c_num : numbered_items ids all;
    c_pres : forall r, In (PType r) all -> pres r;
    c_own : forall r v k, In (PTag r v k) all -> pres r;
    c_tags : forall x, (length (ptags x all) <= length (tags_at h x))%nat;
    c_dummy : forall p, In p all -> p <> PDummy;
    c_ints : (ints all <= length h)%nat }.
  Lemma count_bound ids all : Cnt ids all -> (length all <= bound h)%nat.
  Proof.
    intros [N Pr Ow Tg Du In_]. rewrite kinds_count by exact Du.
    assert (A : (ntypes all <= length h)%nat).
    { rewrite <- ptypes_length. apply NoDup_bounded; [exact (numbered_NoDup _ _ N)|]. intros r Hr. apply ptypes_In in Hr. now apply Pr. }
    assert (B : (tag_items_of all <= total_tags h)%nat).
    { rewrite (tags_sum _ (map RPtr (seq 0 (length h)))).
      - eapply Nat.le_trans; [|apply (tags_total h (map RPtr (seq 0 (length h))))].
        assert (G : forall l, incl l (map RPtr (seq 0 (length h))) ->
          (fold_right (fun x n => length (ptags x all) + n) 0 l <= fold_right (fun x n => length (if ref_in x (map RPtr (seq 0 (length h))) then tags_at h x else []) + n) 0 l)%nat); [|apply G, incl_refl].
        induction l as [|x l IH]; intros Hi; [cbn; lia|]. cbn [fold_right]. assert (Hx : ref_in x (map RPtr (seq 0 (length h))) = true) by (apply ref_in_In, Hi; now left). rewrite Hx. specialize (Tg x). specialize (IH (fun y Hy => Hi y (or_intror Hy))). lia.
      - apply FinFun.Injective_map_NoDup; [intros a b E; congruence|apply seq_NoDup].
      - intros r v k Hr. destruct (Ow _ _ _ Hr) as (a & -> & La). apply in_map, in_seq. lia. }
    unfold bound. lia.
  Qed.

  Lemma ptags_one x p : ptags x [p] = match p with PTag r v k => if ref_eq_dec r x then [(v, k)] else [] | _ => [] end.
  Proof. unfold ptags. cbn. apply app_nil_r. Qed.
  Lemma owned_cons x it its : owned x (it :: its) = owned x [it] ++ owned x its.
  Proof. change (it :: its) with ([it] ++ its). apply owned_app. Qed.
  Lemma allocate_all_total D its : forall e, in_u 32 (e_lastID e) -> e_lastID e = Z.of_nat (length (D ++ e_pending e)) -> Cnt (e_ids e) (D ++ e_pending e) ->
    (forall r, In r (types its) -> r = RVoid \/ pres r) -> (forall r v k, In (ITag r v k) its -> pres r) ->
    (forall x, (length (ptags x (D ++ e_pending e)) + length (owned x its) <= length (tags_at h x))%nat) ->
    exists e', allocate_all e its = Ok e'.
  Proof.
    induction its as [|it its IH]; intros e U L C Ht Ho Hn; [cbn; eauto|]. cbn [allocate_all].
    assert (Ht' : forall r, In r (types its) -> r = RVoid \/ pres r).
    { intros r Hr. apply Ht. change (it :: its) with ([it] ++ its). rewrite types_app. apply in_or_app. now right. }
    assert (Ho' : forall r v k, In (ITag r v k) its -> pres r) by (intros r v k Hr; eapply Ho; right; exact Hr).
    assert (Same : (forall x, owned x [it] = []) -> exists e', allocate_all e its = Ok e').
    { intros On. apply IH; auto. intros x. specialize (Hn x). rewrite owned_cons, On in Hn. exact Hn. }
    assert (New : forall p ids', Cnt ids' (D ++ e_pending e ++ [p]) -> (forall x, ptags x [p] = owned x [it]) -> ids' = (match p with PType r => [(r, Z.of_nat (length (D ++ e_pending e)) + 1)] | _ => [] end) ++ e_ids e ->
      exists e1, (if u32 (e_lastID e + 1) <? e_lastID e then Err IDOverflow
        else Ok (mkEnc (e_pending e ++ [p]) (e_strings e) (match p with PType r => (r, u32 (e_lastID e + 1)) :: e_ids e | _ => e_ids e end) (e_visited e) (u32 (e_lastID e + 1)))) = Ok e1 /\ exists e', allocate_all e1 its = Ok e').
    { intros p ids' C' Hp Ei. pose proof (count_bound _ _ C') as Lb. destruct (next_id _ _ U L) as [X|(X & Y & Z)].
      - exfalso. rewrite !app_length in Lb. rewrite app_length in L. cbn [length] in Lb. unfold u32 in X. rewrite wrapu_id in X by (unfold in_u in *; lia). lia.
      - apply Z.ltb_nlt in Z. rewrite Z. eexists. split; [reflexivity|]. apply IH; cbn [e_pending e_ids e_lastID e_strings e_visited]; auto.
        + rewrite X. rewrite L in Y. unfold in_u in *. lia.
        + rewrite X, app_assoc, (app_length (D ++ e_pending e)). cbn. lia.
        + replace (match p with PType r => (r, u32 (e_lastID e + 1)) :: e_ids e | _ => e_ids e end) with ids'; [exact C'|]. rewrite Ei. destruct p; cbn [app]; try reflexivity. do 2 f_equal. rewrite X. lia.
        + intros x. specialize (Hn x). rewrite app_assoc, ptags_app, app_length, Hp. rewrite owned_cons, app_length in Hn. lia. }
    destruct C as [N Pr Ow Tg Du In_].
    assert (It : forall p, (forall r, p = PType r -> pres r) -> (forall r v k, p = PTag r v k -> pres r) -> (match p with PType _ | PTag _ _ _ => True | _ => False end) -> (forall x, ptags x [p] = owned x [it]) ->
       (forall r, p = PType r -> id_of (e_ids e) r = None) ->
       Cnt ((match p with PType r => [(r, Z.of_nat (length (D ++ e_pending e)) + 1)] | _ => [] end) ++ e_ids e) (D ++ e_pending e ++ [p])).
    { intros p P1 P2 P3 P4 P5. rewrite app_assoc. constructor.
      - destruct p; [|apply numbered_items_other; [exact N|discriminate]..]. apply numbered_items_new; [exact N|now apply P5].
      - intros r Hr. apply in_app_or in Hr as [Hr|[Hr|[]]]; [now apply Pr|now apply P1].
      - intros r v k Hr. apply in_app_or in Hr as [Hr|[Hr|[]]]; [eapply Ow; exact Hr|eapply P2; exact Hr].
      - intros x. specialize (Hn x). rewrite ptags_app, app_length, P4. rewrite owned_cons, app_length in Hn. lia.
      - intros q Hq. apply in_app_or in Hq as [Hq|[<-|[]]]; [now apply Du|]. intros ->. exact P3.
      - rewrite ints_app. destruct p; try contradiction; unfold ints at 2; cbn; lia. }
    destruct it as [r|r v k]; unfold allocate.
    - assert (Hr : r = RVoid \/ pres r) by (apply Ht; now left). destruct Hr as [->|Hr].
      + apply Same. reflexivity.
      + assert (G : id_of (e_ids e) r = None -> exists e', match (if u32 (e_lastID e + 1) <? e_lastID e then Err IDOverflow
          else Ok (mkEnc (e_pending e ++ [PType r]) (e_strings e) ((r, u32 (e_lastID e + 1)) :: e_ids e) (e_visited e) (u32 (e_lastID e + 1)))) with Err x => Err x | Ok e => allocate_all e its end = Ok e').
        { intros F. destruct (New (PType r) _ (It (PType r) ltac:(intros ? E; injection E as <-; exact Hr) ltac:(discriminate) I ltac:(reflexivity) ltac:(intros ? E; injection E as <-; exact F)) ltac:(reflexivity) eq_refl) as (e1 & E1 & E2). rewrite E1. exact E2. }
        destruct Hr as (a & -> & La). destruct (id_of (e_ids e) (RPtr a)) eqn:F; [apply Same; reflexivity|apply G; reflexivity].
    - destruct (New (PTag r v k) _ (It (PTag r v k) ltac:(discriminate) ltac:(intros ? ? ? E; injection E as <- <- <-; eapply Ho; now left) I ltac:(reflexivity) ltac:(discriminate)) ltac:(reflexivity) eq_refl) as (e1 & E1 & E2). rewrite E1. exact E2.
  Qed.

  Lemma EI_Cnt e D : EI h roots e D -> Cnt (e_ids e) (items e D).
  Proof.
    intros J. constructor.
    - apply J.
    - intros r Hr. eapply ei_present; eassumption.
    - intros r v k Hr. pose proof (ei_owner _ _ _ _ _ _ _ J Hr) as Hv. destruct (ei_vids _ _ _ _ J _ Hv) as [->|(i & Hi)].
      + exfalso. assert (X : In (v, k) (ptags RVoid (items e D))). { unfold ptags. apply in_flat_map. exists (PTag RVoid v k). split; [exact Hr|]. destruct (ref_eq_dec RVoid RVoid); [now left|contradiction]. }
        rewrite (ei_tags _ _ _ _ J) in X. destruct (ref_in RVoid (e_visited e)); exact X.
      + apply (ei_ids _ _ _ _ J) in Hi as (_ & Hi). apply nth_error_In in Hi. eapply ei_present; eassumption.
    - intros x. rewrite (ei_tags _ _ _ _ J). destruct (ref_in x (e_visited e)); cbn; lia.
    - intros p Hp ->. exact (ei_root _ _ _ _ J _ Hp).
    - pose proof (ei_ints _ _ _ _ J) as X. assert (ntypes D <= ntypes (items e D))%nat by (unfold items; rewrite ntypes_app; lia).
      assert (A : (ntypes (items e D) <= length h)%nat); [|lia].
      rewrite <- ptypes_length. apply NoDup_bounded; [exact (numbered_NoDup _ _ (ei_ids _ _ _ _ J))|]. intros r Hr. apply ptypes_In in Hr. eapply ei_present; eassumption.
  Qed.

  Lemma owner_in e D r v k : EI h roots e D -> In (PTag r v k) (items e D) -> pres r.
  Proof. intros J. apply (c_own _ _ (EI_Cnt e D J)). Qed.
  Lemma shift_fine e D p rest : EI h roots e D -> e_pending e = p :: rest -> exists e1, allocate_for h (bump e rest) p = Some (Ok e1).
  Proof.
    intros J P. assert (Hp : In p (items e D)) by (unfold items; rewrite P; apply in_or_app; right; now left). pose proof (ei_root _ _ _ _ J _ Hp) as R.
    destruct p as [t|r v k|s z en|]; [|cbn; eauto|cbn; eauto|destruct R]. cbn [allocate_for]. unfold allocateIDs. cbn [bump e_visited e_pending e_strings e_ids e_lastID]. destruct R as (_ & t0 & H0 & R).
    assert (Ct : complete h t) by (intros x Hx; apply (Hroots _ H0); eapply reach_trans; eassumption).
    destruct (C34_terminates h (e_visited e) t Ct) as (vis & its & Po). rewrite Po.
    destruct (C34_resumed h (e_visited e) t vis its (ei_closed _ _ _ _ J) Po) as (_ & HT & HV & HC).
    destruct (visit_good h _ _ _ _ _ Po) as ([S _ _ _ _] & Rv & _ & _ & Ow & Wt).
    set (e0 := mkEnc rest (e_strings e) (e_ids e) vis (e_lastID e)).
    assert (I0 : (D ++ [PType t]) ++ e_pending e0 = items e D) by (unfold items; rewrite P, <- app_assoc; reflexivity).
    destruct (allocate_all_total (D ++ [PType t]) its e0) as (e1 & E1); [| | | | | |rewrite E1; eauto].
    - apply J.
    - rewrite I0. apply J.
    - rewrite I0. change (e_ids e0) with (e_ids e). now apply EI_Cnt.
    - intros r Hr. apply HT in Hr as (Hr & _). apply Ct in Hr. destruct r as [| |a]; [destruct Hr|auto|right; exists a; split; [reflexivity|exact Hr]].
    - intros r v k Hr. assert (Hi : In r (types its)).
      { assert (X : owned r its <> []) by (intros X; assert (Y : In (v, k) (owned r its)); [|rewrite X in Y; destruct Y]; unfold owned; apply in_flat_map; exists (ITag r v k); split; [exact Hr|]; destruct (ref_eq_dec r r); [now left|contradiction]).
        rewrite Ow in X. destruct (ref_in r (types its)) eqn:F; [now apply ref_in_In|contradiction]. }
      assert (X : owned r its <> []) by (intros X; assert (Y : In (v, k) (owned r its)); [|rewrite X in Y; destruct Y]; unfold owned; apply in_flat_map; exists (ITag r v k); split; [exact Hr|]; destruct (ref_eq_dec r r); [now left|contradiction]).
      apply HT in Hi as (Hi & _). apply Ct in Hi. destruct r as [| |a]; [destruct Hi| |exists a; split; [reflexivity|exact Hi]].
      exfalso. rewrite Ow in X. destruct (ref_in RVoid (types its)); apply X; reflexivity.
    - intros x. rewrite I0, (ei_tags _ _ _ _ J), Ow. destruct (ref_in x (e_visited e)) eqn:F.
      + assert (R2 : ref_in x (types its) = false) by (apply ref_in_false; intros Hx; apply ref_in_In in F; apply HT in Hx; tauto). rewrite R2. cbn. lia.
      + destruct (ref_in x (types its)); cbn; lia.
  Qed.

  (** *** one type *)
  Definition known (e : enc) (r : ref) : Prop := exists i, e_id e r = Ok i.
  Lemma members_total e ms : Forall (fun s => ~ In 0 s) (map m_name ms) -> Forall (known e) (map m_type ms) ->
    forall b fl, exists x, deflateMembers b fl (members_of e ms) = Ok x.
  Proof.
    induction ms as [|m ms IH]; intros Hn Hk b fl; [cbn; eauto|]. cbn [map] in *. pose proof (Forall_inv Hn) as H1. pose proof (Forall_inv_tail Hn) as H2. destruct (Forall_inv Hk) as (i & Ei). pose proof (Forall_inv_tail Hk) as H4. cbn [members_of map deflateMembers].
    destruct (add_string_total b (m_name m) H1) as (so & b1 & ->). cbn [bind]. rewrite Ei. cbn [bind]. destruct (IH H2 H4 b1 (fl || (m_bits m >? 0))) as ([[f2 b2] ws] & E). unfold members_of in E. rewrite E. cbn. eauto.
  Qed.
  Lemma placeholders_total i vs : Forall (fun s => ~ In 0 s) (map ev_name vs) -> forall b fl, exists x, deflateMembers b fl (map (fun v => (ev_name v, Ok i, 0, 0)) vs) = Ok x.
  Proof.
    induction vs as [|v vs IH]; intros Hn b fl; [cbn; eauto|]. cbn [map] in *. pose proof (Forall_inv Hn) as H1. pose proof (Forall_inv_tail Hn) as H2. cbn [deflateMembers].
    destruct (add_string_total b (ev_name v) H1) as (so & b1 & ->). cbn [bind]. destruct (IH H2 b1 (fl || (0 >? 0))) as ([[f2 b2] ws] & ->). cbn. eauto.
  Qed.
  Lemma params_total e ps : Forall (fun s => ~ In 0 s) (map p_name ps) -> Forall (known e) (map p_type ps) ->
    forall b, exists x, deflateFuncParams e b ps = Ok x.
  Proof.
    induction ps as [|m ms IH]; intros Hn Hk b; [cbn; eauto|]. cbn [map] in *. pose proof (Forall_inv Hn) as H1. pose proof (Forall_inv_tail Hn) as H2. destruct (Forall_inv Hk) as (i & Ei). pose proof (Forall_inv_tail Hk) as H4. cbn [deflateFuncParams].
    destruct (add_string_total b (p_name m) H1) as (so & b1 & ->). cbn [bind]. rewrite Ei. cbn [bind]. destruct (IH H2 H4 b1) as ([b2 ws] & ->). cbn. eauto.
  Qed.
  Lemma vars_total e vs : Forall (known e) (map vs_type vs) -> exists x, deflateVarSecinfos e vs = Ok x.
  Proof.
    induction vs as [|m ms IH]; intros Hk; [cbn; eauto|]. cbn [map] in *. destruct (Forall_inv Hk) as (i & Ei). pose proof (Forall_inv_tail Hk) as H2. cbn [deflateVarSecinfos]. rewrite Ei. cbn [bind]. destruct (IH H2) as (ws & ->). cbn. eauto.
  Qed.
  Lemma enum64_total vs : Forall (fun s => ~ In 0 s) (map ev_name vs) -> forall b, exists x, deflateEnum64Values b vs = Ok x.
  Proof.
    induction vs as [|v vs IH]; intros Hn b; [cbn; eauto|]. cbn [map] in *. pose proof (Forall_inv Hn) as H1. pose proof (Forall_inv_tail Hn) as H2. cbn [deflateEnum64Values].
    destruct (add_string_total b (ev_name v) H1) as (so & b1 & ->). cbn [bind]. destruct (IH H2 b1) as ([b2 ws] & ->). cbn. eauto.
  Qed.
  Lemma signed_range v : 0 <= v < 2 ^ 64 -> v < 2 ^ 31 \/ 2 ^ 64 - 2 ^ 31 <= v -> (i64 v <? -2147483648) || (i64 v >? 2147483647) = false.
  Proof.
    intros R H. assert (E : i64 v = if v <? 2 ^ 63 then v else v - 2 ^ 64).
    { unfold i64, sext. rewrite Z.mod_small by exact R. reflexivity. }
    rewrite E. change (2 ^ 31) with 2147483648 in *. change (2 ^ 63) with 9223372036854775808. change (2 ^ 64) with 18446744073709551616 in *.
    destruct (Z.ltb_spec v 9223372036854775808); apply orb_false_iff; split; [apply Z.ltb_ge; lia|rewrite Z.gtb_ltb; apply Z.ltb_ge; lia|apply Z.ltb_ge; lia|rewrite Z.gtb_ltb; apply Z.ltb_ge; lia].
  Qed.
  Lemma enum_total sgn vs : Forall (fun s => ~ In 0 s) (map ev_name vs) -> Forall (fun v => in_u 64 (ev_value v)) vs ->
    Forall (fun v => if sgn : bool then ev_value v < 2 ^ 31 \/ 2 ^ 64 - 2 ^ 31 <= ev_value v else ev_value v < 2 ^ 32) vs ->
    forall b, exists x, deflateEnumValues b sgn vs = Ok x.
  Proof.
    induction vs as [|v vs IH]; intros Hn Hr He b; [cbn; eauto|]. cbn [map] in *. pose proof (Forall_inv Hn) as H1. pose proof (Forall_inv_tail Hn) as H2. pose proof (Forall_inv Hr) as H3. pose proof (Forall_inv_tail Hr) as H4. pose proof (Forall_inv He) as H5. pose proof (Forall_inv_tail He) as H6. cbv beta in *. cbn [deflateEnumValues].
    destruct (add_string_total b (ev_name v) H1) as (so & b1 & ->). cbn [bind].
    assert (Ec : (if sgn then (i64 (ev_value v) <? -2147483648) || (i64 (ev_value v) >? 2147483647) else ev_value v >? 4294967295) = false).
    { destruct sgn; [now apply signed_range|]. rewrite Z.gtb_ltb. apply Z.ltb_ge. change (2 ^ 32) with 4294967296 in *. lia. }
    rewrite Ec. destruct (IH H2 H4 H6 b1) as ([b2 ws] & ->). cbn. eauto.
  Qed.
  Lemma Forall_tl {A} (P : A -> Prop) x l : Forall P (x :: l) -> Forall P l.
  Proof. inversion 1; auto. Qed.
  Lemma known_with e b r : known e r -> known (with_strings e b) r.
  Proof. intros H. exact H. Qed.
  Lemma node_total e n : user_type n -> go_range n -> enum_in_range n -> Forall (fun s => ~ In 0 s) (names_of n) -> Forall (known e) (refs n) ->
    (new_int o n <> [] -> ~ u32 (e_lastID e + 1) < e_lastID e) -> exists x, deflateNode o e n = Ok x.
  Proof.
    intros Ut Go En Hn Hk Hi. unfold deflateNode. pose proof Hn as Hn'. unfold names_of in Hn'. inversion Hn' as [|? ? Hn0 _]; subst. clear Hn'. apply Forall_tl in Hn.
    destruct (add_string_total (e_strings e) (type_name n) Hn0) as (so & b & ->). cbn [bind].
    destruct n; cbn [names_of tl refs user_type type_name] in *; unfold deflateRef.
    - eauto.
    - inversion Hk as [|? ? (i & Ei)]; subst. change (e_id (with_strings e b) target) with (e_id e target). rewrite Ei. cbn. eauto.
    - inversion Hk as [|? ? (i & Ei) Hk']; subst. inversion Hk' as [|? ? (j & Ej)]; subst. change (e_id (with_strings e b)) with (e_id e). rewrite Ei, Ej. cbn. eauto.
    - unfold deflateComposite. destruct (members_total (with_strings e b) ms Hn Hk (e_strings (with_strings e b)) false) as ([[f2 b2] ws] & ->). cbn. eauto.
    - unfold deflateComposite. destruct (members_total (with_strings e b) ms Hn Hk (e_strings (with_strings e b)) false) as ([[f2 b2] ws] & ->). cbn. eauto.
    - destruct Go as (Gz & Gv). destruct (Z.eqb_spec size 8) as [->|N8].
      + unfold deflateEnum64. destruct (ReplaceEnum64 o) eqn:Ro.
        * unfold allocate_int. cbn [with_strings e_lastID e_pending e_strings e_ids e_visited]. cbn [new_int] in Hi. rewrite Z.eqb_refl, Ro in Hi. assert (Nl : ~ u32 (e_lastID e + 1) < e_lastID e) by (apply Hi; discriminate). apply Z.ltb_nlt in Nl. rewrite Nl. cbn [bind]. unfold deflateComposite. cbn [e_strings].
          destruct (placeholders_total (u32 (e_lastID e + 1)) vals Hn b false) as ([[f2 b2] ws] & ->). cbn. eauto.
        * destruct (enum64_total vals Hn (e_strings (with_strings e b))) as ([b2 ws] & ->). cbn. eauto.
      + cbn [enum_in_range] in En. destruct (enum_total sgn vals Hn Gv (En N8) (e_strings (with_strings e b))) as ([b2 ws] & ->). cbn. eauto.
    - eauto.
    - inversion Hk as [|? ? (i & Ei)]; subst. change (e_id (with_strings e b)) with (e_id e). rewrite Ei. cbn. eauto.
    - inversion Hk as [|? ? (i & Ei)]; subst. change (e_id (with_strings e b)) with (e_id e). rewrite Ei. cbn. eauto.
    - inversion Hk as [|? ? (i & Ei)]; subst. change (e_id (with_strings e b)) with (e_id e). rewrite Ei. cbn. eauto.
    - inversion Hk as [|? ? (i & Ei)]; subst. change (e_id (with_strings e b)) with (e_id e). rewrite Ei. cbn. eauto.
    - inversion Hk as [|? ? (i & Ei)]; subst. change (e_id (with_strings e b)) with (e_id e). rewrite Ei. cbn. eauto.
    - inversion Hk as [|? ? (i & Ei) Hk']; subst. change (e_id (with_strings e b)) with (e_id e). rewrite Ei. cbn [bind]. destruct (params_total (with_strings e b) params Hn Hk' (e_strings (with_strings e b))) as ([b2 ws] & ->). cbn. eauto.
    - inversion Hk as [|? ? (i & Ei)]; subst. change (e_id (with_strings e b)) with (e_id e). rewrite Ei. cbn. eauto.
    - destruct (vars_total (with_strings e b) vars Hk) as (ws & ->). cbn. eauto.
    - eauto.
    - destruct Ut.
    - inversion Hk as [|? ? (i & Ei)]; subst. change (e_id (with_strings e b)) with (e_id e). rewrite Ei. cbn [bind]. destruct (ReplaceTypeTags o); [eauto|]. inversion Hn as [|? ? Hv]; subst. destruct (add_string_total (e_strings (with_strings e b)) value Hv) as (vo & b2 & ->). cbn. eauto.
    - destruct Ut.
  Qed.

  Hypothesis Hfine : forall t x n, In t roots -> reach h t x -> deref h x = Some n -> go_range n /\ enum_in_range n /\ Forall (fun s => ~ In 0 s) (strings_of h n).

  Lemma names_strings n : user_type n -> incl (names_of n) (strings_of h n).
  Proof.
    intros U s [<-|Hs]; [now left|]. right. destruct n; cbn in Hs |- *; try contradiction; try (apply in_or_app; right; exact Hs); auto.
  Qed.
  Lemma tags_strings n v k : In (v, k) (decl_tags h n) -> In v (strings_of h n).
  Proof. intros H. right. apply in_or_app. left. apply (in_map fst) in H. exact H. Qed.
  Lemma type_total e D p rest e1 : EI h roots e D -> (forall s z en, In (PInt s z en) (items e D) -> ~ In 0 s) -> e_pending e = p :: rest -> allocate_for h (bump e rest) p = Some (Ok e1) -> exists x, deflateType o h e1 p = Ok x.
  Proof.
    intros J Nz P A. destruct (shift_ok h roots Hroots e D p rest _ J P A e1 eq_refl) as (J1 & (new & N1) & X1 & S1 & Vp & V1 & I1).
    assert (Hp : In p (items e D)) by (unfold items; rewrite P; apply in_or_app; right; now left). pose proof (ei_root _ _ _ _ J _ Hp) as Rp.
    assert (Kn : forall x, In x (e_visited e1) -> known e1 x).
    { intros x Hx. destruct (ei_vids _ _ _ _ J1 _ Hx) as [->|(i & Hi)]; [exists 0; reflexivity|]. unfold known, e_id. rewrite Hi. destruct x; eauto. }
    destruct p as [t|r v k|s z en|]; cbn [deflateType]; [| | |destruct Rp].
    - assert (Pt : pres t) by exact (ei_present h roots Hroots _ _ _ J Hp). destruct Pt as (a & -> & La). cbn [deref]. destruct (nth_error h a) as [n|] eqn:Dn; [|apply nth_error_None in Dn; lia].
      destruct Rp as (_ & t0 & H0 & R0). destruct (Hfine _ _ _ H0 R0 Dn) as (G1 & G2 & G3). pose proof (Huser _ _ _ H0 R0 Dn) as Ut. apply node_total; auto.
      + rewrite Forall_forall in *. intros s Hs. apply G3. now apply names_strings.
      + apply Forall_forall. intros c Hc. apply Kn. eapply (ei_closed _ _ _ _ J1); [apply (Vp _ eq_refl)|]. exists n. auto.
      + intros Ne. destruct (next_id _ _ (ei_u32 _ _ _ _ J1) (ei_last _ _ _ _ J1)) as [X|(X & Y & Z)]; [exfalso|exact Z].
        assert (Cn : Cnt (e_ids e1) (items e1 (D ++ [PType (RPtr a)]) ++ [PInt [] 0 0])).
        { destruct (EI_Cnt _ _ J1) as [C1 C2 C3 C4 C5 C6]. constructor.
          - apply numbered_items_other; [exact C1|discriminate].
          - intros r Hr. apply in_app_or in Hr as [Hr|[Hr|[]]]; [now apply C2|discriminate].
          - intros r v k Hr. apply in_app_or in Hr as [Hr|[Hr|[]]]; [eapply C3; exact Hr|discriminate].
          - intros x. rewrite ptags_app. cbn [ptags flat_map]. rewrite !app_nil_r. apply C4.
          - intros q Hq. apply in_app_or in Hq as [Hq|[<-|[]]]; [now apply C5|discriminate].
          - rewrite ints_app, I1. pose proof (ei_ints _ _ _ _ J) as Y. unfold ints at 2. cbn [filter length].
            assert (A1 : (ntypes (D ++ [PType (RPtr a)]) <= length h)%nat); [|rewrite ntypes_app in A1; unfold ntypes at 2 in A1; cbn [filter length] in A1; lia].
            rewrite <- ptypes_length. pose proof (numbered_NoDup _ _ C1) as Nd. unfold items in Nd. apply NoDup_bounded.
            + assert (G : ptypes ((D ++ [PType (RPtr a)]) ++ e_pending e1) = ptypes (D ++ [PType (RPtr a)]) ++ ptypes (e_pending e1)) by apply flat_map_app. rewrite G in Nd. now apply NoDup_left in Nd.
            + intros r Hr. apply ptypes_In in Hr. apply C2. unfold items. apply in_or_app. now left. }
        apply count_bound in Cn. rewrite app_length in Cn. cbn [length] in Cn. pose proof (ei_last _ _ _ _ J1) as L1. unfold u32 in X. rewrite wrapu_id in X by (unfold in_u; lia). lia.
    - destruct (add_string_total (e_strings e1) [] (fun x => x)) as (so & b & ->). cbn [bind]. unfold deflateDeclTag. destruct (ReplaceDeclTags o).
      + destruct (add_string_total (e_strings (with_strings e1 b)) decl_tag_name) as (so2 & b2 & ->); [unfold decl_tag_name; cbn; intuition discriminate|]. cbn. eauto.
      + pose proof (ei_owner _ _ _ _ _ _ _ J Hp) as Hv. pose proof (V1 _ Hv) as Hv1. destruct (Kn _ Hv1) as (i & Ei). change (e_id (with_strings e1 b) r) with (e_id e1 r). rewrite Ei. cbn [bind].
        assert (Nv : ~ In 0 v).
        { assert (Tv : In (v, k) (tags_at h r)).
          { assert (X : In (v, k) (ptags r (items e D))) by (unfold ptags; apply in_flat_map; exists (PTag r v k); split; [exact Hp|]; destruct (ref_eq_dec r r); [now left|contradiction]).
            rewrite (ei_tags _ _ _ _ J) in X. destruct (ref_in r (e_visited e)); [exact X|destruct X]. }
          unfold tags_at in Tv. destruct (deref h r) as [n|] eqn:Dn; [|destruct Tv].
          destruct (ei_vids _ _ _ _ J _ Hv) as [->|(j & Hj)]; [discriminate Dn|]. apply (ei_ids _ _ _ _ J) in Hj as (_ & Hj). apply nth_error_In in Hj. apply (ei_root _ _ _ _ J) in Hj as (_ & t0 & H0 & R0).
          destruct (Hfine _ _ _ H0 R0 Dn) as (_ & _ & G3). rewrite Forall_forall in G3. apply G3. eapply tags_strings. exact Tv. }
        destruct (add_string_total (e_strings (with_strings e1 b)) v Nv) as (so2 & b2 & ->). cbn. eauto.
    - unfold deflateNode. cbn [type_name]. destruct (add_string_total (e_strings e1) s (Nz _ _ _ Hp)) as (so & b & ->). cbn. eauto.
  Qed.
  Lemma pending_total : forall fuel e D, EI h roots e D -> (forall s z en, In (PInt s z en) (items e D) -> ~ In 0 s) -> (bound h - length D < fuel)%nat ->
    exists x, deflatePending fuel o h e = Some (Ok x).
  Proof.
    induction fuel as [|f IH]; intros e D J Nz B; [lia|]. cbn [deflatePending]. destruct (e_pending e) as [|p rest] eqn:P; [eauto|].
    fold (bump e rest). destruct (shift_fine e D p rest J P) as (e1 & E1). rewrite E1. destruct (type_total e D p rest e1 J Nz P E1) as ([e2 r] & T). rewrite T.
    destruct (write_step o h roots Hroots Huser e D p rest e1 e2 r J P E1 T) as (J2 & _ & _ & _ & _ & Q2 & _).
    assert (Lb : (length D < bound h)%nat).
    { pose proof (EI_bound h roots Hroots _ _ J) as L. unfold items in L. rewrite app_length, P in L. cbn [length] in L. lia. }
    destruct (IH e2 (D ++ [p]) J2) as ([e3 rs] & E3); [|rewrite app_length; cbn [length]; lia|rewrite E3; eauto].
    intros s z en Hs. apply Q2 in Hs as [Hs|Hs]; [eapply Nz; exact Hs|]. unfold item_ints in Hs. destruct p as [t| | |]; try discriminate Hs. destruct (deref h t) as [n|]; [|discriminate Hs].
    unfold new_int in Hs. destruct n; try discriminate Hs. destruct ((size =? 8) && ReplaceEnum64 o); [|discriminate Hs]. injection Hs as <- _ _. unfold enum64_name. cbn. intuition discriminate.
  Qed.
End Total.
