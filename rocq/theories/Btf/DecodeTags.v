(** Decl tags, determinism of the specification, and other lemmas for the decoder. *)
From Coq Require Import ZArith List Lia Bool Sorting.Sorted.
From Verif.Base Require Import GoInt ListExtra.
From Verif.Btf Require Import Wire WireSpec WireProof Types TypesSpec Decode DecodeSpec DecodeRec.
Import ListNotations.
Open Scope Z_scope.

Lemma rec_at_record recs id r : rec_at recs id = Some r <-> record recs id r.
Proof.
  unfold rec_at, record. destruct (Z.ltb_spec id 1); [split; [discriminate|lia]|]. replace (Z.to_nat (id - 1)) with (Z.to_nat id - 1)%nat by lia. tauto.
Qed.
Lemma record_fun recs id r r' : record recs id r -> record recs id r' -> r = r'.
Proof. rewrite <- !rec_at_record. congruence. Qed.
Lemma record_In recs id r : record recs id r -> In r recs.
Proof. intros (_ & E). eapply nth_error_In; eassumption. Qed.

Lemma decl_tags_from_spec recs id : forall i t, In t (decl_tags_from i recs id) <->
  exists r, i <= t /\ nth_error recs (Z.to_nat (t - i)) = Some r /\ kind r = 17 /\ size_or_type r = id.
Proof.
  induction recs as [|r recs IH]; intros i t; cbn [decl_tags_from].
  - split; [intros []|]. intros (r & _ & E & _). destruct (Z.to_nat (t - i)); discriminate E.
  - rewrite in_app_iff, IH, Kind_field. change (field (Info (hdr r)) 24 5) with (kind r). change (SizeType (hdr r)) with (size_or_type r). unfold kindDeclTag. split.
    + intros [H|(r' & L & E & K)].
      * destruct (Z.eqb_spec (kind r) 17), (Z.eqb_spec (size_or_type r) id); cbn in H; try contradiction. destruct H as [<-|[]].
        exists r. rewrite Z.sub_diag. cbn. repeat split; try assumption; lia.
      * exists r'. split; [lia|]. replace (Z.to_nat (t - i)) with (S (Z.to_nat (t - (i + 1)))) by lia. cbn. tauto.
    + intros (r' & L & E & K & T). destruct (Z.eq_dec t i) as [->|N].
      * rewrite Z.sub_diag in E. cbn in E. inversion E; subst r'. left. rewrite K, T, !Z.eqb_refl. now left.
      * right. exists r'. split; [lia|]. replace (Z.to_nat (t - i)) with (S (Z.to_nat (t - (i + 1)))) in E by lia. cbn in E. tauto.
Qed.
Lemma declTags_spec recs id t : In t (declTags recs id) <-> tags_type recs id t.
Proof.
  unfold declTags, tags_type. rewrite decl_tags_from_spec. unfold record. split; intros (r & H); exists r; tauto.
Qed.
Lemma decl_tags_sorted recs id : forall i, StronglySorted Z.lt (decl_tags_from i recs id).
Proof.
  induction recs as [|r recs IH]; intros i; cbn [decl_tags_from]; [constructor|]. destruct (_ && _); [|apply IH]. cbn. constructor; [apply IH|].
  apply Forall_forall. intros t Ht. apply decl_tags_from_spec in Ht as (r' & L & _). lia.
Qed.
Lemma sorted_ext l : forall l', StronglySorted Z.lt l -> StronglySorted Z.lt l' -> (forall x, In x l <-> In x l') -> l = l'.
Proof.
  induction l as [|a l IH]; intros [|b l'] S1 S2 E; try reflexivity.
  - destruct (proj2 (E b)). now left.
  - destruct (proj1 (E a)). now left.
  - inversion S1 as [|? ? S1' F1]; inversion S2 as [|? ? S2' F2]; subst. rewrite Forall_forall in F1, F2.
    assert (a = b). { destruct (proj1 (E a) (or_introl eq_refl)) as [X|X]; [congruence|]. destruct (proj2 (E b) (or_introl eq_refl)) as [Y|Y]; [congruence|].
      apply F1 in Y. apply F2 in X. lia. }
    subst b. f_equal. apply IH; [assumption|assumption|]. intros x. split; intros H.
    + destruct (proj1 (E x) (or_intror H)) as [<-|]; [|assumption]. apply F1 in H. lia.
    + destruct (proj2 (E x) (or_intror H)) as [<-|]; [|assumption]. apply F2 in H. lia.
Qed.

(** the value and index of the decl tag [t] *)
Definition tag_value (nm : Z -> option str) (recs : list wrec) (t : Z) (vi : str * Z) : Prop :=
  exists r i, record recs t r /\ nm (name_off r) = Some (fst vi) /\ aux r = [i] /\ snd vi = signed32 i.
Lemma tag_value_fun nm recs t v v' : tag_value nm recs t v -> tag_value nm recs t v' -> v = v'.
Proof.
  intros (r & i & R & N & A & I) (r' & i' & R' & N' & A' & I'). pose proof (record_fun _ _ _ _ R R'). subst r'. destruct v, v'. cbn in *. congruence.
Qed.
Lemma tag_list_spec nm recs id l : tag_list nm recs id l <-> Forall2 (tag_value nm recs) (declTags recs id) l.
Proof.
  split.
  - intros (ts & I & S & F). replace (declTags recs id) with ts; [exact F|]. apply sorted_ext; [exact S|apply decl_tags_sorted|]. intros x. rewrite I. symmetry. apply declTags_spec.
  - intros F. exists (declTags recs id). split; [apply declTags_spec|]. split; [apply decl_tags_sorted|exact F].
Qed.
Lemma Forall2_fun {A B} (R : A -> B -> Prop) l m m' : (forall a b b', R a b -> R a b' -> b = b') -> Forall2 R l m -> Forall2 R l m' -> m = m'.
Proof. intros H F. revert m'. induction F; intros m' F'; inversion F'; subst; f_equal; eauto. Qed.
Lemma tag_list_fun nm recs id l l' : tag_list nm recs id l -> tag_list nm recs id l' -> l = l'.
Proof. rewrite !tag_list_spec. apply Forall2_fun. apply tag_value_fun. Qed.

Lemma int_bitfield_fun recs t o b o' b' : int_bitfield recs t o b -> int_bitfield recs t o' b' -> o = o' /\ b = b'.
Proof.
  intros (r & raw & R & _ & A & -> & -> & _) (r' & raw' & R' & _ & A' & -> & -> & _). pose proof (record_fun _ _ _ _ R R'). subst r'. rewrite A in A'. inversion A'. split; reflexivity.
Qed.
Lemma member_of_fun nm recs f flag w m m' : member_of nm recs f flag w m -> member_of nm recs f flag w m' -> m = m'.
Proof.
  destruct w as [[no ty] off]. intros (A1 & A2 & A3 & A4) (B1 & B2 & B3 & B4). destruct m, m'. cbn in *.
  assert (m_offset = m_offset0 /\ m_bits = m_bits0) as (-> & ->); [|congruence].
  destruct flag; [destruct A4, B4; split; congruence|].
  destruct A4 as [(o & b & I & A4 & A5)|(I & A4 & A5)], B4 as [(o' & b' & I' & B4 & B5)|(I' & B4 & B5)].
  - destruct (int_bitfield_fun _ _ _ _ _ _ I I') as (-> & ->). split; congruence.
  - destruct (I' _ _ I).
  - destruct (I _ _ I').
  - split; congruence.
Qed.
Lemma enum_of_fun nm g w m m' : enum_of nm g w m -> enum_of nm g w m' -> m = m'.
Proof. intros (A1 & A2) (B1 & B2). destruct m, m'. cbn in *. congruence. Qed.
Lemma enum64_of_fun nm w m m' : enum64_of nm w m -> enum64_of nm w m' -> m = m'.
Proof. destruct w as [[a b] c]. intros (A1 & A2) (B1 & B2). destruct m, m'. cbn in *. congruence. Qed.
Lemma param_of_fun nm f w m m' : param_of nm f w m -> param_of nm f w m' -> m = m'.
Proof. intros (A1 & A2) (B1 & B2). destruct m, m'. cbn in *. congruence. Qed.
Lemma secinfo_of_fun f w m m' : secinfo_of f w m -> secinfo_of f w m' -> m = m'.
Proof. destruct w as [[a b] c]. unfold secinfo_of. congruence. Qed.

Ltac same_aux := match goal with
  | A : aux ?r = flat3 ?w, B : aux ?r = flat3 ?w' |- _ => assert (w = w') by (apply flat3_inj; congruence); subst w'; clear B
  | A : aux ?r = flat2 ?w, B : aux ?r = flat2 ?w' |- _ => assert (w = w') by (apply flat2_inj; congruence); subst w'; clear B
  | A : aux ?r = [_], B : aux ?r = [_] |- _ => rewrite A in B; inversion B; subst; clear B
  | A : aux ?r = [_; _; _], B : aux ?r = [_; _; _] |- _ => rewrite A in B; inversion B; subst; clear B
  end.
Lemma describes_fun nm recs f r n ids n' ids' : describes nm recs f r n ids -> describes nm recs f r n' ids' -> n = n' /\ ids = ids'.
Proof.
  intros D D'. inversion D; inversion D'; try congruence; subst;
    repeat match goal with A : nm ?x = Some _, B : nm ?x = Some _ |- _ => rewrite A in B; inversion B; subst; clear B end;
    try same_aux; try (split; reflexivity);
    match goal with A : Forall2 ?R ?ws ?m, B : Forall2 ?R ?ws ?m' |- _ => replace m' with m; [split; reflexivity|]; refine (Forall2_fun R ws m m' _ A B); intros ? ? ? end;
    try apply member_of_fun; try apply enum_of_fun; try apply enum64_of_fun; try apply param_of_fun; try apply secinfo_of_fun.
Qed.
Lemma describes_ids nm recs f f' r n ids n' ids' : describes nm recs f r n ids -> describes nm recs f' r n' ids' -> ids = ids'.
Proof.
  intros D D'. destruct (describes_plan nm recs r f n ids D) as (p & P & S), (describes_plan nm recs r f' n' ids' D') as (p' & P' & S').
  apply map_Some_inj. congruence.
Qed.
Lemma Forall2_len {A B} (R : A -> B -> Prop) l m : Forall2 R l m -> length l = length m.
Proof. induction 1; cbn; congruence. Qed.
Lemma describes_taggable nm recs f f' r n ids n' ids' np i : describes nm recs f r n ids -> describes nm recs f' r n' ids' -> taggable np n i -> taggable np n' i.
Proof.
  intros D D'. inversion D; inversion D'; try congruence; subst; try same_aux; cbn [taggable]; auto;
    match goal with A : Forall2 _ ?ws ?m, B : Forall2 _ ?ws ?m' |- _ => rewrite <- (Forall2_len _ _ _ A), <- (Forall2_len _ _ _ B); auto end.
Qed.
Lemma Forall2_imp {A B} (R S : A -> B -> Prop) l m : (forall a b, In a l -> R a b -> S a b) -> Forall2 R l m -> Forall2 S l m.
Proof. apply Forall2_in_l. Qed.
Lemma describes_ext nm recs f f' r n ids : (forall t, In t ids -> f t = f' t) -> describes nm recs f r n ids -> describes nm recs f' r n ids.
Proof.
  intros H D. inversion D; subst; rewrite ?H by (cbn; tauto); try (econstructor; eauto; fail).
  - eapply D_struct; eauto. eapply Forall2_imp; [|eassumption]. intros [[a b] c] m I (X1 & X2 & X3). split; [exact X1|]. split; [|exact X3]. rewrite X2. apply H. apply in_map_iff. exists (a, b, c). auto.
  - eapply D_union; eauto. eapply Forall2_imp; [|eassumption]. intros [[a b] c] m I (X1 & X2 & X3). split; [exact X1|]. split; [|exact X3]. rewrite X2. apply H. apply in_map_iff. exists (a, b, c). auto.
  - rewrite H by (apply in_or_app; right; now left). eapply D_proto; eauto. eapply Forall2_imp; [|eassumption]. intros w m I (X1 & X2). split; [exact X1|]. rewrite X2. apply H. apply in_or_app. left. now apply in_map.
  - eapply D_datasec; eauto. eapply Forall2_imp; [|eassumption]. intros [[a b] c] m I X. unfold secinfo_of in *. rewrite X. rewrite H; [reflexivity|]. apply in_map_iff. exists (a, b, c). auto.
Qed.

(** the legacy bitfield table computed from the records *)
Definition leg0 (recs : list wrec) (t : Z) : option (Z * Z) := match rec_at recs t with Some r => legacy_of r | None => None end.
Lemma legacy_spec recs t : Forall rec_ok recs -> match leg0 recs t with Some (o, b) => int_bitfield recs t o b | None => forall o b, ~ int_bitfield recs t o b end.
Proof.
  intros Hok. unfold leg0. destruct (rec_at recs t) as [r|] eqn:E.
  - apply rec_at_record in E. assert (R : rec_ok r) by (rewrite Forall_forall in Hok; apply Hok; eapply record_In; eassumption).
    unfold legacy_of. rewrite Kind_field. change (field (Info (hdr r)) 24 5) with (kind r). unfold kindInt. destruct (Z.eqb_spec (kind r) 1) as [K|K].
    + assert (LA : 4 * Z.of_nat (length (aux r)) = 4) by (apply rec_aux_length; [exact R|tbl]). destruct (aux r) as [|raw [|]] eqn:Ea; cbn [length] in LA; try lia.
      rewrite off_field, bits_field. change (SizeType (hdr r)) with (size_or_type r).
      destruct ((field raw 16 8 >? 0) || negb (field raw 0 8 / 8 =? size_or_type r)) eqn:C.
      * exists r, raw. split; [exact E|]. split; [exact K|]. split; [exact Ea|]. split; [reflexivity|]. split; [reflexivity|]. apply orb_true_iff in C as [C|C]; [left; lia|right]. apply negb_true_iff, Z.eqb_neq in C. exact C.
      * intros o b (r' & raw' & R' & _ & A' & -> & -> & X). pose proof (record_fun _ _ _ _ E R'). subst r'. rewrite Ea in A'. inversion A'; subst raw'.
        apply orb_false_iff in C as (C1 & C2). apply negb_false_iff, Z.eqb_eq in C2. destruct X; [lia|contradiction].
    + intros o b (r' & raw' & R' & K' & _). pose proof (record_fun _ _ _ _ E R'). subst r'. contradiction.
  - intros o b (r' & raw' & R' & _). apply rec_at_record in R'. congruence.
Qed.

(** *** applying tags one after the other *)
Definition untagged (n : node) : Prop :=
  match n with
  | NStruct _ _ ms tags | NUnion _ _ ms tags => tags = [] /\ Forall (fun m => m_tags m = []) ms
  | NTypedef _ _ tags | NVar _ _ _ tags => tags = []
  | NFunc _ _ _ tags pt => tags = [] /\ pt = []
  | _ => True
  end.
Lemma describes_untagged nm recs f r n ids : describes nm recs f r n ids -> untagged n.
Proof.
  intros D. inversion D; subst; cbn; auto; split; auto;
  match goal with F : Forall2 (member_of _ _ _ _) _ _ |- _ => clear -F; induction F as [|[[a b] c] m ws ms (_ & _ & X & _) F IH]; constructor; auto end.
Qed.
Lemma tag_members_nil : forall ms i, Forall (fun m => m_tags m = []) ms -> tag_members i [] ms = ms.
Proof. induction ms as [|[] ms IH]; intros i F; [reflexivity|]. inversion F; subst. cbn in *. subst. now rewrite IH. Qed.
Lemma attach_nil k n : untagged n -> attach k [] n = n.
Proof.
  destruct n; cbn; try reflexivity; intros H.
  - destruct H as (-> & F). now rewrite tag_members_nil.
  - destruct H as (-> & F). now rewrite tag_members_nil.
  - now subst.
  - destruct H as (-> & ->). reflexivity.
  - now subst.
Qed.
Lemma component_snoc i l v j : component i (l ++ [(v, j)]) = component i l ++ (if j =? i then [v] else []).
Proof. unfold component. rewrite filter_app, map_app. cbn [filter snd]. destruct (j =? i); reflexivity. Qed.
Lemma tag_members_snoc l v j : forall ms i, tag_members i (l ++ [(v, j)]) ms =
  (if (i <=? j) && (j <? i + Z.of_nat (length ms)) then update_nth (tag_members i l ms) (Z.to_nat (j - i)) (tag_member v) else tag_members i l ms).
Proof.
  induction ms as [|m ms IH]; intros i; cbn [tag_members length].
  - destruct (_ && _); [|reflexivity]. destruct (Z.to_nat (j - i)); reflexivity.
  - rewrite component_snoc, IH. destruct (Z.eqb_spec j i) as [->|N].
    + replace (i + 1 <=? i) with false by lia. replace (i <=? i) with true by lia. replace (i <? i + Z.of_nat (S (length ms))) with true by lia.
      rewrite Z.sub_diag. reflexivity.
    + rewrite app_nil_r. replace (i <=? j) with (i + 1 <=? j) by lia. replace (i + Z.of_nat (S (length ms))) with (i + 1 + Z.of_nat (length ms)) by lia.
      destruct ((i + 1 <=? j) && (j <? i + 1 + Z.of_nat (length ms))) eqn:C; [|reflexivity].
      replace (Z.to_nat (j - i)) with (S (Z.to_nat (j - (i + 1)))) by lia. reflexivity.
Qed.
Lemma tag_members_length l : forall ms i, length (tag_members i l ms) = length ms.
Proof. induction ms; intros; cbn; auto. Qed.
Lemma params_snoc l v j k : forall s, map (fun i => component (Z.of_nat i) (l ++ [(v, j)])) (seq s k) =
  (if (Z.of_nat s <=? j) && (j <? Z.of_nat (s + k)) then update_nth (map (fun i => component (Z.of_nat i) l) (seq s k)) (Z.to_nat (j - Z.of_nat s)) (fun ts => ts ++ [v])
   else map (fun i => component (Z.of_nat i) l) (seq s k)).
Proof.
  induction k as [|k IH]; intros s; cbn [seq map].
  - destruct (_ && _); [|reflexivity]. destruct (Z.to_nat (j - Z.of_nat s)); reflexivity.
  - rewrite component_snoc, IH. destruct (Z.eqb_spec j (Z.of_nat s)) as [->|N].
    + replace (Z.of_nat (S s) <=? Z.of_nat s) with false by lia. replace (Z.of_nat s <=? Z.of_nat s) with true by lia. replace (Z.of_nat s <? Z.of_nat (s + S k)) with true by lia.
      rewrite Z.sub_diag. reflexivity.
    + rewrite app_nil_r. replace (Z.of_nat s <=? j) with (Z.of_nat (S s) <=? j) by lia. replace (Z.of_nat (s + S k)) with (Z.of_nat (S s + k)) by lia.
      destruct ((Z.of_nat (S s) <=? j) && (j <? Z.of_nat (S s + k))) eqn:C; [|reflexivity].
      replace (Z.to_nat (j - Z.of_nat s)) with (S (Z.to_nat (j - Z.of_nat (S s)))) by lia. reflexivity.
Qed.
Lemma component_params k : forall s, map (fun i => component (Z.of_nat i) []) (seq s k) = map (fun _ : nat => []) (seq s k).
Proof. intros s. apply map_ext. reflexivity. Qed.
Lemma map_const {A B C} (c : C) (l : list A) (m : list B) : length l = length m -> map (fun _ => c) l = map (fun _ => c) m.
Proof. revert m. induction l; intros [|]; cbn; intros H; try discriminate; f_equal. auto. Qed.

Lemma apply_attach h np n l v i : taggable np n i ->
  (match n with NFunc _ t _ _ _ => exists ret ps, deref h t = Some (NFuncProto ret ps) /\ np = Some (length ps) | _ => True end) ->
  apply_tag h (attach (match np with Some k => k | None => 0%nat end) l n) v i = Some (attach (match np with Some k => k | None => 0%nat end) (l ++ [(v, i)]) n).
Proof.
  destruct n; cbn [taggable]; try contradiction; cbn [attach apply_tag].
  - intros B _. unfold tag_composite. rewrite tag_members_length, component_snoc. rewrite tag_members_snoc. rewrite Z.sub_0_r.
    destruct (Z.geb_spec i 0).
    + destruct (Z.geb_spec i (Z.of_nat (length ms))); [lia|]. replace (0 <=? i) with true by lia. replace (i <? 0 + Z.of_nat (length ms)) with true by lia.
      destruct (Z.eqb_spec i (-1)); [lia|]. now rewrite app_nil_r.
    + assert (i = -1) by lia. subst i. reflexivity.
  - intros B _. unfold tag_composite. rewrite tag_members_length, component_snoc. rewrite tag_members_snoc. rewrite Z.sub_0_r.
    destruct (Z.geb_spec i 0).
    + destruct (Z.geb_spec i (Z.of_nat (length ms))); [lia|]. replace (0 <=? i) with true by lia. replace (i <? 0 + Z.of_nat (length ms)) with true by lia.
      destruct (Z.eqb_spec i (-1)); [lia|]. now rewrite app_nil_r.
    + assert (i = -1) by lia. subst i. reflexivity.
  - intros -> _. now rewrite component_snoc.
  - intros B (ret & ps & D & ->). rewrite D.
    assert (Ep : (fun pt => match pt with [] => map (fun _ => []) ps | _ => pt end) (match l with [] => [] | _ => map (fun i => component (Z.of_nat i) l) (seq 0 (length ps)) end)
      = map (fun i => component (Z.of_nat i) l) (seq 0 (length ps))).
    { destruct l; [rewrite component_params; apply map_const; now rewrite seq_length|]. destruct (map _ _) eqn:X; [|reflexivity]. destruct ps; [reflexivity|discriminate X]. }
    cbv beta in Ep. rewrite Ep, component_snoc.
    replace (match l ++ [(v, i)] with [] => [] | _ => map (fun i0 => component (Z.of_nat i0) (l ++ [(v, i)])) (seq 0 (length ps)) end)
      with (map (fun i0 => component (Z.of_nat i0) (l ++ [(v, i)])) (seq 0 (length ps))) by (destruct l; reflexivity).
    rewrite params_snoc. cbn [Nat.add Z.of_nat]. rewrite Z.sub_0_r.
    destruct (Z.geb_spec i 0).
    + destruct (Z.geb_spec i (Z.of_nat (length ps))); [lia|]. replace (0 <=? i) with true by lia. replace (i <? Z.of_nat (length ps)) with true by lia.
      destruct (Z.eqb_spec i (-1)); [lia|]. now rewrite app_nil_r.
    + assert (i = -1) by lia. subst i. reflexivity.
  - intros -> _. now rewrite component_snoc.
Qed.

(** a successful application: the tag is allowed, and the shape of the type does not change *)
Definition same_shape (n n' : node) : Prop :=
  match n, n' with
  | NStruct s _ ms _, NStruct s' _ ms' _ | NUnion s _ ms _, NUnion s' _ ms' _ => length ms = length ms' /\ s = s'
  | NTypedef s _ _, NTypedef s' _ _ | NVar s _ _ _, NVar s' _ _ _ => s = s'
  | NFunc s t _ _ _, NFunc s' t' _ _ _ => t = t' /\ s = s'
  | _, _ => False
  end.
Lemma update_nth_length {A} (f : A -> A) : forall l i, length (update_nth l i f) = length l.
Proof. induction l; intros [|i]; cbn; auto. Qed.
Lemma apply_taggable h n v i n' : apply_tag h n v i = Some n' -> same_shape n n' /\
  forall np, (match n with NFunc _ t _ _ _ => forall ret ps, deref h t = Some (NFuncProto ret ps) -> exists k, np = Some k /\ (length ps <= k)%nat | _ => True end) -> taggable np n i.
Proof.
  destruct n; cbn [apply_tag]; try discriminate.
  - unfold tag_composite. destruct (Z.geb_spec i 0); [destruct (Z.geb_spec i (Z.of_nat (length ms))); [discriminate|]|destruct (Z.eqb_spec i (-1)); [|discriminate]];
      intros E; inversion E; subst n'; cbn [same_shape taggable]; rewrite ?update_nth_length; (split; [auto|lia]).
  - unfold tag_composite. destruct (Z.geb_spec i 0); [destruct (Z.geb_spec i (Z.of_nat (length ms))); [discriminate|]|destruct (Z.eqb_spec i (-1)); [|discriminate]];
      intros E; inversion E; subst n'; cbn [same_shape taggable]; rewrite ?update_nth_length; (split; [auto|lia]).
  - destruct (Z.eqb_spec i (-1)); [|discriminate]. intros E; inversion E; subst. cbn. auto.
  - destruct (deref h t) as [[]|]; try discriminate.
    destruct (Z.geb_spec i 0); [destruct (Z.geb_spec i (Z.of_nat (length params))); [discriminate|]|destruct (Z.eqb_spec i (-1)); [|discriminate]];
      intros E; inversion E; subst n'; cbn [same_shape taggable]; (split; [auto|]); intros np H1; destruct (H1 _ _ eq_refl) as (k & -> & L); lia.
  - destruct (Z.eqb_spec i (-1)); [|discriminate]. intros E; inversion E; subst. cbn. auto.
Qed.
Lemma same_shape_taggable np n n' i : same_shape n n' -> taggable np n' i -> taggable np n i.
Proof. destruct n, n'; cbn; try contradiction; try (intros (-> & _)); auto. Qed.
Lemma same_shape_trans a b c : same_shape a b -> same_shape b c -> same_shape a c.
Proof. destruct a, b; cbn; try contradiction; destruct c; cbn; try contradiction; try congruence; intros (-> & ->); auto. Qed.
