(** Decoding what the encoder has written gives back the same graph.  Here: from the records to the graph. *)
From Coq Require Import ZArith List Lia Bool Sorting.Sorted.
From Verif.Base Require Import GoInt ListExtra.
From Verif.Btf Require Import Strings Wire WireSpec WireProof PropsWire Types TypesSpec TypesProof Decode DecodeSpec DecodeRec DecodeTags DecodeProof PropsDecode.
From Verif.Btf Require Import Encode EncodeSpec EncodeProof EncodeRun EncodeImage EncodeWire.
Import ListNotations.
Open Scope Z_scope.

(** ** decl tags: from the components to the list and back *)
Lemma component_app i a b : component i (a ++ b) = component i a ++ component i b.
Proof. unfold component. now rewrite filter_app', map_app. Qed.
Lemma component_all i k l : component i (map (fun t => (t, k)) l) = if k =? i then l else [].
Proof.
  unfold component. induction l as [|x l IH]; [destruct (k =? i); reflexivity|]. cbn [map filter snd]. destruct (k =? i); [|exact IH]. cbn [map fst]. now rewrite IH.
Qed.
Lemma component_members c : forall ms i, component c (member_tags i ms) = if c <? i then [] else match nth_error ms (Z.to_nat (c - i)) with Some m => m_tags m | None => [] end.
Proof.
  induction ms as [|m ms IH]; intros i; cbn [member_tags].
  - destruct (c <? i); [reflexivity|]. destruct (Z.to_nat (c - i)); reflexivity.
  - rewrite component_app, component_all, IH. destruct (Z.ltb_spec c i), (Z.ltb_spec c (i + 1)), (Z.eqb_spec i c); try lia; try reflexivity.
    + subst. rewrite Z.sub_diag. cbn. now rewrite app_nil_r.
    + replace (Z.to_nat (c - i)) with (S (Z.to_nat (c - (i + 1)))) by lia. reflexivity.
Qed.
Lemma component_params' c : forall ps pt i, component c (param_tags i ps pt) =
  if (c <? i) || (i + Z.of_nat (length ps) <=? c) then [] else nth (Z.to_nat (c - i)) pt [].
Proof.
  induction ps as [|p ps IH]; intros pt i; cbn [param_tags length].
  - destruct (Z.ltb_spec c i), (Z.leb_spec (i + Z.of_nat 0) c); try reflexivity; lia.
  - destruct pt as [|t pt].
    + destruct (_ || _); [reflexivity|]. destruct (Z.to_nat (c - i)); reflexivity.
    + rewrite component_app, component_all, IH.
      destruct (Z.ltb_spec c i), (Z.ltb_spec c (i + 1)), (Z.eqb_spec i c), (Z.leb_spec (i + Z.of_nat (S (length ps))) c), (Z.leb_spec (i + 1 + Z.of_nat (length ps)) c); try lia; try reflexivity; cbn [orb app].
      * subst. rewrite Z.sub_diag. cbn. now rewrite app_nil_r.
      * replace (Z.to_nat (c - i)) with (S (Z.to_nat (c - (i + 1)))) by lia. reflexivity.
Qed.
Lemma member_tags_range : forall ms i v k, In (v, k) (member_tags i ms) -> i <= k < i + Z.of_nat (length ms).
Proof.
  induction ms as [|m ms IH]; intros i v k H; [destruct H|]. cbn [member_tags length] in *. apply in_app_or in H as [H|H]; [|apply IH in H; lia].
  apply in_map_iff in H as (t & E & _). injection E as <- <-. lia.
Qed.
Lemma param_tags_range : forall ps pt i v k, In (v, k) (param_tags i ps pt) -> i <= k < i + Z.of_nat (length ps).
Proof.
  induction ps as [|m ms IH]; intros [|t pt] i v k H; try (destruct H; fail). cbn [param_tags length] in *. apply in_app_or in H as [H|H]; [|apply IH in H; lia].
  apply in_map_iff in H as (t0 & E & _). injection E as <- <-. lia.
Qed.
Lemma tag_members_bare g l : forall ms i, (forall k m, nth_error ms k = Some m -> component (i + Z.of_nat k) l = m_tags m) ->
  tag_members i l (map (bare_member g) ms) = map (fun m => mkMember (m_name m) (g (m_type m)) (m_offset m) (m_bits m) (m_tags m)) ms.
Proof.
  induction ms as [|m ms IH]; intros i H; [reflexivity|]. cbn [map tag_members]. f_equal.
  - unfold bare_member at 1 2 3 4. cbn [m_name m_type m_offset m_bits]. f_equal. rewrite <- (H 0%nat m eq_refl). f_equal. lia.
  - apply IH. intros k m' E. rewrite <- (H (S k) m' E). f_equal. lia.
Qed.
Lemma composite_tags g ms tags : let l := member_tags 0 ms ++ map (fun t => (t, -1)) tags in
  tag_members 0 l (map (bare_member g) ms) = map (fun m => mkMember (m_name m) (g (m_type m)) (m_offset m) (m_bits m) (m_tags m)) ms /\ component (-1) l = tags.
Proof.
  cbv zeta. split.
  - apply tag_members_bare. intros k m E. rewrite component_app, component_all, component_members. destruct (Z.eqb_spec (-1) (0 + Z.of_nat k)); [lia|]. destruct (Z.ltb_spec (0 + Z.of_nat k) 0); [lia|].
    replace (Z.to_nat _) with k by lia. rewrite E. apply app_nil_r.
  - rewrite component_app, component_all, component_members. reflexivity.
Qed.
(** attaching the tags of a type to the type without its tags *)
Lemma attach_bare h g n np : user_type n -> (forall s t l tags pt, n = NFunc s t l tags pt -> exists ret ps, deref h t = Some (NFuncProto ret ps) /\ np = length ps) ->
  match n with
  | NFunc s t l tags pt => exists pt', attach np (decl_tags h n) (bare g n) = NFunc s (g t) l tags pt' /\ same_ptags np pt pt'
  | _ => attach np (decl_tags h n) (bare g n) = rename g n
  end.
Proof.
  intros U H. destruct n; try reflexivity; cbn [bare attach decl_tags rename].
  - destruct (composite_tags g ms tags) as (-> & ->). reflexivity.
  - destruct (composite_tags g ms tags) as (-> & ->). reflexivity.
  - now rewrite component_all.
  - destruct (H _ _ _ _ _ eq_refl) as (ret & ps & D & ->). rewrite D. set (l := param_tags 0 ps ptags ++ map (fun t => (t, -1)) tags).
    assert (E1 : component (-1) l = tags) by (unfold l; rewrite component_app, component_all, component_params'; reflexivity). rewrite E1. eexists. split; [reflexivity|].
    intros i Hi. assert (E2 : component (Z.of_nat i) l = nth i ptags []).
    { unfold l. rewrite component_app, component_all, component_params'. destruct (Z.eqb_spec (-1) (Z.of_nat i)); [lia|]. destruct (Z.ltb_spec (Z.of_nat i) 0); [lia|]. destruct (Z.leb_spec (0 + Z.of_nat (length ps)) (Z.of_nat i)); [lia|].
      cbn [orb]. rewrite app_nil_r. f_equal. lia. }
    destruct l as [|x l']; [rewrite <- E2; destruct i; reflexivity|]. rewrite <- E2. rewrite (nth_indep _ _ (component (Z.of_nat 0) (x :: l'))) by (rewrite map_length, seq_length; exact Hi).
    rewrite (map_nth (fun i => component (Z.of_nat i) (x :: l'))), seq_nth by exact Hi. reflexivity.
  - now rewrite component_all.
Qed.
Lemma taggable_bare h g n : (forall s t l tags pt, n = NFunc s t l tags pt -> exists ret ps, deref h t = Some (NFuncProto ret ps)) ->
  forall v k, In (v, k) (decl_tags h n) -> taggable (match n with NFunc _ t _ _ _ => Some (params_of h t) | _ => None end) (bare g n) k.
Proof.
  assert (T : forall v k tags, In (v, k) (map (fun t : str => (t, -1)) tags) -> k = -1) by (intros v k tags H; apply in_map_iff in H as (t & E & _); congruence).
  intros Hf v k. destruct n; cbn [decl_tags bare taggable]; try (intros []; fail); intros H.
  - rewrite map_length. apply in_app_or in H as [H|H]; [apply member_tags_range in H; lia|apply T in H; lia].
  - rewrite map_length. apply in_app_or in H as [H|H]; [apply member_tags_range in H; lia|apply T in H; lia].
  - now apply T in H.
  - destruct (Hf _ _ _ _ _ eq_refl) as (ret & ps & D). unfold params_of. rewrite D in *. apply in_app_or in H as [H|H]; [apply param_tags_range in H; lia|apply T in H; lia].
  - now apply T in H.
Qed.

(** the positions of the tags of a type *)
Fixpoint tag_ids (i : Z) (x : ref) (F : list pitem) : list Z :=
  match F with
  | [] => []
  | PTag o _ _ :: F' => (if ref_eq_dec o x then [i] else []) ++ tag_ids (i + 1) x F'
  | _ :: F' => tag_ids (i + 1) x F'
  end.
Lemma tag_ids_spec x : forall F i t, In t (tag_ids i x F) <-> exists v k, i <= t /\ nth_error F (Z.to_nat (t - i)) = Some (PTag x v k).
Proof.
  induction F as [|p F IH]; intros i t.
  - split; [intros []|]. intros (v & k & _ & E). destruct (Z.to_nat (t - i)); discriminate E.
  - assert (Tl : In t (tag_ids (i + 1) x F) <-> exists v k, i + 1 <= t /\ nth_error (p :: F) (Z.to_nat (t - i)) = Some (PTag x v k)).
    { rewrite IH. split; intros (v & k & L & E); exists v, k; (split; [exact L|]); (replace (Z.to_nat (t - i)) with (S (Z.to_nat (t - (i + 1)))) in * by lia; exact E). }
    assert (Oth : (forall v k, p <> PTag x v k) -> (In t (tag_ids (i + 1) x F) <-> exists v k, i <= t /\ nth_error (p :: F) (Z.to_nat (t - i)) = Some (PTag x v k))).
    { intros Np. rewrite Tl. split; intros (v & k & L & E); exists v, k; (split; [|exact E]); [lia|]. destruct (Z.eq_dec t i) as [->|]; [|lia]. rewrite Z.sub_diag in E. cbn in E. injection E as E. destruct (Np _ _ E). }
    destruct p as [r|o v k|s z e|]; cbn [tag_ids]; try (apply Oth; discriminate). destruct (ref_eq_dec o x) as [->|Ne]; [|cbn [app]; apply Oth; congruence].
    cbn [app In]. rewrite Tl. split.
    + intros [<-|(v' & k' & L & E)]; [exists v, k; rewrite Z.sub_diag; split; [lia|reflexivity]|]. exists v', k'. split; [lia|exact E].
    + intros (v' & k' & L & E). destruct (Z.eq_dec t i) as [->|]; [now left|]. right. exists v', k'. split; [lia|exact E].
Qed.
Lemma tag_ids_sorted x : forall F i, StronglySorted Z.lt (tag_ids i x F).
Proof.
  induction F as [|p F IH]; intros i; [constructor|]. destruct p as [r|o v k|s z e|]; cbn [tag_ids]; try apply IH. destruct (ref_eq_dec o x); [|apply IH]. cbn [app]. constructor; [apply IH|].
  apply Forall_forall. intros t Ht. apply tag_ids_spec in Ht as (_ & _ & L & _). lia.
Qed.
Lemma tag_ids_tags x : forall F i (R : Z -> str * Z -> Prop), (forall t v k, i <= t -> nth_error F (Z.to_nat (t - i)) = Some (PTag x v k) -> R t (v, k)) -> Forall2 R (tag_ids i x F) (ptags x F).
Proof.
  induction F as [|p F IH]; intros i R H; [constructor|].
  assert (Tl : Forall2 R (tag_ids (i + 1) x F) (ptags x F)).
  { apply IH. intros t v k L E. apply H; [lia|]. replace (Z.to_nat (t - i)) with (S (Z.to_nat (t - (i + 1)))) by lia. exact E. }
  destruct p as [r|o v k|s z e|]; cbn [tag_ids ptags flat_map app]; try exact Tl. destruct (ref_eq_dec o x) as [->|]; [|exact Tl]. cbn [app]. constructor; [|exact Tl]. apply H; [lia|]. now rewrite Z.sub_diag.
Qed.

Lemma describes_kind nm recs f r n ids : describes nm recs f r n ids -> type_kind n = go_type (kind r).
Proof. intros D. inversion D; subst; cbn [type_kind]; match goal with K : kind r = _ |- _ => rewrite K; reflexivity end. Qed.
Lemma describes_proto nm recs f r ret ps ids : describes nm recs f r (NFuncProto ret ps) ids -> vlen r = Z.of_nat (length ps).
Proof. intros D. inversion D; subst. match goal with A : Z.of_nat _ = vlen _ |- _ => rewrite <- A end. match goal with A : Forall2 _ ?ws _ |- _ => apply Forall2_len in A; now rewrite A end. Qed.
Lemma describes_tag nm recs f r t v k ids : describes nm recs f r (NDeclTag t v k) ids -> kind r = 17.
Proof. intros D. now inversion D. Qed.
Lemma go_kind k c : c = go_type k -> c <> 6 -> k = c.
Proof. unfold go_type. destruct (Z.eqb_spec k 19); [congruence|auto]. Qed.
Ltac kinds_differ Ds K := exfalso; apply describes_kind in Ds; rewrite K in Ds; cbv [type_kind bare rename go_type Z.eqb Pos.eqb] in Ds; discriminate Ds.
Section Graph.
  Variable h : heap.
  Variable nm : Z -> option str.
  Variable nmz : str -> Z.
  Variable idf : ref -> Z.
  Variable roots : list ref.
  Variable F : list pitem.
  Variable recs : list wrec.
  Definition live (x : ref) : Prop := exists t, In t roots /\ reach h t x.
  Hypothesis Hnmz : forall s, in_u 32 (nmz s).
  Hypothesis Hidf : forall r, in_u 32 (idf r).
  Hypothesis Hrecs : Forall2 (fun p r => exists ph, r = item_image h noOpts nmz idf ph p) F recs.
  Hypothesis Hitems : forall p, In p F -> match p with PType r => r <> RVoid /\ live r | PTag o _ _ => o <> RVoid /\ live o | _ => False end.
  Hypothesis Hid : forall x, live x -> x <> RVoid -> 1 <= idf x /\ nth_error F (Z.to_nat (idf x - 1)) = Some (PType x).
  Hypothesis Hvoid : idf RVoid = 0.
  Hypothesis Huniq : forall k x, nth_error F k = Some (PType x) -> idf x = Z.of_nat k + 1.
  Hypothesis Htags : forall x, live x -> ptags x F = tags_at h x.
  Hypothesis Hpres : forall x, live x -> present h x.
  Hypothesis Hnode : forall x n, live x -> deref h x = Some n ->
    user_type n /\ go_range n /\ fits n /\ enum_in_range n /\ func_ok h x /\ Forall (fun s => nm (nmz s) = Some s) (strings_of h n).
  Hypothesis Hsmall : Z.of_nat (length F) < 2 ^ 31.

  Lemma no_int0 id a b : ~ int_bitfield [] id a b.
  Proof using. intros (r & raw & (_ & E) & _). destruct (Z.to_nat (id - 1)); discriminate E. Qed.
  Lemma live_node x : live x -> x <> RVoid -> exists n, deref h x = Some n.
  Proof.
    intros L N. apply Hpres in L. destruct x as [| |a]; [destruct L|contradiction|]. cbn [present deref] in *. apply nth_error_Some in L. destruct (nth_error h a); [eauto|contradiction].
  Qed.
  Lemma live_edge x c : live x -> edge h x c -> live c.
  Proof using.
    intros (t & Ht & R) E. exists t. split; [exact Ht|]. eapply reach_trans; [exact R|]. econstructor; [exact E|constructor].
  Qed.
  Lemma live_reach x y : live x -> reach h x y -> live y.
  Proof using. intros (t & Ht & R) E. exists t. split; [exact Ht|]. eapply reach_trans; eassumption. Qed.
  Lemma names_known x n : live x -> deref h x = Some n -> forall s, In s (names_of n) -> nm (nmz s) = Some s.
  Proof.
    intros L D s Hs. destruct (Hnode _ _ L D) as (U & _ & _ & _ & _ & K). rewrite Forall_forall in K. apply K.
    destruct Hs as [<-|Hs]; [now left|]. right. destruct n; cbn in Hs |- *; try contradiction; try (apply in_or_app; right; exact Hs); auto.
  Qed.
  Lemma tag_known x n v k : live x -> deref h x = Some n -> In (v, k) (decl_tags h n) -> nm (nmz v) = Some v.
  Proof.
    intros L D H. destruct (Hnode _ _ L D) as (U & _ & _ & _ & _ & K). rewrite Forall_forall in K. apply K. right. apply in_or_app. left. apply (in_map fst) in H. exact H.
  Qed.
  Lemma Forall2_nth_l {A B} (R : A -> B -> Prop) l m k a : Forall2 R l m -> nth_error l k = Some a -> exists b, nth_error m k = Some b /\ R a b.
  Proof using. intros H. revert k. induction H as [|x y l m Rxy H IH]; intros [|k] E; try discriminate E; [injection E as <-; exists y; auto|exact (IH _ E)]. Qed.
  Lemma Forall2_nth_r {A B} (R : A -> B -> Prop) l m k b : Forall2 R l m -> nth_error m k = Some b -> exists a, nth_error l k = Some a /\ R a b.
  Proof using. intros H. revert k. induction H as [|x y l m Rxy H IH]; intros [|k] E; try discriminate E; [injection E as <-; exists x; auto|exact (IH _ E)]. Qed.

  (** what is at an ID *)
  Lemma at_id x n : live x -> deref h x = Some n -> exists ph, record recs (idf x) (image noOpts nmz idf ph n).
  Proof.
    intros L D. assert (N : x <> RVoid) by (intros ->; discriminate D). destruct (Hid x L N) as (H1 & H2).
    destruct (Forall2_nth_l _ _ _ _ _ Hrecs H2) as (r & E & ph & ->). exists ph. cbn [item_image] in E. rewrite D in E. split; assumption.
  Qed.
  Lemma item_of j r : record recs j r -> (exists x n ph, live x /\ deref h x = Some n /\ j = idf x /\ r = image noOpts nmz idf ph n) \/
    (exists o v k, o <> RVoid /\ live o /\ nth_error F (Z.to_nat (j - 1)) = Some (PTag o v k) /\ r = im_tag noOpts nmz idf o v k).
  Proof.
    intros (H1 & H2). destruct (Forall2_nth_r _ _ _ _ _ Hrecs H2) as (p & E & ph & Er). pose proof (Hitems p (nth_error_In _ _ E)) as Hp.
    destruct p as [x|o v k|s z e|]; [left|right|destruct Hp..].
    - destruct Hp as (Nv & L). destruct (live_node x L Nv) as (n & D). exists x, n, ph. split; [exact L|]. split; [exact D|]. split; [rewrite (Huniq _ _ E); lia|]. cbn [item_image] in Er. now rewrite D in Er.
    - exists o, v, k. destruct Hp as (Nv & L). auto.
  Qed.
  Lemma tag_item j o v k : nth_error F (Z.to_nat (j - 1)) = Some (PTag o v k) -> In (v, k) (tags_at h o) /\ nm (nmz v) = Some v /\ -1 <= k < 2 ^ 31.
  Proof.
    intros E. apply nth_error_In in E. destruct (Hitems _ E) as (Nv & L). assert (T : In (v, k) (tags_at h o)).
    { rewrite <- Htags by exact L. unfold ptags. apply in_flat_map. exists (PTag o v k). split; [exact E|]. destruct (ref_eq_dec o o); [now left|contradiction]. }
    split; [exact T|]. unfold tags_at in T. destruct (deref h o) as [n|] eqn:D; [|destruct T]. split; [eapply tag_known; eassumption|].
    destruct (Hnode _ _ L D) as (_ & _ & Fi & _ & _ & _).
    assert (Tg : forall tags, In (v, k) (map (fun t : str => (t, -1)) tags) -> k = -1) by (intros tags H; apply in_map_iff in H as (t & X & _); congruence).
    destruct n; cbn [decl_tags fits] in *; try (destruct T; fail); try (apply Tg in T; lia).
    - apply in_app_or in T as [T|T]; [apply member_tags_range in T|apply Tg in T]; lia.
    - apply in_app_or in T as [T|T]; [apply member_tags_range in T|apply Tg in T]; lia.
    - apply in_app_or in T as [T|T]; [|apply Tg in T; lia]. destruct (deref h t) as [m|] eqn:Dt; [|destruct T]. destruct m; try destruct T. apply param_tags_range in T.
      assert (Lt : live t) by (eapply live_edge; [exact L|]; exists (NFunc name t linkage tags ptags); split; [exact D|now left]).
      destruct (Hnode _ _ Lt Dt) as (_ & _ & Fp & _). cbn [fits] in Fp. lia.
  Qed.
  Lemma no_legacy id a b : ~ int_bitfield recs id a b.
  Proof.
    intros (r & raw & R & K & A & Ea & Eb & H). destruct (item_of _ _ R) as [(x & n & ph & L & D & _ & ->)|(o & v & k & _ & _ & E & ->)].
    - destruct (Hnode _ _ L D) as (U & Go & Fi & En & _ & _). destruct (image_describes nm [] (fun _ => RVoid) nmz idf ph Hnmz Hidf no_int0 n U Go Fi En (names_known _ _ L D)) as (_ & Ds).
      destruct n; try (kinds_differ Ds K); try (destruct U; fail).
      cbn [image deflateInt aux] in A. injection A as A. cbn [go_range fits] in *. destruct Go as (G1 & G2), Fi as (F1 & F2). destruct (int_word_ok size enc G1 G2 F1 F2) as (_ & _ & W3 & W4). rewrite <- A in *.
      rewrite W3 in Ea. rewrite W4 in Eb. subst a b. destruct H as [H|H]; [lia|]. apply H. cbn [image deflateInt]. unfold size_or_type. cbn [hdr SetSizeType SizeType]. rewrite Z.mul_comm. apply Z.div_mul. lia.
    - destruct (tag_item _ _ _ _ E) as (_ & Nv & Rk). destruct (tag_describes nm [] (fun _ => RVoid) nmz idf Hnmz Hidf no_int0 o v k Nv Rk) as (_ & Ds). kinds_differ Ds K.
  Qed.
  Lemma live_describes f ph x n : live x -> deref h x = Some n -> rec_ok (image noOpts nmz idf ph n) /\ describes nm recs f (image noOpts nmz idf ph n) (bare (fun r => f (idf r)) n) (ids_in idf n).
  Proof.
    intros L D. destruct (Hnode _ _ L D) as (U & Go & Fi & En & _ & _). apply image_describes; auto; [exact no_legacy|]. eapply names_known; eassumption.
  Qed.
  Lemma item_describes f j o v k : nth_error F (Z.to_nat (j - 1)) = Some (PTag o v k) -> rec_ok (im_tag noOpts nmz idf o v k) /\ describes nm recs f (im_tag noOpts nmz idf o v k) (NDeclTag (f (idf o)) v k) [idf o].
  Proof. intros E. destruct (tag_item _ _ _ _ E) as (_ & Nv & Rk). apply tag_describes; auto. exact no_legacy. Qed.
  Lemma recs_ok : Forall rec_ok recs.
  Proof.
    apply Forall_forall. intros r Hr. apply In_nth_error in Hr as (k & Hk). assert (R : record recs (Z.of_nat k + 1) r) by (split; [lia|]; replace (Z.to_nat _) with k by lia; exact Hk).
    destruct (item_of _ _ R) as [(x & n & ph & L & D & _ & ->)|(o & v & i & _ & _ & E & ->)]; [apply (live_describes (fun _ => RVoid) ph x n L D)|apply (item_describes (fun _ => RVoid) _ _ _ _ E)].
  Qed.
  Lemma idf_inj x y : live x -> live y -> idf x = idf y -> x = y.
  Proof.
    intros Lx Ly E. destruct (ref_eq_dec x RVoid) as [->|Nx], (ref_eq_dec y RVoid) as [->|Ny]; [reflexivity|..].
    - destruct (Hid y Ly Ny) as (H & _). lia.
    - destruct (Hid x Lx Nx) as (H & _). lia.
    - destruct (Hid x Lx Nx) as (_ & A), (Hid y Ly Ny) as (_ & B). rewrite E in A. congruence.
  Qed.
  Lemma user_kind (f : Z -> ref) ph x n : live x -> deref h x = Some n -> kind (image noOpts nmz idf ph n) <> 17.
  Proof.
    intros L D K. destruct (live_describes f ph x n L D) as (_ & Ds). destruct (Hnode _ _ L D) as (U & _). destruct n; try destruct U; kinds_differ Ds K.
  Qed.
  Lemma tags_of id t : tags_type recs id t <-> exists o v k, 1 <= t /\ nth_error F (Z.to_nat (t - 1)) = Some (PTag o v k) /\ idf o = id /\ o <> RVoid /\ live o.
  Proof.
    split.
    - intros (r & R & K & S). destruct (item_of _ _ R) as [(x & n & ph & L & D & _ & ->)|(o & v & k & Nv & L & E & ->)]; [destruct (user_kind (fun _ => RVoid) ph x n L D K)|].
      exists o, v, k. destruct R as (R & _). auto.
    - intros (o & v & k & H & E & <- & _). destruct (Forall2_nth_l _ _ _ _ _ Hrecs E) as (r & Er & ph & ->). cbn [item_image] in Er. exists (im_tag noOpts nmz idf o v k). split; [split; assumption|].
      destruct (item_describes (fun _ => RVoid) _ _ _ _ E) as (_ & Ds). split; [eapply describes_tag; exact Ds|reflexivity].
  Qed.
  Lemma tag_list_live x : live x -> tag_list nm recs (idf x) (tags_at h x).
  Proof.
    intros L. exists (tag_ids 1 x F). split; [|split; [apply tag_ids_sorted|]].
    - intros t. rewrite tag_ids_spec, tags_of. split.
      + intros (v & k & H & E). exists x, v, k. destruct (Hitems _ (nth_error_In _ _ E)) as (Nv & _). auto.
      + intros (o & v & k & H & E & Eo & Nv & Lo). apply idf_inj in Eo; auto. subst o. eauto.
    - rewrite <- Htags by exact L. apply tag_ids_tags. intros t v k H E. destruct (Forall2_nth_l _ _ _ _ _ Hrecs E) as (r & Er & ph & ->). cbn [item_image] in Er.
      exists (im_tag noOpts nmz idf x v k), (u32 k). split; [split; assumption|]. destruct (tag_item _ _ _ _ E) as (_ & Nv & Rk). split; [exact Nv|]. split; [reflexivity|]. cbn [snd].
      unfold signed32, u32, wrapu. destruct (Z.eq_dec k (-1)) as [->|]; [reflexivity|]. rewrite Z.mod_small by lia. destruct (Z.ltb_spec k (2 ^ 31)); lia.
  Qed.
  Lemma tag_list_tag j o v k : 1 <= j -> nth_error F (Z.to_nat (j - 1)) = Some (PTag o v k) -> tag_list nm recs j [].
  Proof.
    intros H E. exists []. split; [|split; constructor]. intros t. split; [intros []|]. intros T. apply tags_of in T as (o' & v' & k' & H' & E' & Eo & Nv & Lo). destruct (Hid o' Lo Nv) as (_ & X). rewrite Eo in X. congruence.
  Qed.
  Lemma proto_some id : exists np, proto_params recs id np.
  Proof using.
    destruct (rec_at recs id) as [r|] eqn:E.
    - apply rec_at_record in E. destruct (Z.eq_dec (kind r) 13) as [K|K]; [eexists; left; eauto|]. exists None. right. split; [|reflexivity]. intros r' R. rewrite (record_fun _ _ _ _ R E). exact K.
    - exists None. right. split; [|reflexivity]. intros r R. apply rec_at_record in R. congruence.
  Qed.
  Lemma proto_fun id np np' : proto_params recs id np -> proto_params recs id np' -> np = np'.
  Proof using.
    intros [(r & R & K & ->)|(Nk & ->)] [(r' & R' & K' & ->)|(Nk' & ->)]; try reflexivity; [now rewrite (record_fun _ _ _ _ R R')|destruct (Nk' _ R K)|destruct (Nk _ R' K')].
  Qed.
  Lemma proto_live t ret ps : live t -> deref h t = Some (NFuncProto ret ps) -> proto_params recs (idf t) (Some (length ps)).
  Proof.
    intros L D. destruct (at_id _ _ L D) as (ph & R). destruct (live_describes (fun _ => RVoid) ph _ _ L D) as (_ & Ds). left. eexists. split; [exact R|]. cbn [bare rename] in Ds. split; [apply go_kind; [exact (describes_kind _ _ _ _ _ _ Ds)|lia]|].
    apply describes_proto in Ds. rewrite Ds, map_length, Nat2Z.id. reflexivity.
  Qed.
  (** the number of parameters, for whatever type *)
  Lemma proto_of ph x n : live x -> deref h x = Some n -> exists np, proto_params recs (size_or_type (image noOpts nmz idf ph n)) np /\
    (match n with NFunc _ t _ _ _ => np = Some (params_of h t) | _ => True end) /\ forall s t l tags pt, n = NFunc s t l tags pt -> live t /\ exists ret ps, deref h t = Some (NFuncProto ret ps).
  Proof.
    intros L D. destruct (Hnode _ _ L D) as (U & _ & _ & _ & Fo & _). destruct n;
      try (match goal with |- context [proto_params recs ?z _] => destruct (proto_some z) as (np & P) end; exists np; split; [exact P|]; split; [exact I|discriminate]).
    destruct (Fo _ _ _ _ _ D) as ((ret & ps & Dt) & _). assert (Lt : live t) by (eapply live_edge; [exact L|]; eexists; split; [exact D|now left]).
    exists (Some (length ps)). split; [exact (proto_live _ _ _ Lt Dt)|]. split; [unfold params_of; now rewrite Dt|]. intros s0 t0 l0 tags0 pt0 E. injection E as <- <- <- <- <-. eauto.
  Qed.
  Lemma taggable_np np np' n i : (match n with NFunc _ _ _ _ _ => np = np' | _ => True end) -> taggable np n i -> taggable np' n i.
  Proof using. destruct n; cbn; auto. intros ->. auto. Qed.

  Definition mine (x : ref) (j : Z) : Prop :=
    (exists y, reach h x y /\ j = idf y) \/ (exists o v k, reach h x o /\ o <> RVoid /\ 1 <= j /\ nth_error F (Z.to_nat (j - 1)) = Some (PTag o v k)).
  Lemma mine_sound x j : live x -> mine x j -> sound nm recs j.
  Proof.
    intros L [(y & R & ->)|(o & v & k & R & Nv & H & E)].
    - assert (Ly : live y) by (eapply live_reach; eassumption). destruct (ref_eq_dec y RVoid) as [->|Ny]; [left; exact Hvoid|]. right. destruct (live_node y Ly Ny) as (n & D).
      destruct (at_id _ _ Ly D) as (ph & Rc). destruct (live_describes (fun _ => RVoid) ph _ _ Ly D) as (_ & Ds). destruct (proto_of ph _ _ Ly D) as (np & P & Np & Fo).
      do 5 eexists. split; [exact Rc|]. split; [exact Ds|]. split; [exact (tag_list_live y Ly)|]. split; [exact P|]. unfold tags_at. rewrite D. apply Forall_forall. intros (v & k) Hv.
      eapply taggable_np; [|eapply (taggable_bare h _ n); [|exact Hv]]; [destruct n; cbn; auto|]. intros s t l tags pt En. destruct (Fo _ _ _ _ _ En) as (_ & X). exact X.
    - right. destruct (Forall2_nth_l _ _ _ _ _ Hrecs E) as (r & Er & ph & ->). cbn [item_image] in Er. destruct (item_describes (fun _ => RVoid) _ _ _ _ E) as (_ & Ds).
      destruct (proto_some (size_or_type (im_tag noOpts nmz idf o v k))) as (np & P). do 5 eexists. split; [split; [exact H|exact Er]|]. split; [exact Ds|]. split; [eapply tag_list_tag; eassumption|]. split; [exact P|constructor].
  Qed.
  Lemma ids_refs n j : user_type n -> (In j (ids_in idf n) <-> exists y, In y (refs n) /\ j = idf y).
  Proof using.
    intros U. assert (M : forall l, In j (map idf l) <-> exists y, In y l /\ j = idf y) by (intros l; rewrite in_map_iff; split; intros (y & A & B); exists y; auto).
    destruct n; cbn [ids_in refs]; try apply M; try (destruct U).
    - rewrite <- (M [index; elem]). reflexivity.
    - rewrite in_app_iff. rewrite <- map_map with (g := idf) (f := p_type), M. split.
      + intros [(y & A & ->)|[<-|[]]]; [exists y; split; [now right|reflexivity]|exists ret; split; [now left|reflexivity]].
      + intros (y & [<-|A] & ->); [right; now left|left; eauto].
  Qed.
  Lemma requires_mine x j j' : live x -> mine x j -> requires nm recs j j' -> mine x j'.
  Proof.
    intros L M R. destruct R as [(r & n & ids & Rc & Ds & Hj)|T].
    - destruct M as [(y & Ry & ->)|(o & v & k & Ro & Nv & H & E)].
      + assert (Ly : live y) by (eapply live_reach; eassumption). assert (Ny : y <> RVoid) by (intros ->; destruct Rc as (X & _); lia). destruct (live_node y Ly Ny) as (n0 & D).
        destruct (at_id _ _ Ly D) as (ph & Rc'). rewrite (record_fun _ _ _ _ Rc Rc') in Ds. destruct (live_describes (fun _ => RVoid) ph _ _ Ly D) as (_ & Ds'). destruct (Hnode _ _ Ly D) as (U & _).
        rewrite (describes_ids _ _ _ _ _ _ _ _ _ Ds Ds') in Hj. apply ids_refs in Hj as (c & Hc & ->); [|exact U]. left. exists c. split; [|reflexivity]. eapply reach_trans; [exact Ry|]. econstructor; [exists n0; eauto|constructor].
      + destruct (Forall2_nth_l _ _ _ _ _ Hrecs E) as (r' & Er & ph & ->). cbn [item_image] in Er. rewrite (record_fun _ _ _ _ Rc (conj H Er)) in Ds. destruct (item_describes (fun _ => RVoid) _ _ _ _ E) as (_ & Ds').
        rewrite (describes_ids _ _ _ _ _ _ _ _ _ Ds Ds') in Hj. destruct Hj as [<-|[]]. left. eauto.
    - apply tags_of in T as (o & v & k & H & E & Eo & Nv & Lo). right. exists o, v, k. split; [|auto]. destruct M as [(y & Ry & ->)|(o' & v' & k' & Ro & Nv' & H' & E')].
      + assert (Ly : live y) by exact (live_reach _ _ L Ry). apply idf_inj in Eo; auto. now subst.
      + destruct (Hid o Lo Nv) as (_ & X). rewrite Eo in X. congruence.
  Qed.
  Lemma needs_mine x j j' : live x -> mine x j -> needs nm recs j j' -> mine x j'.
  Proof. intros L M N. revert M. induction N as [|a b c R N IH]; [auto|]. intros M. apply IH. eapply requires_mine; eassumption. Qed.
  Lemma mine_self x : mine x (idf x).
  Proof using. left. exists x. split; [constructor|reflexivity]. Qed.
  Lemma reach_needs x y : live x -> reach h x y -> needs nm recs (idf x) (idf y).
  Proof.
    intros L R. induction R as [|a b c E R IH]; [constructor|]. econstructor; [|apply IH; eapply live_edge; eassumption]. left. destruct E as (n & D & Hb). destruct (at_id _ _ L D) as (ph & Rc).
    destruct (live_describes (fun _ => RVoid) ph _ _ L D) as (_ & Ds). destruct (Hnode _ _ L D) as (U & _). do 3 eexists. split; [exact Rc|]. split; [exact Ds|]. apply ids_refs; [exact U|]. eauto.
  Qed.

  Theorem decodes x : live x -> forall ids st rs, queries nm recs fresh ids = Some (st, rs) ->
    exists st' f, TypeByID nm recs st (idf x) = Some (st', Some (f x)) /\ isomorphic f h x (d_heap st') (f x).
  Proof.
    intros L ids st rs Q. destruct (C31_resolves nm recs ids st rs (idf x) recs_ok Q) as (st' & x' & f & T & Ex & E0 & Inj & Dec).
    - intros j N. eapply mine_sound; [exact L|]. eapply needs_mine; [exact L|apply mine_self|exact N].
    - intros j r t N R K Tt Nb. assert (M : mine x j) by (eapply needs_mine; [exact L|apply mine_self|exact N]).
      assert (Y : exists y n ph, live y /\ deref h y = Some n /\ j = idf y /\ r = image noOpts nmz idf ph n).
      { destruct (item_of _ _ R) as [Y|(o & v & k & _ & _ & E & ->)]; [exact Y|]. destruct (item_describes (fun _ => RVoid) _ _ _ _ E) as (_ & Ds). kinds_differ Ds K. }
      destruct Y as (y & n & ph & Ly & D & -> & ->). destruct (live_describes (fun _ => RVoid) ph _ _ Ly D) as (_ & Ds). destruct (Hnode _ _ Ly D) as (U & _ & _ & _ & Fo & _).
      destruct n; try (kinds_differ Ds K). destruct (Fo _ _ _ _ _ D) as (_ & Nr). assert (Lt : live t0) by (eapply live_edge; [exact Ly|]; eexists; split; [exact D|now left]).
      change (size_or_type _) with (idf t0) in Nb. destruct (needs_mine t0 _ _ Lt (mine_self t0) Nb) as [(z & Rz & Ez)|(o & v & k' & Ro & Nv & H & E)].
      + apply Nr. apply idf_inj in Ez; [|exact Ly|eapply live_reach; eassumption]. now subst.
      + assert (Ny : y <> RVoid) by (intros ->; discriminate D). destruct (Hid y Ly Ny) as (_ & X). congruence.
    - intros t Tt. apply tags_of in Tt as (o & v & k & _ & _ & E & Nv & Lo). destruct (Hid o Lo Nv) as (X & _). lia.
    - exists st', (fun r => f (idf r)). rewrite Ex. split; [exact T|].
      assert (Nd : forall y n, reach h x y -> deref h y = Some n -> exists np, deref (d_heap st') (f (idf y)) = Some (attach np (decl_tags h n) (bare (fun r => f (idf r)) n)) /\
         (forall s t l tags pt, n = NFunc s t l tags pt -> live t /\ exists ret ps, deref h t = Some (NFuncProto ret ps) /\ np = length ps)).
      { intros y n R D. assert (Ly : live y) by (eapply live_reach; eassumption). assert (Ny : y <> RVoid) by (intros ->; discriminate D). destruct (Hid y Ly Ny) as (H1 & _).
        destruct (Dec (idf y) (reach_needs _ _ L R)) as [X|(r & n0 & ids0 & l & np & Rc & Ds & Tl & P & Df)]; [lia|].
        destruct (at_id _ _ Ly D) as (ph & Rc'). rewrite (record_fun _ _ _ _ Rc Rc') in Ds, P. destruct (live_describes f ph _ _ Ly D) as (_ & Ds').
        destruct (describes_fun _ _ _ _ _ _ _ _ Ds Ds') as (-> & _). pose proof (tag_list_live y Ly) as Tl'. rewrite (tag_list_fun _ _ _ _ _ Tl Tl') in Df. unfold tags_at in Df. rewrite D in Df.
        destruct (proto_of ph _ _ Ly D) as (np' & P' & Np & Fo). rewrite (proto_fun _ _ _ P P') in Df. eexists. split; [exact Df|]. intros s t l0 tags pt En. subst n. subst np'. destruct (Fo _ _ _ _ _ eq_refl) as (Lt & ret & ps & Dt).
        split; [exact Lt|]. exists ret, ps. split; [exact Dt|]. unfold params_of. now rewrite Dt. }
      split; [exact Ex|]. split; [now rewrite Hvoid|]. split; [|split].
      + intros y R Ey. destruct (ref_eq_dec y RVoid) as [|Ny]; [assumption|exfalso]. destruct (live_node y (live_reach _ _ L R) Ny) as (n & D). destruct (Nd y n R D) as (np & Df & _). rewrite Ey in Df. discriminate Df.
      + intros y z Ry Rz E. apply idf_inj; [eapply live_reach; eassumption..|]. apply Inj; [now apply reach_needs..|exact E].
      + intros y n R D. destruct (Nd y n R D) as (np & Df & Fo). eexists. split; [exact Df|]. assert (Ly : live y) by (eapply live_reach; eassumption). destruct (Hnode _ _ Ly D) as (U & _).
        pose proof (attach_bare h (fun r => f (idf r)) n np U) as At. specialize (At ltac:(intros s t l tags pt En; destruct (Fo _ _ _ _ _ En) as (_ & X); exact X)).
        destruct n; try (rewrite At; cbn; reflexivity). destruct At as (pt' & At & Sp). rewrite At. cbn [rename same_type]. split; [reflexivity|]. split; [reflexivity|]. split; [reflexivity|]. split; [reflexivity|].
        destruct (Fo _ _ _ _ _ eq_refl) as (Lt & ret & ps & Dt & En). assert (Rt : reach h x t) by (eapply reach_trans; [exact R|]; econstructor; [eexists; split; [exact D|now left]|constructor]).
        destruct (Nd t _ Rt Dt) as (np' & Dt' & _). unfold params_of. rewrite Dt'. cbn [decl_tags bare rename attach]. rewrite map_length. now rewrite <- En.
  Qed.
End Graph.
