(** One record: the decoder's plan against the specification. *)
From Coq Require Import ZArith List Lia Bool Sorting.Sorted.
From Verif.Base Require Import GoInt ListExtra.
From Verif.Btf Require Import Wire WireSpec WireProof Types TypesSpec Decode DecodeSpec.
Import ListNotations.
Open Scope Z_scope.

Lemma flag_field bt : kindFlagBool bt = (field (Info bt) 31 1 =? 1).
Proof. unfold kindFlagBool, info. rewrite readBits_field by (unfold btfTypeKindFlagMask, btfTypeKindFlagShift; lia). reflexivity. Qed.
Lemma fwd_field bt : FwdKind bt = field (Info bt) 31 1.
Proof. unfold FwdKind, info. apply readBits_field; unfold btfTypeKindFlagMask, btfTypeKindFlagShift; lia. Qed.
Lemma linkage_field bt : Linkage bt = field (Info bt) 0 16.
Proof. exact (Vlen_field bt). Qed.
Lemma enc_field raw : IntEncoding raw = field raw 24 4.
Proof.
  unfold IntEncoding. rewrite readBits_field by lia. apply wrapu_id. unfold in_u, field.
  pose proof (Z.mod_pos_bound (raw / 2 ^ 24) (2 ^ 4) ltac:(lia)). change (2 ^ 4) with 16 in *. change (2 ^ 8) with 256. lia.
Qed.
Lemma off_field raw : IntOffset raw = field raw 16 8.
Proof. apply readBits_field; lia. Qed.
Lemma bits_field raw : IntBits raw = field raw 0 8.
Proof. apply readBits_field; lia. Qed.
Lemma vlen_nonneg bt : 0 <= field (Info bt) 0 16.
Proof. unfold field. apply Z.mod_pos_bound. lia. Qed.

Lemma triples_flat ws : triples (length ws) (flat3 ws) = map Some ws.
Proof. induction ws as [|[[a b] c] ws IH]; [reflexivity|]. cbn [length]. unfold flat3 in *. cbn [map concat app fst snd triples]. now rewrite IH. Qed.
Lemma pairs_flat ws : pairs (length ws) (flat2 ws) = map Some ws.
Proof. induction ws as [|[a b] ws IH]; [reflexivity|]. cbn [length]. unfold flat2 in *. cbn [map concat app fst snd pairs]. now rewrite IH. Qed.
Lemma flat3_exists n : forall l, length l = (3 * n)%nat -> exists ws, l = flat3 ws /\ length ws = n.
Proof.
  induction n as [|n IH]; intros l H; [destruct l; [exists []; split; reflexivity|discriminate H]|].
  destruct l as [|a [|b [|c l]]]; cbn [length] in H; try lia. destruct (IH l) as (ws & -> & E); [lia|]. exists ((a, b, c) :: ws). split; [reflexivity|cbn; lia].
Qed.
Lemma flat2_exists n : forall l, length l = (2 * n)%nat -> exists ws, l = flat2 ws /\ length ws = n.
Proof.
  induction n as [|n IH]; intros l H; [destruct l; [exists []; split; reflexivity|discriminate H]|].
  destruct l as [|a [|b l]]; cbn [length] in H; try lia. destruct (IH l) as (ws & -> & E); [lia|]. exists ((a, b) :: ws). split; [reflexivity|cbn; lia].
Qed.
Lemma flat3_inj ws : forall ws', flat3 ws = flat3 ws' -> ws = ws'.
Proof.
  induction ws as [|[[a b] c] ws IH]; intros [|[[a' b'] c'] ws'] H; try reflexivity; try discriminate H.
  unfold flat3 in *. cbn in H. inversion H; subst. f_equal. auto.
Qed.
Lemma flat2_inj ws : forall ws', flat2 ws = flat2 ws' -> ws = ws'.
Proof.
  induction ws as [|[a b] ws IH]; intros [|[a' b'] ws'] H; try reflexivity; try discriminate H.
  unfold flat2 in *. cbn in H. inversion H; subst. f_equal. auto.
Qed.
Lemma somes_map {A} (l : list A) : somes (map Some l) = l.
Proof. induction l; cbn; congruence. Qed.
Lemma map_Some_inj {A} (l l' : list A) : map Some l = map Some l' -> l = l'.
Proof. intros H. rewrite <- (somes_map l), H. apply somes_map. Qed.
Lemma all_some_map {A} (l : list (option A)) : all_some l = true -> exists l', l = map Some l'.
Proof.
  induction l as [|[a|] l IH]; cbn; intros H; [exists []; reflexivity| |discriminate]. destruct (IH H) as (l' & ->). exists (a :: l'). reflexivity.
Qed.
(** resolving a list of steps that succeeds *)
Lemma steps_inv {A} (g : A -> Z) (l : list (option A)) ids : map (option_map g) l = map Some ids -> exists l', l = map Some l' /\ ids = map g l'.
Proof.
  revert ids. induction l as [|[a|] l IH]; intros [|i ids] H; try discriminate H; [exists []; split; reflexivity|].
  cbn in H. inversion H as [[E1 E2]]. destruct (IH _ E2) as (l' & -> & ->). exists (a :: l'). split; reflexivity.
Qed.
Lemma named_inv {A} nm (l : list (option (Z * A))) l' : map (named nm) l = map Some l' ->
  exists ws, l = map Some ws /\ Forall2 (fun w e => nm (fst w) = Some (fst e) /\ snd w = snd e) ws l'.
Proof.
  revert l'. induction l as [|[[o a]|] l IH]; intros [|[s b] l'] H; try discriminate H; [exists []; split; constructor|].
  cbn in H. destruct (nm o) as [s'|] eqn:E; [|discriminate H]. inversion H; subst. destruct (IH _ H3) as (ws & -> & F). exists ((o, b) :: ws). split; [reflexivity|]. constructor; [split; [exact E|reflexivity]|exact F].
Qed.

Lemma rec_aux r c v : rec_ok r -> In (kind r, (c, v)) aux_table -> 4 * Z.of_nat (length (aux r)) = c + v * vlen r.
Proof.
  intros (_ & (c' & v' & I' & E) & _) I. unfold kind, vlen in *. rewrite E. clear E.
  assert (X : forall k c v c' v', In (k, (c, v)) aux_table -> In (k, (c', v')) aux_table -> c = c' /\ v = v').
  { clear. intros k c v c' v' I I'. unfold aux_table in *. cbn [In] in I, I'.
    repeat (destruct I as [I|I]; [injection I; intros; subst; repeat (destruct I' as [I'|I']; [injection I'; intros; subst; try discriminate; split; reflexivity|]); contradiction|]); contradiction. }
  destruct (X _ _ _ _ _ I I') as (-> & ->). reflexivity.
Qed.
Lemma rec_vlen3 r c v : rec_ok r -> c = 0 -> v = 12 -> In (kind r, (c, v)) aux_table -> exists ws, aux r = flat3 ws /\ length ws = Z.to_nat (vlen r).
Proof.
  intros R -> -> I. apply flat3_exists. pose proof (rec_aux r 0 12 R I). pose proof (vlen_nonneg (hdr r)). unfold vlen in *. lia.
Qed.
Lemma rec_vlen2 r c v : rec_ok r -> c = 0 -> v = 8 -> In (kind r, (c, v)) aux_table -> exists ws, aux r = flat2 ws /\ length ws = Z.to_nat (vlen r).
Proof.
  intros R -> -> I. apply flat2_exists. pose proof (rec_aux r 0 8 R I). pose proof (vlen_nonneg (hdr r)). unfold vlen in *. lia.
Qed.
Lemma rec_aux_length r c : rec_ok r -> In (kind r, (c, 0)) aux_table -> 4 * Z.of_nat (length (aux r)) = c.
Proof. intros R I. pose proof (rec_aux r c 0 R I). lia. Qed.

Ltac tbl := unfold aux_table; cbn [In]; match goal with K : kind _ = _ |- _ => rewrite K end; repeat first [left; reflexivity|right].

Lemma forallb_map {A B} (g : A -> B) f l : forallb f (map g l) = forallb (fun x => f (g x)) l.
Proof. induction l; cbn; congruence. Qed.
(** the legacy bitfield table answers for these types *)
Definition leg_ok (recs : list wrec) (leg : Z -> option (Z * Z)) (ids : list Z) : Prop :=
  forall t, In t ids -> match leg t with Some (o, b) => int_bitfield recs t o b | None => forall o b, ~ int_bitfield recs t o b end.

Lemma Forall2_zip {A B C} (R : A -> C -> Prop) (g : B -> ref -> C) (f : Z -> ref) (t : A -> Z) ws : forall es,
  (forall w e, In w ws -> In e es -> True) -> Forall2 (fun w e => forall rf, rf = f (t w) -> R w (g e rf)) ws es ->
  Forall2 R ws (zip_with g es (map f (map t ws))).
Proof. induction ws as [|w ws IH]; intros es _ F; inversion F; subst; cbn; constructor; auto. Qed.

Lemma land_field x : in_u 32 x -> Z.land x 16777215 = field x 0 24 /\ Z.shiftr x 24 = field x 24 8.
Proof.
  intros H. unfold in_u in H. unfold field. split.
  - change 16777215 with (Z.ones 24). rewrite Z.land_ones by lia. now rewrite Z.div_1_r.
  - rewrite Z.shiftr_div_pow2 by lia. symmetry. apply Z.mod_small. split; [apply Z.div_pos; lia|]. apply Z.div_lt_upper_bound; [lia|].
    change (2 ^ 24 * 2 ^ 8) with (2 ^ 32). lia.
Qed.

Lemma member_built nm recs f flag leg w e : in_u 32 (snd w) -> leg_ok recs leg [snd (fst w)] ->
  nm (fst (fst w)) = Some (fst e) -> (snd (fst w), snd w) = snd e ->
  member_of nm recs f flag w (build_member flag leg e (f (snd (fst w)))).
Proof.
  destruct w as [[no ty] off]. destruct e as [s [ty' off']]. cbn [fst snd]. intros U L N E. inversion E; subst ty' off'. unfold build_member, member_of.
  destruct flag.
  - destruct (land_field off U) as (A & B). cbn [m_name m_type m_offset m_bits m_tags]. tauto.
  - specialize (L ty (or_introl eq_refl)). destruct (leg ty) as [[o b]|]; cbn [m_name m_type m_offset m_bits m_tags].
    + repeat (split; [tauto|]). left. exists o, b. split; [exact L|]. split; reflexivity.
    + repeat (split; [tauto|]). right. tauto.
Qed.

Lemma flat3_In ws w : In w ws -> In (fst (fst w)) (flat3 ws) /\ In (snd (fst w)) (flat3 ws) /\ In (snd w) (flat3 ws).
Proof.
  induction ws as [|x ws IH]; [intros []|]. unfold flat3 in *. cbn [map concat app In]. intros [->|H]; [tauto|]. destruct (IH H) as (A & B & C). tauto.
Qed.
Lemma flat2_In ws w : In w ws -> In (fst w) (flat2 ws) /\ In (snd w) (flat2 ws).
Proof.
  induction ws as [|x ws IH]; [intros []|]. unfold flat2 in *. cbn [map concat app In]. intros [->|H]; [tauto|]. destruct (IH H) as (A & B). tauto.
Qed.
Lemma Forall2_in_l {A B} (R S : A -> B -> Prop) l m : (forall a b, In a l -> R a b -> S a b) -> Forall2 R l m -> Forall2 S l m.
Proof. intros H F. induction F; constructor; [apply H; [now left|assumption]|]. apply IHF. intros a b Ha. apply H. now right. Qed.

Lemma members_read nm r ws : rec_ok r -> aux r = flat3 ws -> length ws = Z.to_nat (vlen r) ->
  read_members nm r = map (fun w => named nm (Some (fst (fst w), (snd (fst w), snd w)))) ws.
Proof.
  intros R E L. unfold read_members. rewrite Vlen_field. change (field (Info (hdr r)) 0 16) with (vlen r). rewrite <- L, E, triples_flat, map_map.
  apply map_ext. intros [[a b] c]. reflexivity.
Qed.
Lemma named_map_inv {A} nm (g : A -> Z) {B} (k : A -> B) (ws : list A) l' : map (fun w => named nm (Some (g w, k w))) ws = map Some l' ->
  Forall2 (fun w e => nm (g w) = Some (fst e) /\ k w = snd e) ws l'.
Proof.
  revert l'. induction ws as [|w ws IH]; intros [|[s b] l'] H; try discriminate H; [constructor|]. cbn in H.
  destruct (nm (g w)) as [s'|] eqn:E; [|discriminate H]. inversion H; subst. constructor; [split; [assumption|reflexivity]|auto].
Qed.
Lemma named_map_complete {A} nm (g : A -> Z) {B} (k : A -> B) (ws : list A) {C} (R : A -> C -> Prop) (ms : list C) (nmf : C -> str) :
  (forall w m, R w m -> nm (g w) = Some (nmf m)) -> Forall2 R ws ms ->
  exists l', map (fun w => named nm (Some (g w, k w))) ws = map Some l' /\ map snd l' = map k ws.
Proof.
  intros H F. induction F as [|w m ws ms Rw F (l' & E1 & E2)]; [exists []; split; reflexivity|]. exists ((nmf m, k w) :: l').
  cbn [map]. unfold named at 1. rewrite (H _ _ Rw), E1, E2. split; reflexivity.
Qed.

Lemma steps_zip {A} nm recs f flag leg (ws : list (Z * Z * Z)) (l' : list (str * (Z * Z))) :
  Forall (in_u 32) (map snd ws) -> leg_ok recs leg (map (fun w => snd (fst w)) ws) ->
  Forall2 (fun w e => nm (fst (fst w)) = Some (fst e) /\ (snd (fst w), snd w) = snd e) ws l' ->
  Forall2 (member_of nm recs f flag) ws (zip_with (build_member flag leg) l' (map f (map (fun w => snd (fst w)) ws))) /\ @nil A = [].
Proof.
  intros U L F. split; [|reflexivity]. induction F as [|w e ws l' (N & E) F IH]; [constructor|]. inversion U; subst. cbn [map zip_with]. constructor.
  - apply member_built; auto. intros t [<-|[]]. apply L. now left.
  - apply IH; [assumption|]. intros t Ht. apply L. now right.
Qed.

Section Rec.
  Variable nm : Z -> option str.
  Variable recs : list wrec.

  Lemma composite_describes mk r p ids leg f s : rec_ok r -> (kind r = 4 \/ kind r = 5) ->
    composite mk nm r = Some p -> nm (name_off r) = Some s -> p_steps p = map Some ids -> leg_ok recs leg ids ->
    exists ws ms, aux r = flat3 ws /\ Z.of_nat (length ws) = vlen r /\ Forall2 (member_of nm recs f (kind_flag r)) ws ms /\
      ids = map (fun w => snd (fst w)) ws /\ p_build p leg (map f ids) = mk ms.
  Proof.
    intros R K E N S L. destruct (rec_vlen3 r 0 12 R eq_refl eq_refl) as (ws & Ea & Lw); [destruct K as [K|K]; tbl|].
    unfold composite in E. rewrite (members_read nm r ws R Ea Lw) in E. apply some_inj in E; subst p. cbn [p_steps p_build] in *.
    apply steps_inv in S as (l' & E1 & E2). pose proof E1 as F. apply (named_map_inv nm (fun w => fst (fst w)) (fun w => (snd (fst w), snd w))) in F.
    assert (Ei : ids = map (fun w => snd (fst w)) ws).
    { rewrite E2. clear -F. induction F as [|w e ws l' (_ & E) F IH]; [reflexivity|]. cbn [map]. rewrite <- E, IH. reflexivity. }
    rewrite E1, somes_map. subst ids. assert (U : Forall (in_u 32) (map snd ws)).
    { apply Forall_forall. intros x Hx. apply in_map_iff in Hx as (w & <- & Hw). destruct R as (_ & _ & R). rewrite Forall_forall in R. apply R. rewrite Ea. now apply flat3_In. }
    rewrite Ei in L. destruct (@steps_zip unit nm recs f (kind_flag r) leg ws l' U L F) as (Z & _).
    exists ws, (zip_with (build_member (kind_flag r) leg) l' (map f (map (fun w => snd (fst w)) ws))).
    split; [exact Ea|]. split; [pose proof (vlen_nonneg (hdr r)); unfold vlen in *; lia|]. split; [exact Z|]. split; [exact Ei|].
    rewrite Ei, flag_field. reflexivity.
  Qed.

  Lemma enum_value (sgn : bool) v : in_u 32 v -> (if sgn then u64 (i32 v) else v) = (if sgn && (2 ^ 31 <=? v) then v + (2 ^ 64 - 2 ^ 32) else v).
  Proof.
    intros U. unfold in_u in U. destruct sgn; [|reflexivity]. cbn [andb]. unfold u64, i32, wrapu, sext. rewrite (Z.mod_small v) by exact U.
    change (2 ^ (32 - 1)) with 2147483648. change (2 ^ 31) with 2147483648. change (2 ^ 64) with 18446744073709551616 in *. change (2 ^ 32) with 4294967296 in *.
    destruct (Z.ltb_spec v 2147483648), (Z.leb_spec 2147483648 v); try lia.
  Qed.
  Lemma signed_i32 v : in_u 32 v -> i32 v = signed32 v.
  Proof. intros U. unfold in_u in U. unfold i32, sext, signed32. rewrite (Z.mod_small v) by exact U. reflexivity. Qed.
  Lemma lor_hi lo hi : in_u 32 lo -> 0 <= hi -> Z.lor (Z.shiftl hi 32) lo = lo + 2 ^ 32 * hi.
  Proof.
    intros L H. unfold in_u in L. rewrite Z.shiftl_mul_pow2 by lia. rewrite lor_disjoint_add by lia. lia.
  Qed.

  Ltac kinds K := rewrite K; cbn [Z.eqb Pos.eqb kindInt kindPointer kindArray kindStruct kindUnion kindEnum kindForward kindTypedef kindVolatile kindConst kindRestrict kindFunc kindFuncProto kindVar kindDatasec kindFloat kindDeclTag kindTypeTag kindEnum64].

  Lemma map_single_inv {A} (g : A -> option Z) (x : Z) ids : [Some x] = map Some ids -> ids = [x].
  Proof. destruct ids as [|y [|]]; cbn; intros H; inversion H; reflexivity. Qed.

  Lemma plan_describes r p ids leg f : rec_ok r -> plan_of nm r = Some p -> p_steps p = map Some ids -> leg_ok recs leg ids ->
    describes nm recs f r (p_build p leg (map f ids)) ids.
  Proof.
    intros R E S L. unfold plan_of in E. destruct (nm (NameOff (hdr r))) as [s|] eqn:N; [|discriminate E]. change (nm (name_off r) = Some s) in N.
    rewrite Kind_field in E. change (field (Info (hdr r)) 24 5) with (kind r) in E.
    assert (Aux : Forall (in_u 32) (aux r)) by apply R.
    remember (kind r) as kr eqn:Kr.
    repeat match type of E with (if ?k =? ?c then _ else _) = _ => destruct (Z.eqb_spec k c) as [K|_] end; [..|discriminate E]; rewrite Kr in K; clear kr Kr.
    all: unfold kindInt, kindPointer, kindArray, kindStruct, kindUnion, kindEnum, kindForward, kindTypedef, kindVolatile, kindConst, kindRestrict, kindFunc, kindFuncProto, kindVar, kindDatasec, kindFloat, kindDeclTag, kindTypeTag, kindEnum64 in K.
    all: try (match type of E with single _ _ = _ => idtac end; unfold single in E; inversion E; subst p; cbn [p_steps p_build] in *; apply (@map_single_inv Z (fun _ => None)) in S; subst ids; cbn [map]; rewrite ?linkage_field;
      first [eapply D_ptr|eapply D_typedef|eapply D_volatile|eapply D_const|eapply D_restrict|eapply D_func|eapply D_type_tag]; [exact K|exact N|reflexivity]).
    - (* int *)
      assert (LA : 4 * Z.of_nat (length (aux r)) = 4) by (apply rec_aux_length; [exact R|tbl]). destruct (aux r) as [|raw [|]] eqn:Ea; cbn [length] in LA; try lia.
      unfold leaf in E. apply some_inj in E; subst p. cbn [p_steps p_build] in *. destruct ids; [|discriminate S]. rewrite enc_field. now constructor.
    - (* array *)
      assert (LA : 4 * Z.of_nat (length (aux r)) = 12) by (apply rec_aux_length; [exact R|tbl]). destruct (aux r) as [|ty [|ix [|k [|]]]] eqn:Ea; cbn [length] in LA; try lia.
      apply some_inj in E; subst p. cbn [p_steps p_build] in *. destruct ids as [|a [|b [|]]]; cbn in S; inversion S; subst. cbn [map]. econstructor; eauto.
    - (* struct *)
      destruct (composite_describes _ r p ids leg f s R (or_introl K) E N S L) as (ws & ms & A1 & A2 & A3 & A4 & ->). rewrite A4. econstructor; eauto.
    - destruct (composite_describes _ r p ids leg f s R (or_intror K) E N S L) as (ws & ms & A1 & A2 & A3 & A4 & ->). rewrite A4. eapply D_union; eauto.
    - (* enum *)
      destruct (rec_vlen2 r 0 8 R eq_refl eq_refl) as (ws & Ea & Lw); [tbl|]. unfold enumeration in E. apply some_inj in E; subst p. cbn [p_steps p_build] in *.
      unfold read_enum in *. rewrite Vlen_field in *. change (field (Info (hdr r)) 0 16) with (vlen r) in *. rewrite <- Lw, Ea, pairs_flat in S |- *.
      destruct (all_some _) eqn:As in S; [|destruct ids; discriminate S]. destruct ids; [|discriminate S].
      apply all_some_map in As as (vs & Ev). rewrite Ev, somes_map. rewrite flag_field in *. change (field (Info (hdr r)) 31 1 =? 1) with (kind_flag r) in *.
      eapply D_enum; eauto; [pose proof (vlen_nonneg (hdr r)); unfold vlen in *; lia|].
      assert (U : Forall (in_u 32) (map snd ws)).
      { apply Forall_forall. intros x Hx. apply in_map_iff in Hx as (w & <- & Hw). rewrite Forall_forall in Aux. apply Aux. rewrite Ea. now apply flat2_In. }
      clear -Ev U. rewrite !map_map in Ev. revert vs Ev. induction ws as [|[no v] ws IH]; intros [|x vs] Ev; try discriminate Ev; [constructor|]. cbn [map named option_map] in Ev.
      inversion U; subst. destruct (nm no) as [s|] eqn:N; [|discriminate Ev]. inversion Ev; subst. constructor; [|auto]. split; [exact N|]. cbn [ev_value snd fst]. apply enum_value. assumption.
    - unfold leaf in E. apply some_inj in E; subst p. cbn [p_steps p_build] in *. destruct ids; [|discriminate S]. rewrite fwd_field. econstructor; eauto.
    - (* func proto *)
      destruct (rec_vlen2 r 0 8 R eq_refl eq_refl) as (ws & Ea & Lw); [tbl|]. apply some_inj in E; subst p. cbn [p_steps p_build] in *.
      rewrite Vlen_field in *. change (field (Info (hdr r)) 0 16) with (vlen r) in *. rewrite <- Lw, Ea, pairs_flat in S |- *. rewrite map_map in S |- *.
      assert (X : exists ids0, ids = ids0 ++ [SizeType (hdr r)] /\ map (option_map snd) (map (fun x => named nm (Some x)) ws) = map Some ids0).
      { destruct (@exists_last _ ids) as (i0 & x & ->); [intros ->; symmetry in S; apply (f_equal (@length _)) in S; rewrite app_length in S; cbn in S; lia|].
        rewrite map_app in S. cbn [map] in S. apply app_inj_tail in S as (S1 & S2). inversion S2; subst x. exists i0. split; [reflexivity|]. rewrite map_map in S1 |- *. exact S1. }
      destruct X as (i0 & -> & S'). apply steps_inv in S' as (l' & E1 & E2). rewrite E1, somes_map.
      assert (F : Forall2 (fun w e => nm (fst w) = Some (fst e) /\ snd w = snd e) ws l').
      { apply (named_map_inv nm fst snd). rewrite <- E1. apply map_ext. intros [a b]. reflexivity. }
      assert (Ei : i0 = map snd ws).
      { rewrite E2. clear -F. induction F as [|w e ws l' (_ & E) F IH]; [reflexivity|]. cbn [map]. rewrite <- E, IH. reflexivity. }
      rewrite map_app, Ei. cbn [map]. rewrite last_last. eapply D_proto; eauto; [pose proof (vlen_nonneg (hdr r)); unfold vlen in *; lia|].
      clear -F. induction F as [|w e ws l' (N & E) F IH]; [constructor|]. cbn [map app zip_with]. constructor; [split; [exact N|reflexivity]|exact IH].
    - (* var *)
      assert (LA : 4 * Z.of_nat (length (aux r)) = 4) by (apply rec_aux_length; [exact R|tbl]). destruct (aux r) as [|l [|]] eqn:Ea; cbn [length] in LA; try lia.
      unfold single in E. apply some_inj in E; subst p. cbn [p_steps p_build] in *. apply (@map_single_inv Z (fun _ => None)) in S; subst ids; cbn [map]. eapply D_var; eauto.
    - (* datasec *)
      destruct (rec_vlen3 r 0 12 R eq_refl eq_refl) as (ws & Ea & Lw); [tbl|]. apply some_inj in E; subst p. cbn [p_steps p_build] in *.
      rewrite Vlen_field in *. change (field (Info (hdr r)) 0 16) with (vlen r) in *. rewrite <- Lw, Ea, triples_flat in S |- *.
      apply steps_inv in S as (l' & E1 & ->). apply map_Some_inj in E1. subst l'. rewrite somes_map.
      eapply D_datasec; eauto; [pose proof (vlen_nonneg (hdr r)); unfold vlen in *; lia|]. clear. induction ws as [|[[a b] c] ws IH]; [constructor|]. cbn [map zip_with fst snd]. constructor; [reflexivity|exact IH].
    - unfold leaf in E. apply some_inj in E; subst p. cbn [p_steps p_build] in *. destruct ids; [|discriminate S]. econstructor; eauto.
    - (* decl tag *)
      assert (LA : 4 * Z.of_nat (length (aux r)) = 4) by (apply rec_aux_length; [exact R|tbl]). destruct (aux r) as [|l [|]] eqn:Ea; cbn [length] in LA; try lia.
      unfold single in E. apply some_inj in E; subst p. cbn [p_steps p_build] in *. apply (@map_single_inv Z (fun _ => None)) in S; subst ids; cbn [map]. inversion Aux; subst. rewrite signed_i32 by assumption. eapply D_decl_tag; eauto.
    - (* enum64 *)
      destruct (rec_vlen3 r 0 12 R eq_refl eq_refl) as (ws & Ea & Lw); [tbl|]. unfold enumeration in E. apply some_inj in E; subst p. cbn [p_steps p_build] in *.
      unfold read_enum64 in *. rewrite Vlen_field in *. change (field (Info (hdr r)) 0 16) with (vlen r) in *. rewrite <- Lw, Ea, triples_flat in S |- *.
      destruct (all_some _) eqn:As in S; [|destruct ids; discriminate S]. destruct ids; [|discriminate S].
      apply all_some_map in As as (vs & Ev). rewrite Ev, somes_map. rewrite flag_field in *. change (field (Info (hdr r)) 31 1 =? 1) with (kind_flag r) in *.
      eapply D_enum64; eauto; [pose proof (vlen_nonneg (hdr r)); unfold vlen in *; lia|].
      assert (U : forall w, In w ws -> in_u 32 (snd (fst w)) /\ in_u 32 (snd w)).
      { intros w Hw. rewrite Forall_forall in Aux. split; apply Aux; rewrite Ea; now apply flat3_In. }
      clear -Ev U. rewrite !map_map in Ev. revert vs Ev. induction ws as [|[[no lo] hi] ws IH]; intros [|x vs] Ev; try discriminate Ev; [constructor|]. cbn [map named option_map] in Ev.
      destruct (nm no) as [s|] eqn:N; [|discriminate Ev]. inversion Ev; subst. constructor; [|apply IH; [intros w Hw; apply U; now right|assumption]]. split; [exact N|]. cbn [ev_value snd fst]. destruct (U _ (or_introl eq_refl)) as (U1 & U2). apply lor_hi; [exact U1|]. unfold in_u in U2. cbn [snd] in U2. lia.
  Qed.

  Lemma describes_plan r f n ids : describes nm recs f r n ids -> exists p, plan_of nm r = Some p /\ p_steps p = map Some ids.
  Proof.
    intros D. unfold plan_of. rewrite Kind_field. change (field (Info (hdr r)) 24 5) with (kind r).
    inversion D as [s raw K N A|s t K N T|s ty ix k K N A|s ws ms K N A V F|s ws ms K N A V F|s ws vs K N A V F|s K N|s t K N T|s t K N T|s t K N T|s t K N T|s t K N T|s ws ps t K N A V F T|s t l K N T A|s ws vs K N A V F|s K N|s t i K N T A|s t K N T|s ws vs K N A V F]; subst n ids;
      unfold name_off in N; rewrite N; kinds K; try (unfold single, leaf; eexists; split; [reflexivity|reflexivity]);
      try (rewrite A; unfold single, leaf; eexists; split; [reflexivity|reflexivity]; fail);
      try (rewrite ?A; unfold single; eexists; split; [reflexivity|cbn [p_steps map]; subst; reflexivity]; fail);
      try (unfold single; eexists; split; [reflexivity|cbn [p_steps map]; subst; reflexivity]; fail).
    - unfold composite. eexists. split; [reflexivity|]. cbn [p_steps]. unfold read_members. rewrite Vlen_field. change (field (Info (hdr r)) 0 16) with (vlen r). rewrite <- V, Nat2Z.id, A, triples_flat, (map_map Some).
      edestruct (fun H => named_map_complete nm (fun w : Z * Z * Z => fst (fst w)) (fun w => (snd (fst w), snd w)) ws _ ms m_name H F) as (l' & E1 & E2).
      { intros [[a b] c] m (X & _). exact X. }
      match goal with |- context [map ?g ws] => assert (E3 : map g ws = map Some l') by (rewrite <- E1; apply map_ext; intros [[a b] c]; reflexivity); rewrite E3 end. rewrite map_map. cbn [option_map]. rewrite <- (map_map (fun m => fst (snd m)) Some). f_equal.
      rewrite <- (map_map snd fst), E2, map_map. reflexivity.
    - unfold composite. eexists. split; [reflexivity|]. cbn [p_steps]. unfold read_members. rewrite Vlen_field. change (field (Info (hdr r)) 0 16) with (vlen r). rewrite <- V, Nat2Z.id, A, triples_flat, (map_map Some).
      edestruct (fun H => named_map_complete nm (fun w : Z * Z * Z => fst (fst w)) (fun w => (snd (fst w), snd w)) ws _ ms m_name H F) as (l' & E1 & E2).
      { intros [[a b] c] m (X & _). exact X. }
      match goal with |- context [map ?g ws] => assert (E3 : map g ws = map Some l') by (rewrite <- E1; apply map_ext; intros [[a b] c]; reflexivity); rewrite E3 end. rewrite map_map. cbn [option_map]. rewrite <- (map_map (fun m => fst (snd m)) Some). f_equal.
      rewrite <- (map_map snd fst), E2, map_map. reflexivity.
    - unfold enumeration. eexists. split; [reflexivity|]. cbn [p_steps map]. unfold read_enum. rewrite Vlen_field. change (field (Info (hdr r)) 0 16) with (vlen r). rewrite <- V, Nat2Z.id, A, pairs_flat, (map_map Some).
      edestruct (fun H => named_map_complete nm fst snd ws _ vs ev_name H F) as (l' & E1 & E2).
      { intros [a b] m (X & _). exact X. }
      match goal with |- context [map ?g ws] => assert (E3 : map g ws = map Some l') by (rewrite <- E1; apply map_ext; intros [a b]; reflexivity); rewrite E3 end. rewrite map_map. cbn [option_map]. unfold all_some. rewrite forallb_map.
      replace (forallb _ l') with true; [reflexivity|]. symmetry. apply forallb_forall. reflexivity.
    - eexists. split; [reflexivity|]. cbn [p_steps]. rewrite Vlen_field. change (field (Info (hdr r)) 0 16) with (vlen r). rewrite <- V, Nat2Z.id, A, pairs_flat, (map_map Some).
      edestruct (fun H => named_map_complete nm fst snd ws _ ps p_name H F) as (l' & E1 & E2).
      { intros [a b] m (X & _). exact X. }
      match goal with |- context [map ?g ws] => assert (E3 : map g ws = map Some l') by (rewrite <- E1; apply map_ext; intros [a b]; reflexivity); rewrite E3 end. rewrite map_map. cbn [option_map]. rewrite <- (map_map snd Some). rewrite E2, map_app. cbn [map]. unfold size_or_type in T. now rewrite T.
    - eexists. split; [reflexivity|]. cbn [p_steps]. rewrite Vlen_field. change (field (Info (hdr r)) 0 16) with (vlen r). rewrite <- V, Nat2Z.id, A, triples_flat, !map_map. reflexivity.
    - unfold enumeration. eexists. split; [reflexivity|]. cbn [p_steps map]. unfold read_enum64. rewrite Vlen_field. change (field (Info (hdr r)) 0 16) with (vlen r). rewrite <- V, Nat2Z.id, A, triples_flat, (map_map Some).
      edestruct (fun H => named_map_complete nm (fun w : Z * Z * Z => fst (fst w)) (fun w => (snd (fst w), snd w)) ws _ vs ev_name H F) as (l' & E1 & E2).
      { intros [[a b] c] m (X & _). exact X. }
      match goal with |- context [map ?g ws] => assert (E3 : map g ws = map Some l') by (rewrite <- E1; apply map_ext; intros [[a b] c]; reflexivity); rewrite E3 end. rewrite map_map. cbn [option_map]. unfold all_some. rewrite forallb_map.
      replace (forallb _ l') with true; [reflexivity|]. symmetry. apply forallb_forall. reflexivity.
  Qed.
End Rec.
