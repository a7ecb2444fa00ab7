(** The image of a type describes that type (DecodeSpec.v). *)
From Coq Require Import ZArith List Lia Bool.
From Verif.Base Require Import GoInt ListExtra.
From Verif.Btf Require Import Strings Wire WireSpec WireProof PropsWire Types TypesSpec DecodeSpec Encode EncodeSpec EncodeImage.
Import ListNotations.
Open Scope Z_scope.

(** the IDs a record refers to *)
Definition ids_in (idf : ref -> Z) (n : node) : list Z :=
  match n with NFuncProto ret ps => map (fun p => idf (p_type p)) ps ++ [idf ret] | NArray ix t _ => [idf ix; idf t] | _ => map idf (refs n) end.

(** ** the info word *)
Definition info_is (i k v fl : Z) : Prop := in_u 32 i /\ field i 24 5 = k /\ field i 0 16 = v /\ field i 31 1 = fl.
Lemma field_zero lo n : 0 <= lo -> 0 <= n -> field 0 lo n = 0.
Proof. intros. unfold field. rewrite Z.div_0_l, Z.mod_0_l; lia || (apply Z.pow_nonzero; lia). Qed.
Lemma info_zero x z : info_is (Info (mkBtfType x 0 z)) 0 0 0.
Proof. unfold info_is. cbn [Info]. rewrite !field_zero by lia. unfold in_u. lia. Qed.
Lemma info_set bt k v fl x lo n : info_is (Info bt) k v fl -> 0 <= n -> 0 <= lo -> n + lo <= 32 ->
  in_u 32 (Info (setInfo bt x n lo)) /\ field (Info (setInfo bt x n lo)) lo n = x mod 2 ^ n /\
  (forall lo' n', 0 <= n' -> 0 <= lo' -> lo' + n' <= lo \/ lo + n <= lo' -> field (Info (setInfo bt x n lo)) lo' n' = field (Info bt) lo' n').
Proof.
  intros (U & _) H1 H2 H3. pose proof (setInfo_writes bt x lo n H1 H2 H3 U) as W. split; [apply W|]. split; [apply W|]. intros lo' n' A B C. exact (writes_other bt _ lo n x lo' n' A B W C).
Qed.
Lemma info_kind bt k v fl k' : info_is (Info bt) k v fl -> 0 <= k' < 32 -> info_is (Info (SetKind bt k')) k' v fl.
Proof.
  intros H R. destruct (info_set bt k v fl (u32 k') 24 5 H) as (A & B & C); [lia..|]. destruct H as (_ & _ & H2 & H3). unfold info_is, SetKind, btfTypeKindLen, btfTypeKindShift.
  split; [exact A|]. rewrite B, !C by lia. rewrite u32_mod by lia. split; [apply Z.mod_small; exact R|auto].
Qed.
Lemma info_vlen bt k v fl x : info_is (Info bt) k v fl -> 0 <= x < 2 ^ 16 -> info_is (Info (SetVlen bt x)) k x fl.
Proof.
  intros H R. destruct (info_set bt k v fl (u32 x) 0 16 H) as (A & B & C); [lia..|]. destruct H as (_ & H1 & H2 & H3). unfold info_is, SetVlen, btfTypeVlenMask, btfTypeVlenShift.
  split; [exact A|]. rewrite B, !C by lia. rewrite u32_mod by lia. split; [auto|]. split; [apply Z.mod_small; exact R|auto].
Qed.
Lemma info_linkage bt k v fl x : info_is (Info bt) k v fl -> 0 <= x < 2 ^ 16 -> info_is (Info (SetLinkage bt x)) k x fl.
Proof. exact (info_vlen bt k v fl x). Qed.
Lemma info_fwd bt k v fl x : info_is (Info bt) k v fl -> 0 <= x < 2 -> info_is (Info (SetFwdKind bt x)) k v x.
Proof.
  intros H R. destruct (info_set bt k v fl (u32 x) 31 1 H) as (A & B & C); [lia..|]. destruct H as (_ & H1 & H2 & H3). unfold info_is, SetFwdKind, btfTypeKindFlagMask, btfTypeKindFlagShift.
  split; [exact A|]. rewrite B, !C by lia. rewrite u32_mod by lia. split; [auto|]. split; [auto|]. apply Z.mod_small. exact R.
Qed.
Lemma info_flag bt k v fl (s : bool) : info_is (Info bt) k v fl -> info_is (Info (setKindFlagBool bt s)) k v (if s then 1 else 0).
Proof.
  intros H. destruct (info_set bt k v fl (if s then 1 else 0) 31 1 H) as (A & B & C); [lia..|]. destruct H as (_ & H1 & H2 & H3). unfold info_is, setKindFlagBool, btfTypeKindFlagMask, btfTypeKindFlagShift.
  split; [exact A|]. rewrite B, !C by lia. split; [auto|]. split; [auto|]. destruct s; reflexivity.
Qed.
Lemma info_size bt k v fl z : info_is (Info bt) k v fl -> info_is (Info (SetSizeType bt z)) k v fl.
Proof. intros H. exact H. Qed.
Lemma info_name bt k v fl z : info_is (Info bt) k v fl -> info_is (Info (SetNameOff bt z)) k v fl.
Proof. intros H. exact H. Qed.
Lemma kind_is r k v fl : info_is (Info (hdr r)) k v fl -> kind r = k.
Proof. intros (_ & H & _). exact H. Qed.
Lemma vlen_is r k v fl : info_is (Info (hdr r)) k v fl -> vlen r = v.
Proof. intros (_ & _ & H & _). exact H. Qed.
Lemma flag_is r k v (s : bool) : info_is (Info (hdr r)) k v (if s then 1 else 0) -> kind_flag r = s.
Proof. intros (_ & _ & _ & H). unfold kind_flag. rewrite H. destruct s; reflexivity. Qed.
Lemma rec_ok_is r k v fl c d : info_is (Info (hdr r)) k v fl -> In (k, (c, d)) aux_table -> in_u 32 (NameOff (hdr r)) -> in_u 32 (SizeType (hdr r)) ->
  4 * Z.of_nat (length (aux r)) = c + d * v -> Forall (in_u 32) (aux r) -> rec_ok r.
Proof.
  intros (U & K & V & _) T N S L A. split; [split; [exact N|split; [exact U|exact S]]|]. split; [|exact A]. exists c, d. rewrite K, V. auto.
Qed.

(** ** integers *)
Lemma int_word_ok z e : in_u 32 z -> in_u 8 e -> z < 32 -> e < 16 ->
  in_u 32 (int_word z e) /\ field (int_word z e) 24 4 = e /\ field (int_word z e) 16 8 = 0 /\ field (int_word z e) 0 8 = 8 * z.
Proof.
  unfold in_u. intros Z1 E1 Lz Le. unfold int_word.
  assert (Eu : u8 (u8 z * 8) = 8 * z). { unfold u8. rewrite (wrapu_id 8 z) by (unfold in_u; lia). rewrite wrapu_id by (unfold in_u; lia). lia. }
  rewrite Eu. unfold SetBits, SetEncoding. assert (U0 : in_u 32 0) by (unfold in_u; lia). assert (U1 : in_u 32 (writeBits 0 4 24 (u32 e))) by (apply write_range; lia || exact U0).
  split; [apply write_range; lia || exact U1|]. rewrite (write_field _ 8 0) by lia. rewrite !(write_other _ 8 0) by lia. rewrite (write_field _ 4 24) by lia. rewrite (write_other _ 4 24) by lia.
  rewrite field_zero, !u32_mod by lia. split; [apply Z.mod_small; lia|]. split; [reflexivity|]. apply Z.mod_small. lia.
Qed.

(** ** members *)
Definition mem_word (flag : bool) (of bits : Z) : Z := u32 (if flag then Z.lor (u32 (Z.shiftl bits 24)) (Z.land of 16777215) else of).
Fixpoint mem_words (flag : bool) (ms : list (str * Z * Z * Z)) : list Z :=
  match ms with [] => [] | m :: ms' => let flag := flag || (snd m >? 0) in mem_word flag (snd (fst m)) (snd m) :: mem_words flag ms' end.
Lemma packed of bits : 0 <= of < 2 ^ 24 -> 0 <= bits < 2 ^ 8 ->
  field (mem_word true of bits) 0 24 = of /\ field (mem_word true of bits) 24 8 = bits.
Proof.
  intros Ro Rb. unfold mem_word. assert (E : Z.lor (u32 (Z.shiftl bits 24)) (Z.land of 16777215) = bits * 2 ^ 24 + of).
  { unfold u32, wrapu. rewrite Z.shiftl_mul_pow2 by lia. rewrite (Z.mod_small (bits * 2 ^ 24)) by lia. change 16777215 with (Z.ones 24). rewrite Z.land_ones, (Z.mod_small of) by lia.
    rewrite <- Z.lxor_lor, <- Z.add_nocarry_lxor; [reflexivity| |]; rewrite <- Z.shiftl_mul_pow2 by lia; apply Z.bits_inj'; intros i Hi; rewrite Z.land_spec, Z.bits_0, Z.shiftl_spec by lia;
    (destruct (Z.ltb_spec i 24); [rewrite Z.testbit_neg_r by lia; reflexivity|]; rewrite (testbit_high of 24 i) by lia; apply andb_false_r). }
  rewrite E. unfold u32. rewrite wrapu_id by (unfold in_u; lia). unfold field. rewrite Z.div_1_r. split.
  - rewrite Z.add_comm, Z_mod_plus_full. apply Z.mod_small. exact Ro.
  - rewrite Z.div_add_l, (Z.div_small of) by lia. rewrite Z.add_0_r. apply Z.mod_small. exact Rb.
Qed.
Lemma plain of : 0 <= of < 2 ^ 24 -> field (mem_word false of 0) 0 24 = of /\ field (mem_word false of 0) 24 8 = 0.
Proof.
  intros R. unfold mem_word, u32. rewrite wrapu_id by (unfold in_u; lia). unfold field. rewrite Z.div_1_r, Z.mod_small by exact R. split; [reflexivity|]. rewrite Z.div_small by exact R. reflexivity.
Qed.
Section Describe.
  Variable nm : Z -> option str.
  Variable recs : list wrec.
  Variable f : Z -> ref.
  Variable nmz : str -> Z.
  Variable idf : ref -> Z.
  Variable ph : Z.
  Hypothesis Hnmz : forall s, in_u 32 (nmz s).
  Hypothesis Hidf : forall r, in_u 32 (idf r).
  Hypothesis Hleg : forall id a b, ~ int_bitfield recs id a b.
  Let g (r : ref) : ref := f (idf r).

  Fixpoint mem_triples (flag : bool) (ms : list member) : list (Z * Z * Z) :=
    match ms with
    | [] => []
    | m :: ms' => let flag := flag || (m_bits m >? 0) in (nmz (m_name m), idf (m_type m), mem_word flag (m_offset m) (m_bits m)) :: mem_triples flag ms'
    end.
  Lemma im_members_flat ms : forall flag, im_members nmz flag (map (mem4 idf) ms) = flat3 (mem_triples flag ms).
  Proof. induction ms as [|m ms IH]; intros flag; [reflexivity|]. cbn [map im_members mem_triples mem4]. rewrite IH. reflexivity. Qed.
  Lemma mem_triples_length ms : forall flag, length (mem_triples flag ms) = length ms.
  Proof. induction ms as [|m ms IH]; intros flag; [reflexivity|]. cbn. now rewrite IH. Qed.
  Lemma mem_triples_ids ms : forall flag, map (fun w => snd (fst w)) (mem_triples flag ms) = map idf (map m_type ms).
  Proof. induction ms as [|m ms IH]; intros flag; [reflexivity|]. cbn. now rewrite IH. Qed.
  Lemma flat3_u32 ws : Forall (fun w => in_u 32 (fst (fst w)) /\ in_u 32 (snd (fst w)) /\ in_u 32 (snd w)) ws -> Forall (in_u 32) (flat3 ws).
  Proof. induction 1 as [|w ws (A & B & C) F IH]; [constructor|]. cbn. repeat (constructor; [assumption|]). exact IH. Qed.
  Lemma flat3_length (ws : list (Z * Z * Z)) : length (flat3 ws) = (3 * length ws)%nat.
  Proof. induction ws as [|w ws IH]; [reflexivity|]. cbn [flat3 map concat app length] in *. unfold flat3 in IH. rewrite IH. lia. Qed.
  Lemma flat2_u32 ws : Forall (fun w => in_u 32 (fst w) /\ in_u 32 (snd w)) ws -> Forall (in_u 32) (flat2 ws).
  Proof. induction 1 as [|w ws (A & B) F IH]; [constructor|]. cbn. repeat (constructor; [assumption|]). exact IH. Qed.
  Lemma flat2_length (ws : list (Z * Z)) : length (flat2 ws) = (2 * length ws)%nat.
  Proof. induction ws as [|w ws IH]; [reflexivity|]. cbn [flat2 map concat app length] in *. unfold flat2 in IH. rewrite IH. lia. Qed.
  Lemma mem_triples_u32 ms : forall flag, Forall (fun w => in_u 32 (fst (fst w)) /\ in_u 32 (snd (fst w)) /\ in_u 32 (snd w)) (mem_triples flag ms).
  Proof. induction ms as [|m ms IH]; intros flag; [constructor|]. cbn. constructor; [|apply IH]. cbn [fst snd]. split; [apply Hnmz|]. split; [apply Hidf|]. apply wrapu_range. lia. Qed.
  Lemma im_flag_spec ms : im_flag (map (mem4 idf) ms) = existsb (fun m => m_bits m >? 0) ms.
  Proof. unfold im_flag. induction ms as [|m ms IH]; [reflexivity|]. cbn. now rewrite IH. Qed.

  Lemma members_flagged ms : Forall (fun m => nm (nmz (m_name m)) = Some (m_name m)) ms -> Forall (fun m => in_u 32 (m_offset m) /\ in_u 32 (m_bits m)) ms ->
    Forall (fun m => m_offset m < 2 ^ 24 /\ m_bits m < 2 ^ 8) ms -> forall flag, Forall2 (member_of nm recs f true) (mem_triples flag ms) (map (bare_member g) ms).
  Proof.
    intros A B C. induction ms as [|m ms IH]; intros flag; [constructor|]. cbn [mem_triples map]. constructor.
    - pose proof (Forall_inv A) as A1. pose proof (Forall_inv B) as B1. pose proof (Forall_inv C) as C1. cbv beta in *. unfold in_u in B1. cbn [member_of bare_member m_name m_type m_tags m_offset m_bits].
      split; [exact A1|]. split; [reflexivity|]. split; [reflexivity|]. destruct (flag || (m_bits m >? 0)) eqn:E.
      + destruct (packed (m_offset m) (m_bits m)) as (P1 & P2); [lia|lia|]. auto.
      + apply orb_false_iff in E as (_ & E). rewrite Z.gtb_ltb in E. apply Z.ltb_ge in E. assert (Eb : m_bits m = 0) by lia. rewrite Eb. destruct (plain (m_offset m)) as (P1 & P2); [lia|]. auto.
    - apply IH; eapply Forall_inv_tail; eassumption.
  Qed.
  Lemma members_plain ms : Forall (fun m => nm (nmz (m_name m)) = Some (m_name m)) ms -> Forall (fun m => in_u 32 (m_offset m) /\ in_u 32 (m_bits m)) ms ->
    existsb (fun m => m_bits m >? 0) ms = false -> Forall2 (member_of nm recs f false) (mem_triples false ms) (map (bare_member g) ms).
  Proof.
    intros A B C. induction ms as [|m ms IH]; [constructor|]. cbn [existsb] in C. apply orb_false_iff in C as (C1 & C2). cbn [mem_triples map]. cbn [orb]. rewrite C1. constructor.
    - pose proof (Forall_inv A) as A1. pose proof (Forall_inv B) as B1. cbv beta in *. unfold in_u in B1. cbn [member_of bare_member m_name m_type m_tags m_offset m_bits].
      split; [exact A1|]. split; [reflexivity|]. split; [reflexivity|]. right. split; [intros; apply Hleg|]. rewrite Z.gtb_ltb in C1. apply Z.ltb_ge in C1. split; [|lia]. unfold mem_word, u32. symmetry. apply wrapu_id. unfold in_u. lia.
    - apply IH; [eapply Forall_inv_tail; eassumption|eapply Forall_inv_tail; eassumption|exact C2].
  Qed.

  Definition enum_pairs (vs : list enumvalue) := map (fun v => (nmz (ev_name v), u32 (ev_value v))) vs.
  Definition enum64_triples (vs : list enumvalue) := map (fun v => (nmz (ev_name v), u32 (ev_value v), u32 (Z.shiftr (ev_value v) 32))) vs.
  Definition param_pairs (ps : list fparam) := map (fun p => (nmz (p_name p), idf (p_type p))) ps.
  Definition var_triples (vs : list secinfo) := map (fun v => (idf (vs_type v), vs_offset v, vs_size v)) vs.
  Lemma im_enum_flat vs : im_enum nmz vs = flat2 (enum_pairs vs).
  Proof. unfold im_enum, flat2, enum_pairs. rewrite map_map. reflexivity. Qed.
  Lemma im_enum64_flat vs : im_enum64 nmz vs = flat3 (enum64_triples vs).
  Proof. unfold im_enum64, flat3, enum64_triples. rewrite map_map. reflexivity. Qed.
  Lemma im_params_flat ps : im_params nmz idf ps = flat2 (param_pairs ps).
  Proof. unfold im_params, flat2, param_pairs. rewrite map_map. reflexivity. Qed.
  Lemma im_vars_flat vs : im_vars idf vs = flat3 (var_triples vs).
  Proof. unfold im_vars, flat3, var_triples. rewrite map_map. reflexivity. Qed.
  Lemma Forall_map' {A B} (h : A -> B) (P : B -> Prop) l : Forall (fun a => P (h a)) l -> Forall P (map h l).
  Proof. induction 1; constructor; auto. Qed.
  Lemma Forall2_map' {A B C} (k : A -> B) (l : A -> C) (P : B -> C -> Prop) xs : Forall (fun a => P (k a) (l a)) xs -> Forall2 P (map k xs) (map l xs).
  Proof. induction 1; constructor; auto. Qed.

  Lemma signed_value v : 0 <= v < 2 ^ 64 -> v < 2 ^ 31 \/ 2 ^ 64 - 2 ^ 31 <= v -> v = if true && (2 ^ 31 <=? u32 v) then u32 v + (2 ^ 64 - 2 ^ 32) else u32 v.
  Proof.
    intros R H. cbn [andb]. unfold u32, wrapu. destruct H as [H|H].
    - rewrite Z.mod_small by lia. destruct (Z.leb_spec (2 ^ 31) v); lia.
    - assert (E : v mod 2 ^ 32 = v - (2 ^ 64 - 2 ^ 32)).
      { change (2 ^ 64) with 18446744073709551616 in *. change (2 ^ 31) with 2147483648 in *. change (2 ^ 32) with 4294967296 in *. symmetry. apply (Z.mod_unique v 4294967296 4294967295); lia. }
      rewrite E. destruct (Z.leb_spec (2 ^ 31) (v - (2 ^ 64 - 2 ^ 32))); lia.
  Qed.
  Lemma unsigned_value v : 0 <= v < 2 ^ 32 -> v = if false && (2 ^ 31 <=? u32 v) then u32 v + (2 ^ 64 - 2 ^ 32) else u32 v.
  Proof. intros R. cbn [andb]. unfold u32. symmetry. apply wrapu_id. exact R. Qed.
  Lemma value64 v : 0 <= v < 2 ^ 64 -> v = u32 v + 2 ^ 32 * u32 (Z.shiftr v 32).
  Proof.
    intros R. rewrite Z.shiftr_div_pow2 by lia. unfold u32, wrapu. rewrite (Z.mod_small (v / 2 ^ 32)); [rewrite Z.add_comm; apply Z.div_mod; lia|].
    split; [apply Z.div_pos; lia|]. apply Z.div_lt_upper_bound; [lia|]. change (2 ^ 32 * 2 ^ 32) with (2 ^ 64). lia.
  Qed.

  Lemma image_describes n : user_type n -> go_range n -> fits n -> enum_in_range n -> (forall s, In s (names_of n) -> nm (nmz s) = Some s) ->
    rec_ok (image noOpts nmz idf ph n) /\ describes nm recs f (image noOpts nmz idf ph n) (bare g n) (ids_in idf n).
  Proof.
    intros Ut Go Fi En Hn. assert (N0 : nm (nmz (type_name n)) = Some (type_name n)) by (apply Hn; now left).
    assert (Ref : forall k t, In (k, (0, 0)) aux_table -> 0 <= k < 32 -> rec_ok (im_ref idf (mkBtfType (nmz (type_name n)) 0 0) k t) /\ kind (im_ref idf (mkBtfType (nmz (type_name n)) 0 0) k t) = k).
    { intros k t Ht Hk. assert (Ii : info_is (Info (hdr (im_ref idf (mkBtfType (nmz (type_name n)) 0 0) k t))) k 0 0) by (unfold im_ref; cbn [hdr]; apply info_size; eapply info_kind; [apply info_zero|exact Hk]).
      split; [|eapply kind_is; exact Ii]. eapply rec_ok_is; [exact Ii|exact Ht|apply Hnmz|apply Hidf|reflexivity|constructor]. }
    assert (Comp : forall k z ms, In (k, (0, 12)) aux_table -> 0 <= k < 32 -> in_u 32 z -> Forall (fun m => in_u 32 (m_offset m) /\ in_u 32 (m_bits m)) ms ->
      Z.of_nat (length ms) < 2 ^ 16 -> (Exists (fun m => 0 < m_bits m) ms -> Forall (fun m => m_offset m < 2 ^ 24 /\ m_bits m < 2 ^ 8) ms) -> (forall m, In m ms -> nm (nmz (m_name m)) = Some (m_name m)) ->
      let r := im_composite nmz (mkBtfType (nmz (type_name n)) 0 0) k z (map (mem4 idf) ms) in
      rec_ok r /\ kind r = k /\ aux r = flat3 (mem_triples false ms) /\ Z.of_nat (length (mem_triples false ms)) = vlen r /\ Forall2 (member_of nm recs f (kind_flag r)) (mem_triples false ms) (map (bare_member g) ms)).
    { intros k z ms Ht Hk Hz Hm Hl He Hnm r. assert (Ii : info_is (Info (hdr r)) k (Z.of_nat (length ms)) (if existsb (fun m => m_bits m >? 0) ms then 1 else 0)).
      { unfold r, im_composite. cbn [hdr]. rewrite im_flag_spec, map_length. eapply info_flag. eapply info_vlen; [apply info_size; eapply info_kind; [apply info_zero|exact Hk]|lia]. }
      assert (Ea : aux r = flat3 (mem_triples false ms)) by (unfold r, im_composite; cbn [aux]; apply im_members_flat).
      split; [|split; [|split; [|split]]].
      - eapply rec_ok_is; [exact Ii|exact Ht|apply Hnmz|exact Hz| |].
        + rewrite Ea, flat3_length, mem_triples_length. lia.
        + rewrite Ea. apply flat3_u32, mem_triples_u32.
      - eapply kind_is. exact Ii.
      - exact Ea.
      - rewrite mem_triples_length. symmetry. eapply vlen_is. exact Ii.
      - rewrite (flag_is _ _ _ _ Ii). assert (Hnm' : Forall (fun m => nm (nmz (m_name m)) = Some (m_name m)) ms) by (apply Forall_forall; exact Hnm).
        destruct (existsb (fun m => m_bits m >? 0) ms) eqn:Ex; [|now apply members_plain]. apply members_flagged; auto. apply He. apply existsb_exists in Ex as (m & Hm1 & Hm2). apply Exists_exists. exists m. split; [exact Hm1|]. rewrite Z.gtb_ltb in Hm2. now apply Z.ltb_lt. }
    assert (Names : forall s, In s (tl (names_of n)) -> nm (nmz s) = Some s) by (intros s Hs; apply Hn; unfold names_of; right; exact Hs).
    destruct n; cbn [image bare ids_in refs map user_type go_range fits enum_in_range type_name names_of tl rename] in *.
    - destruct Go as (G1 & G2), Fi as (F1 & F2). destruct (int_word_ok size enc G1 G2 F1 F2) as (W1 & W2 & W3 & W4).
      set (r := deflateInt (mkBtfType (nmz name) 0 0) size enc). assert (Ii : info_is (Info (hdr r)) 1 0 0) by (unfold r, deflateInt; cbn [hdr]; apply info_size; eapply info_kind; [apply info_zero|unfold kindInt; lia]).
      split.
      + eapply rec_ok_is; [exact Ii|left; reflexivity|apply Hnmz|exact G1|reflexivity|]. unfold r, deflateInt. cbn [aux]. repeat constructor; apply W1.
      + rewrite <- W2. apply (D_int nm recs f r name (int_word size enc)); [eapply kind_is; exact Ii|exact N0|reflexivity].
    - destruct (Ref kindPointer target) as (R1 & R2); [right; now left|unfold kindPointer; lia|]. split; [exact R1|]. eapply D_ptr; [exact R2|exact N0|reflexivity].
    - set (r := mkRec (SetKind (mkBtfType (nmz []) 0 0) kindArray) [idf elem; idf index; nelems]). assert (Ii : info_is (Info (hdr r)) 3 0 0) by (unfold r; cbn [hdr]; eapply info_kind; [apply info_zero|unfold kindArray; lia]).
      split.
      + eapply rec_ok_is; [exact Ii|do 2 right; left; reflexivity|apply Hnmz|unfold r; cbn; unfold in_u; lia|reflexivity|]. unfold r. cbn [aux]. repeat constructor; try apply Hidf; apply Go.
      + eapply D_array; [eapply kind_is; exact Ii|exact N0|reflexivity].
    - destruct Go as (G1 & G2), Fi as (F1 & F2). destruct (Comp kindStruct size ms) as (R1 & R2 & R3 & R4 & R5); auto; [do 3 right; left; reflexivity|unfold kindStruct; lia|intros m Hm; apply Names; now apply in_map|].
      split; [exact R1|]. rewrite <- mem_triples_ids with (flag := false). eapply D_struct; [exact R2|exact N0|exact R3|exact R4|exact R5].
    - destruct Go as (G1 & G2), Fi as (F1 & F2). destruct (Comp kindUnion size ms) as (R1 & R2 & R3 & R4 & R5); auto; [do 4 right; left; reflexivity|unfold kindUnion; lia|intros m Hm; apply Names; now apply in_map|].
      split; [exact R1|]. rewrite <- mem_triples_ids with (flag := false). eapply D_union; [exact R2|exact N0|exact R3|exact R4|exact R5].
    - destruct Go as (G1 & G2). destruct (Z.eqb_spec size 8) as [->|N8]; cbn [noOpts ReplaceEnum64].
      + set (r := mkRec _ _). assert (Ii : info_is (Info (hdr r)) 19 (Z.of_nat (length vals)) (if sgn then 1 else 0)).
        { unfold r. cbn [hdr]. eapply info_flag. eapply info_vlen; [apply info_size; eapply info_kind; [apply info_zero|unfold kindEnum64; lia]|lia]. }
        assert (Ea : aux r = flat3 (enum64_triples vals)) by apply im_enum64_flat. assert (El : length (enum64_triples vals) = length vals) by apply map_length.
        split.
        * eapply rec_ok_is; [exact Ii|do 18 right; left; reflexivity|apply Hnmz|exact G1|rewrite Ea, flat3_length, El; lia|]. rewrite Ea. apply flat3_u32. apply Forall_map'. apply Forall_forall. intros v Hv. cbn [fst snd]. split; [apply Hnmz|]. split; apply wrapu_range; lia.
        * rewrite <- (flag_is _ _ _ _ Ii). eapply (D_enum64 nm recs f r name); [eapply kind_is; exact Ii|exact N0|exact Ea|rewrite El; symmetry; eapply vlen_is; exact Ii|].
          rewrite <- (map_id vals) at 2. apply Forall2_map'. rewrite Forall_forall in *. intros v Hv. cbn [enum64_of]. split; [apply Names; now apply in_map|]. apply value64. apply (G2 v Hv).
      + rewrite andb_true_r. set (r := mkRec _ _). assert (Ii : info_is (Info (hdr r)) 6 (Z.of_nat (length vals)) (if sgn then 1 else 0)).
        { unfold r. cbn [hdr]. eapply info_flag. eapply info_vlen; [apply info_size; eapply info_kind; [apply info_zero|unfold kindEnum; lia]|lia]. }
        assert (Ea : aux r = flat2 (enum_pairs vals)) by apply im_enum_flat. assert (El : length (enum_pairs vals) = length vals) by apply map_length.
        split.
        * eapply rec_ok_is; [exact Ii|do 5 right; left; reflexivity|apply Hnmz|exact G1|rewrite Ea, flat2_length, El; lia|]. rewrite Ea. apply flat2_u32. apply Forall_map'. apply Forall_forall. intros v Hv. cbn [fst snd]. split; [apply Hnmz|]. apply wrapu_range; lia.
        * rewrite <- (flag_is _ _ _ _ Ii). eapply (D_enum nm recs f r name); [eapply kind_is; exact Ii|exact N0|exact Ea|rewrite El; symmetry; eapply vlen_is; exact Ii|].
          rewrite (flag_is _ _ _ _ Ii). rewrite <- (map_id vals) at 2. apply Forall2_map'. specialize (En N8). rewrite Forall_forall in *. intros v Hv. unfold enum_of. cbn [fst snd]. split; [apply Names; now apply in_map|]. specialize (G2 v Hv). specialize (En v Hv). unfold in_u in G2. cbv beta in En. destruct sgn; [now apply signed_value|apply unsigned_value; lia].
    - set (r := mkRec _ _). assert (Ii : info_is (Info (hdr r)) 7 0 kind) by (unfold r; cbn [hdr]; eapply info_fwd; [eapply info_kind; [apply info_zero|unfold kindForward; lia]|exact Fi]). split.
      + eapply rec_ok_is; [exact Ii|do 6 right; left; reflexivity|apply Hnmz|unfold r; cbn; unfold in_u; lia|reflexivity|constructor].
      + assert (Ef : field (Info (hdr r)) 31 1 = kind) by apply Ii. rewrite <- Ef. apply (D_fwd nm recs f r name); [eapply kind_is; exact Ii|exact N0].
    - destruct (Ref kindTypedef t) as (R1 & R2); [do 7 right; left; reflexivity|unfold kindTypedef; lia|]. split; [exact R1|]. eapply D_typedef; [exact R2|exact N0|reflexivity].
    - destruct (Ref kindVolatile t) as (R1 & R2); [do 8 right; left; reflexivity|unfold kindVolatile; lia|]. split; [exact R1|]. eapply D_volatile; [exact R2|exact N0|reflexivity].
    - destruct (Ref kindConst t) as (R1 & R2); [do 9 right; left; reflexivity|unfold kindConst; lia|]. split; [exact R1|]. eapply D_const; [exact R2|exact N0|reflexivity].
    - destruct (Ref kindRestrict t) as (R1 & R2); [do 10 right; left; reflexivity|unfold kindRestrict; lia|]. split; [exact R1|]. eapply D_restrict; [exact R2|exact N0|reflexivity].
    - cbn [noOpts StripFuncLinkage]. set (r := mkRec _ _). assert (Ii : info_is (Info (hdr r)) 12 linkage 0) by (unfold r, im_ref; cbn [hdr]; eapply info_linkage; [apply info_size; eapply info_kind; [apply info_zero|unfold kindFunc; lia]|exact Fi]). split.
      + eapply rec_ok_is; [exact Ii|do 11 right; left; reflexivity|apply Hnmz|apply Hidf|reflexivity|constructor].
      + rewrite <- (vlen_is _ _ _ _ Ii). apply (D_func nm recs f r name (idf t)); [eapply kind_is; exact Ii|exact N0|reflexivity].
    - set (r := mkRec _ _). assert (Ii : info_is (Info (hdr r)) 13 (Z.of_nat (length params)) 0) by (unfold r; cbn [hdr]; eapply info_vlen; [apply info_size; eapply info_kind; [apply info_zero|unfold kindFuncProto; lia]|lia]).
      assert (Ea : aux r = flat2 (param_pairs params)) by apply im_params_flat. assert (El : length (param_pairs params) = length params) by apply map_length. split.
      + eapply rec_ok_is; [exact Ii|do 12 right; left; reflexivity|apply Hnmz|apply Hidf|rewrite Ea, flat2_length, El; lia|]. rewrite Ea. apply flat2_u32. apply Forall_map'. apply Forall_forall. intros v Hv. split; [apply Hnmz|apply Hidf].
      + assert (Ei : map (fun p => idf (p_type p)) params = map snd (param_pairs params)) by (unfold param_pairs; rewrite map_map; reflexivity). rewrite Ei.
        eapply (D_proto nm recs f r [] (param_pairs params)); [eapply kind_is; exact Ii|exact N0|exact Ea|rewrite El; symmetry; eapply vlen_is; exact Ii| |reflexivity].
        apply Forall2_map'. apply Forall_forall. intros v Hv. split; [cbn; apply Names; now apply in_map|reflexivity].
    - set (r := mkRec _ _). assert (Ii : info_is (Info (hdr r)) 14 0 0) by (unfold r, im_ref; cbn [hdr]; apply info_size; eapply info_kind; [apply info_zero|unfold kindVar; lia]). split.
      + eapply rec_ok_is; [exact Ii|do 13 right; left; reflexivity|apply Hnmz|apply Hidf|reflexivity|]. unfold r. cbn [aux]. constructor; [|constructor]. apply wrapu_range. lia.
      + eapply (D_var nm recs f r name); [eapply kind_is; exact Ii|exact N0|reflexivity|]. unfold r. cbn [aux]. unfold u32. rewrite wrapu_id by exact Go. reflexivity.
    - destruct Go as (G1 & G2). set (r := mkRec _ _). assert (Ii : info_is (Info (hdr r)) 15 (Z.of_nat (length vars)) 0) by (unfold r; cbn [hdr]; eapply info_vlen; [apply info_size; eapply info_kind; [apply info_zero|unfold kindDatasec; lia]|lia]).
      assert (Ea : aux r = flat3 (var_triples vars)) by apply im_vars_flat. assert (El : length (var_triples vars) = length vars) by apply map_length. split.
      + eapply rec_ok_is; [exact Ii|do 14 right; left; reflexivity|apply Hnmz|exact G1|rewrite Ea, flat3_length, El; lia|]. rewrite Ea. apply flat3_u32. apply Forall_map'. rewrite Forall_forall in *. intros v Hv. cbn [fst snd]. split; [apply Hidf|]. exact (G2 v Hv).
      + assert (Ei : map idf (map vs_type vars) = map (fun w => fst (fst w)) (var_triples vars)) by (unfold var_triples; rewrite !map_map; reflexivity). rewrite Ei.
        eapply (D_datasec nm recs f r name (var_triples vars)); [eapply kind_is; exact Ii|exact N0|exact Ea|rewrite El; symmetry; eapply vlen_is; exact Ii|].
        apply Forall2_map'. apply Forall_forall. intros v Hv. reflexivity.
    - set (r := mkRec _ _). assert (Ii : info_is (Info (hdr r)) 16 0 0) by (unfold r; cbn [hdr]; apply info_size; eapply info_kind; [apply info_zero|unfold kindFloat; lia]). split.
      + eapply rec_ok_is; [exact Ii|do 15 right; left; reflexivity|apply Hnmz|exact Go|reflexivity|constructor].
      + apply (D_float nm recs f r name); [eapply kind_is; exact Ii|exact N0].
    - destruct Ut.
    - cbn [noOpts ReplaceTypeTags]. set (r := mkRec _ _). assert (Ii : info_is (Info (hdr r)) 18 0 0) by (unfold r, im_ref; cbn [hdr]; apply info_name, info_size; eapply info_kind; [apply info_zero|unfold kindTypeTag; lia]). split.
      + eapply rec_ok_is; [exact Ii|do 17 right; left; reflexivity|apply Hnmz|apply Hidf|reflexivity|constructor].
      + apply (D_type_tag nm recs f r value (idf t)); [eapply kind_is; exact Ii|apply Names; now left|reflexivity].
    - destruct Ut.
  Qed.
  Lemma tag_describes t v i : nm (nmz v) = Some v -> -1 <= i < 2 ^ 31 ->
    rec_ok (im_tag noOpts nmz idf t v i) /\ describes nm recs f (im_tag noOpts nmz idf t v i) (NDeclTag (g t) v i) [idf t].
  Proof.
    intros Hv Hi. unfold im_tag. cbn [noOpts ReplaceDeclTags]. set (r := mkRec _ _). assert (Ii : info_is (Info (hdr r)) 17 0 0) by (unfold r; cbn [hdr]; apply info_name, info_size; eapply info_kind; [apply info_zero|unfold kindDeclTag; lia]). split.
    - eapply rec_ok_is; [exact Ii|do 16 right; left; reflexivity|apply Hnmz|apply Hidf|reflexivity|]. unfold r. cbn [aux]. constructor; [|constructor]. apply wrapu_range. lia.
    - assert (Es : signed32 (u32 i) = i).
      { unfold signed32, u32, wrapu. destruct (Z.eq_dec i (-1)) as [->|]; [reflexivity|]. rewrite Z.mod_small by lia. destruct (Z.ltb_spec i (2 ^ 31)); lia. }
      rewrite <- Es. apply (D_decl_tag nm recs f r v (idf t) (u32 i)); [eapply kind_is; exact Ii|exact Hv|reflexivity|reflexivity].
  Qed.
End Describe.
