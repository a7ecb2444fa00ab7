(** Proofs about the codec of package asm. *)
From Coq Require Import String.
From Verif Require Import Base.GoInt Asm.Model Asm.Spec.
Open Scope Z_scope.

(** evaluate conditionals on closed terms *)
Ltac closed_ifs :=
  repeat match goal with
         | |- context [if ?c then _ else _] =>
           let v := eval vm_compute in c in
           match v with true => idtac | false => idtac end;
           change c with v; cbv iota
         end.

(** ** bit operations as arithmetic *)
Lemma ldiff_sub x m : Z.ldiff x m = x - Z.land x m.
Proof.
  enough (x = Z.ldiff x m + Z.land x m) by lia.
  rewrite Z.add_nocarry_lxor, Z.lxor_lor.
  - symmetry; apply set_id.
  - rewrite (Z.land_comm x m), Z.land_assoc, land_ldiff_self. reflexivity.
  - rewrite (Z.land_comm x m), Z.land_assoc, land_ldiff_self. reflexivity.
Qed.

Lemma set_arith x m v : Z.ldiff v m = 0 -> Z.lor (Z.ldiff x m) v = x - Z.land x m + v.
Proof.
  intros H. rewrite <- ldiff_sub.
  assert (D : Z.land (Z.ldiff x m) v = 0).
  { apply Z.bits_inj'; intros k Hk. rewrite Z.land_spec, Z.ldiff_spec, Z.bits_0.
    pose proof (ldiff_0_bits v m k H).
    destruct (Z.testbit x k), (Z.testbit m k), (Z.testbit v k); simpl in *; auto; discriminate H0; auto. }
  now rewrite Z.add_nocarry_lxor, Z.lxor_lor.
Qed.

Lemma Class_eq op : Class op = op mod 8.
Proof. unfold Class, classMask. apply (land_mask_mod op 3); lia. Qed.

Lemma land_mode op : Z.land op modeMask = (op / 32) mod 8 * 32.
Proof. apply (land_field op 5 3); lia. Qed.
Lemma land_size op : Z.land op sizeMask = (op / 8) mod 4 * 8.
Proof. apply (land_field op 3 2); lia. Qed.
Lemma land_source op : Z.land op sourceMask = (op / 8) mod 2 * 8.
Proof. apply (land_field op 3 1); lia. Qed.
Lemma land_alu op : Z.land op aluMask = (op / 16) mod 1024 * 16.
Proof. apply (land_field op 4 10); lia. Qed.
Lemma land_jump op : Z.land op jumpMask = (op / 16) mod 16 * 16.
Proof. apply (land_field op 4 4); lia. Qed.
Lemma land_atomic op : Z.land op atomicMask = (op / 256) mod 512 * 256.
Proof. apply (land_field op 8 9); lia. Qed.
Lemma land_ff op : Z.land op 0xff = op mod 256.
Proof. apply (land_mask_mod op 8); lia. Qed.

Lemma valid_ff op : 0 <= op -> valid op 0xff = (op <? 256).
Proof.
  intros H. unfold valid. pose proof (ldiff_mask_0 op 8 ltac:(lia) H) as E.
  change (2 ^ 8 - 1) with 0xff in E. change (2 ^ 8) with 256 in E.
  destruct (Z.eqb_spec (Z.ldiff op 0xff) 0), (Z.ltb_spec op 256); auto; lia.
Qed.

Lemma LoadImmOp_DWord : LoadImmOp DWord = 0x18.
Proof. reflexivity. Qed.

Lemma IsDWordLoad_eq op : IsDWordLoad op = (op =? 0x18).
Proof. reflexivity. Qed.

Lemma IsALU_spec op : IsALU (Class op) = true <-> is_alu op.
Proof. unfold IsALU, ALUClass, ALU64Class, is_alu, cls. rewrite Class_eq. lia. Qed.

Lemma ALUOp_alu op : is_alu op -> ALUOp op = (op / 16) mod 1024 * 16.
Proof. intros H. unfold ALUOp. apply IsALU_spec in H. rewrite H. apply land_alu. Qed.

Lemma JumpOp_call op : (JumpOp op =? Call) = true <-> is_call op.
Proof.
  unfold JumpOp, is_call, cls, IsJump, JumpClass, Jump32Class, Call, Exit, InvalidJumpOp.
  rewrite Class_eq, land_jump.
  destruct (Z.eqb_spec (op mod 8) 5) as [E|E]; [rewrite E|];
    destruct (Z.eqb_spec (op mod 8) 6) as [E'|E']; try rewrite E'; cbn [orb negb andb Z.eqb Pos.eqb];
    try lia.
  destruct (Z.eqb_spec ((op / 16) mod 16 * 16) 144), (Z.eqb_spec ((op / 16) mod 16 * 16) 128);
    cbn [orb]; lia.
Qed.

Lemma IsBuiltinCall_spec i : IsBuiltinCall i = true <-> is_builtin (OpCode i) (Dst i) (Src i).
Proof.
  unfold IsBuiltinCall, is_builtin, R0. rewrite !andb_true_iff, JumpOp_call, !Z.eqb_eq. tauto.
Qed.

Lemma isStX_atomic op :
  ((Class op =? StXClass) && (Mode op =? AtomicMode)) = true <-> is_atomic op.
Proof.
  unfold is_atomic, cls, Mode, AtomicMode, StXClass, isLoadOrStore, IsLoad, IsStore.
  rewrite Class_eq, land_mode. unfold LdClass, LdXClass, StClass, StXClass, InvalidMode.
  destruct (Z.eqb_spec (op mod 8) 3) as [E|E]; [rewrite E|]; cbn [orb negb andb Z.eqb Pos.eqb]; lia.
Qed.

Lemma AtomicOp_spec op :
  0 <= op -> (is_atomic op -> AtomicOp op = (op / 256) mod 512 * 256) /\
             (~ is_atomic op -> AtomicOp op = InvalidAtomic).
Proof.
  intros Hop. pose proof (isStX_atomic op) as H. unfold AtomicOp. rewrite land_atomic.
  destruct (Class op =? StXClass), (Mode op =? AtomicMode); cbn [andb negb orb] in *; split; intros;
    auto; try tauto; try (exfalso; destruct H; intuition discriminate).
Qed.

Lemma not_bool (b : bool) (P : Prop) : (b = true <-> P) -> ~ P -> b = false.
Proof. destruct b; intuition. Qed.

(** the setter used for extended ALU ops *)
Lemma SetALUOp_arith op v :
  is_alu op -> 0 <= v < 2 ^ 14 -> v mod 16 = 0 -> SetALUOp op v = op - (op / 16) mod 1024 * 16 + v.
Proof.
  intros Ha Hv Hm. unfold SetALUOp. apply IsALU_spec in Ha. rewrite Ha. cbn [negb orb].
  assert (Hl : Z.land v aluMask = v) by (rewrite land_alu; lia).
  assert (Hd : Z.ldiff v aluMask = 0) by (rewrite ldiff_sub; lia).
  unfold valid. rewrite Hd. cbn [Z.eqb negb]. rewrite set_arith, land_alu by exact Hd. reflexivity.
Qed.

(** ** registers *)
Lemma land_f x : Z.land x 0xf = x mod 16.
Proof. apply (land_mask_mod x 4); lia. Qed.

Lemma nibbles_eq a b :
  Z.lor (u8 (Z.shiftl a 4)) (Z.land b 0xf) = 16 * (a mod 16) + b mod 16.
Proof.
  rewrite land_f. unfold u8, wrapu. rewrite Z.shiftl_mul_pow2 by lia.
  replace (a * 2 ^ 4 mod 2 ^ 8) with ((a mod 16) * 2 ^ 4).
  - rewrite lor_disjoint_add; lia.
  - replace (2 ^ 8) with (16 * 2 ^ 4) by lia. rewrite Z.mul_mod_distr_r by lia. lia.
Qed.

(** ** raw instructions <-> bytes *)
Lemma raw_bytes_length bo w : length (raw_bytes bo w) = 8%nat.
Proof. unfold raw_bytes. rewrite !app_length, !put_length. reflexivity. Qed.

Lemma raw_bytes_ok bo w : raw_ok w -> bytes_ok (raw_bytes bo w).
Proof.
  intros (H1 & H2 & H3 & H4 & H5). unfold raw_bytes.
  apply bytes_ok_app; split; [|apply bytes_ok_app; split; apply put_ok].
  repeat constructor; unfold is_byte; destruct bo; lia.
Qed.

Lemma slices (a b : Z) p2 p4 :
  length p2 = 2%nat -> length p4 = 4%nat ->
  let d := [a; b] ++ p2 ++ p4 in
  byte_at d 0 = a /\ byte_at d 1 = b /\ slice d 2 4 = p2 /\ slice d 4 8 = p4.
Proof.
  destruct p2 as [|x1 [|x2 [|]]]; try discriminate.
  destruct p4 as [|y1 [|y2 [|y3 [|y4 [|]]]]]; try discriminate. intros _ _. cbn. auto.
Qed.

Lemma slice_04 (a b : Z) p2 p4 :
  length p2 = 2%nat -> length p4 = 4%nat -> slice ([a; b] ++ p2 ++ p4) 0 4 = [a; b] ++ p2.
Proof.
  destruct p2 as [|x1 [|x2 [|]]]; try discriminate.
  destruct p4 as [|y1 [|y2 [|y3 [|y4 [|]]]]]; try discriminate. intros _ _. reflexivity.
Qed.

Lemma i16_get_put bo x : in_s 16 x -> i16 (get bo (put bo 2 (x mod 2 ^ 16))) = x.
Proof.
  intros H. rewrite get_put, pow256_2, Z.mod_mod by lia. unfold i16.
  change (x mod 2 ^ 16) with (wrapu 16 x). rewrite sext_wrapu by lia. apply sext_id; [lia|exact H].
Qed.

Lemma i32_get_put bo x : in_s 32 x -> i32 (get bo (put bo 4 (x mod 2 ^ 32))) = x.
Proof.
  intros H. rewrite get_put, pow256_4, Z.mod_mod by lia. unfold i32.
  change (x mod 2 ^ 32) with (wrapu 32 x). rewrite sext_wrapu by lia. apply sext_id; [lia|exact H].
Qed.

Lemma unmarshalFields_raw bo w :
  raw_ok w ->
  unmarshalFields bo (raw_bytes bo w) =
  mkIns (r_op w) (r_dst w) (r_src w) (r_off w) (r_imm w) EmptyString EmptyString None.
Proof.
  intros (H1 & H2 & H3 & H4 & H5). unfold unmarshalFields, raw_bytes.
  match goal with |- context [[?a; ?b] ++ ?p2 ++ ?p4] =>
    destruct (slices a b p2 p4 (put_length _ _ _) (put_length _ _ _)) as (E0 & E1 & E2 & E3) end.
  rewrite E0, E1, E2, E3, i16_get_put, i32_get_put by assumption.
  assert (D : decodeRegs (match bo with LE => r_dst w + 16 * r_src w | BE => 16 * r_dst w + r_src w end) bo
              = (r_dst w, r_src w)).
  { destruct bo; unfold decodeRegs; rewrite land_f, Z.shiftr_div_pow2 by lia; f_equal; lia. }
  rewrite D. reflexivity.
Qed.

Lemma read_full_app n (d r : list Z) : (0 < n)%nat -> length d = n -> read_full n (d ++ r) = Ok (d, r).
Proof.
  intros Hn Hd. unfold read_full. destruct (d ++ r) eqn:E.
  - apply app_eq_nil in E as [-> ->]. simpl in Hd; lia.
  - rewrite <- E. destruct (Nat.ltb_spec (length (d ++ r)) n) as [L|L].
    + rewrite app_length in L; lia.
    + rewrite firstn_app, skipn_app, Hd, Nat.sub_diag, firstn_all2, skipn_all2 by lia.
      cbn. now rewrite app_nil_r.
Qed.

Lemma raw_low_zero bo w : raw_ok w ->
  (get bo (slice (raw_bytes bo w) 0 4) =? 0) = true <->
  (r_op w = 0 /\ r_dst w = 0 /\ r_src w = 0 /\ r_off w = 0).
Proof.
  intros (H1 & H2 & H3 & H4 & H5). unfold raw_bytes. rewrite slice_04 by apply put_length.
  rewrite Z.eqb_eq.
  pose proof (get_put bo 2 (r_off w mod 2 ^ 16)) as G. rewrite pow256_2, Z.mod_mod in G by lia.
  assert (Hoff : r_off w mod 2 ^ 16 = 0 <-> r_off w = 0) by (unfold in_s in H4; lia).
  pose proof (put_length bo 2 (r_off w mod 2 ^ 16)) as Hl.
  pose proof (put_ok bo 2 (r_off w mod 2 ^ 16)) as Ho.
  destruct (put bo 2 (r_off w mod 2 ^ 16)) as [|x [|y [|]]]; try discriminate Hl.
  apply Forall_cons_iff in Ho as [Hx Ho]. apply Forall_cons_iff in Ho as [Hy _]. unfold is_byte in *.
  destruct bo; cbn [app get le_val rev] in *; lia.
Qed.

(** Every 8 bytes are a raw instruction *)
Definition parse_raw (bo : byteorder) (d : list Z) : raw :=
  let r := decodeRegs (byte_at d 1) bo in
  mkRaw (byte_at d 0) (fst r) (snd r) (i16 (get bo (slice d 2 4))) (i32 (get bo (slice d 4 8))).

Lemma put_sext bo n w l :
  0 < w -> 256 ^ Z.of_nat n = 2 ^ w -> bytes_ok l -> length l = n ->
  put bo n (sext w (get bo l) mod 2 ^ w) = l.
Proof.
  intros Hw Hp Hb Hl. rewrite sext_mod, <- Hp, put_mod by lia. rewrite <- Hl. now apply put_get.
Qed.

Lemma parse_raw_ok bo d :
  bytes_ok d -> length d = 8%nat -> raw_ok (parse_raw bo d) /\ raw_bytes bo (parse_raw bo d) = d.
Proof.
  intros Hb Hl.
  destruct d as [|a [|b [|x1 [|x2 [|y1 [|y2 [|y3 [|y4 [|]]]]]]]]]; try discriminate Hl.
  unfold bytes_ok in Hb. rewrite !Forall_cons_iff in Hb.
  destruct Hb as (Ha & Hbb & Hx1 & Hx2 & Hy1 & Hy2 & Hy3 & Hy4 & _).
  assert (Hx : bytes_ok [x1; x2]) by (unfold bytes_ok; auto using Forall_cons, Forall_nil).
  assert (Hy : bytes_ok [y1; y2; y3; y4]) by (unfold bytes_ok; auto using Forall_cons, Forall_nil).
  unfold is_byte in Ha, Hbb.
  unfold parse_raw. set (d := [a; b; x1; x2; y1; y2; y3; y4]).
  change (byte_at d 1) with b. change (byte_at d 0) with a.
  change (slice d 2 4) with [x1; x2]. change (slice d 4 8) with [y1; y2; y3; y4].
  assert (S2 := put_sext bo 2 16 [x1; x2] ltac:(lia) pow256_2 Hx eq_refl).
  assert (S4 := put_sext bo 4 32 [y1; y2; y3; y4] ltac:(lia) pow256_4 Hy eq_refl).
  assert (R : decodeRegs b bo = match bo with LE => (b mod 16, b / 16) | BE => (b / 16, b mod 16) end).
  { destruct bo; cbn [decodeRegs]; rewrite land_f, Z.shiftr_div_pow2 by lia; reflexivity. }
  rewrite R. split.
  - unfold raw_ok; cbn [r_op r_dst r_src r_off r_imm].
    repeat split; try (destruct bo; cbn [fst snd]; lia);
      try apply (sext_range 16 _ ltac:(lia)); try apply (sext_range 32 _ ltac:(lia)); lia.
  - unfold raw_bytes; cbn [r_op r_dst r_src r_off r_imm]. unfold i16, i32. rewrite S2, S4.
    destruct bo; cbn [fst snd app]; unfold d; repeat f_equal; lia.
Qed.

(** ** Decoding a raw instruction stream *)
Notation fields_of := verbatim.

Lemma Unmarshal_raw bo p w rest i :
  raw_ok w -> unmarshalOp p (fields_of w) = Ok i -> OpCode i <> 0x18 ->
  Unmarshal bo p (raw_bytes bo w ++ rest) = Ok (i, rest).
Proof.
  intros Hw Hu Ho. unfold Unmarshal. rewrite read_full_app; [|lia|apply raw_bytes_length].
  rewrite unmarshalFields_raw by exact Hw. unfold fields_of in Hu. rewrite Hu.
  rewrite IsDWordLoad_eq. destruct (Z.eqb_spec (OpCode i) 0x18); [contradiction|reflexivity].
Qed.

Lemma hi_lo hi lo :
  in_s 32 hi -> in_s 32 lo ->
  Z.lor (i64 (Z.shiftl hi 32)) (u32 lo) = hi * 2 ^ 32 + lo mod 2 ^ 32.
Proof.
  unfold in_s; intros Hh Hl. rewrite Z.shiftl_mul_pow2 by lia.
  unfold i64, u32, wrapu. rewrite sext_id by (unfold in_s; lia).
  apply lor_disjoint_add; lia.
Qed.

Lemma Unmarshal_raw2 bo p w w2 rest i :
  raw_ok w -> raw_ok w2 -> unmarshalOp p (fields_of w) = Ok i -> OpCode i = 0x18 -> in_s 32 (Constant i) ->
  Unmarshal bo p (raw_bytes bo w ++ raw_bytes bo w2 ++ rest) =
  if (r_op w2 =? 0) && (r_dst w2 =? 0) && (r_src w2 =? 0) && (r_off w2 =? 0)
  then Ok (set_cons i (r_imm w2 * 2 ^ 32 + Constant i mod 2 ^ 32), rest)
  else Err ENonZeroFields.
Proof.
  intros Hw Hw2 Hu Ho Hc. unfold Unmarshal. rewrite read_full_app; [|lia|apply raw_bytes_length].
  rewrite unmarshalFields_raw by exact Hw. unfold fields_of in Hu. rewrite Hu.
  rewrite IsDWordLoad_eq, Ho. cbn [Z.eqb Pos.eqb negb].
  rewrite read_full_app; [|lia|apply raw_bytes_length].
  pose proof (raw_low_zero bo w2 Hw2) as Hz.
  assert (Hi : i32 (get bo (slice (raw_bytes bo w2) 4 8)) = r_imm w2).
  { pose proof (unmarshalFields_raw bo w2 Hw2) as F. apply (f_equal Constant) in F. exact F. }
  destruct (get bo (slice (raw_bytes bo w2) 0 4) =? 0).
  - cbn [negb]. destruct (proj1 Hz eq_refl) as (-> & -> & -> & ->). cbn [Z.eqb andb].
    rewrite Hi, hi_lo; [reflexivity| apply Hw2 | exact Hc].
  - cbn [negb]. destruct (_ && _) eqn:E; [|reflexivity].
    rewrite !andb_true_iff, !Z.eqb_eq in E. destruct Hz as [_ Hz]. discriminate Hz; tauto.
Qed.

(** the decoder on opcode level, by kind *)
Lemma unmarshalOp_builtin p w :
  is_builtin (r_op w) (r_dst w) (r_src w) -> in_s 32 (r_imm w) ->
  unmarshalOp p (fields_of w) =
  if r_imm w <? 0 then Ok (fields_of w)
  else if 2 ^ 28 <=? r_imm w then Err EConstant
  else match plat_tag p with
       | None => Err EConstant
       | Some t => Ok (set_cons (fields_of w) (t * 2 ^ 28 + r_imm w))
       end.
Proof.
  intros Hb Hi. unfold in_s in Hi. unfold unmarshalOp.
  replace (IsBuiltinCall (fields_of w)) with true by (symmetry; apply IsBuiltinCall_spec; exact Hb).
  cbn [fields_of Constant]. rewrite Z.geb_leb.
  destruct (Z.leb_spec 0 (r_imm w)) as [H|H], (Z.ltb_spec (r_imm w) 0) as [H'|H']; try lia; [|reflexivity].
  unfold EncodeConstant, u32, wrapu. rewrite Z.mod_small by lia.
  unfold platformShift at 1. rewrite Z.shiftr_div_pow2 by lia.
  destruct (Z.leb_spec (2 ^ 28) (r_imm w)) as [L|L].
  - replace (r_imm w / 2 ^ 28 >? 0) with true by lia. reflexivity.
  - replace (r_imm w / 2 ^ 28 >? 0) with false by lia.
    destruct p; cbn [tagForPlatform plat_tag]; try reflexivity.
    do 2 f_equal. change WindowsTag with (1 * 2 ^ 28). rewrite lor_disjoint_add; lia.
Qed.

Lemma class_disjoint op d s :
  (is_builtin op d s -> ~ is_alu op) /\ (is_alu op -> ~ is_atomic op) /\
  (is_builtin op d s -> ~ is_atomic op) /\ (is_builtin op d s -> op <> 0x18) /\
  (is_alu op -> op <> 0x18) /\ (is_atomic op -> op <> 0x18).
Proof.
  unfold is_builtin, is_call, is_alu, is_atomic, cls.
  repeat split; intros; try (intros ->); try (destruct H); cbn in *; lia.
Qed.

Lemma unmarshalOp_alu p w :
  is_alu (r_op w) -> unmarshalOp p (fields_of w) = Ok (unmarshalALU (fields_of w)).
Proof.
  intros Ha. unfold unmarshalOp.
  rewrite (not_bool _ _ (IsBuiltinCall_spec (fields_of w))).
  - cbn [fields_of OpCode]. now rewrite (proj2 (IsALU_spec (r_op w)) Ha).
  - intros Hb. exact (proj1 (class_disjoint _ _ _) Hb Ha).
Qed.

Lemma unmarshalOp_atomic p w :
  0 <= r_op w < 256 -> is_atomic (r_op w) ->
  unmarshalOp p (fields_of w) = Ok (set_op (fields_of w) (r_imm w mod 512 * 256 + r_op w)).
Proof.
  intros Hop Ha. unfold unmarshalOp.
  rewrite (not_bool _ _ (IsBuiltinCall_spec (fields_of w))).
  2:{ intros Hb. exact (proj1 (proj2 (proj2 (class_disjoint _ _ _))) Hb Ha). }
  cbn [fields_of OpCode Constant].
  rewrite (not_bool _ _ (IsALU_spec (r_op w))).
  2:{ intros Hb. exact (proj1 (proj2 (class_disjoint _ 0 0)) Hb Ha). }
  rewrite (proj2 (isStX_atomic (r_op w)) Ha).
  do 2 f_equal. rewrite land_atomic, Z.shiftl_mul_pow2 by lia. unfold u32, wrapu.
  replace ((r_imm w * 2 ^ 8) mod 2 ^ 32 / 256 mod 512) with (r_imm w mod 512).
  - rewrite Z.lor_comm. apply (lor_disjoint_add _ _ 8); lia.
  - replace (2 ^ 32) with (2 ^ 24 * 2 ^ 8) by reflexivity. rewrite Z.mul_mod_distr_r by lia.
    change 256 with (2 ^ 8). rewrite Z.div_mul by lia.
    symmetry. apply (wrapu_le 9 24); lia.
Qed.

Lemma unmarshalOp_plain p w :
  ~ is_builtin (r_op w) (r_dst w) (r_src w) -> ~ is_alu (r_op w) -> ~ is_atomic (r_op w) ->
  unmarshalOp p (fields_of w) = Ok (fields_of w).
Proof.
  intros Hb Ha Ht. unfold unmarshalOp.
  rewrite (not_bool _ _ (IsBuiltinCall_spec (fields_of w)) Hb).
  cbn [fields_of OpCode].
  rewrite (not_bool _ _ (IsALU_spec (r_op w)) Ha), (not_bool _ _ (isStX_atomic (r_op w)) Ht).
  reflexivity.
Qed.

(** ALU decoding, arithmetically *)
Lemma unmarshalALU_none w :
  0 <= r_op w < 256 -> is_alu (r_op w) ->
  ~ (exists ext, ext_alu ext (r_op w / 16) (r_off w)) ->
  unmarshalALU (fields_of w) = fields_of w.
Proof.
  intros Hop Ha Hn. unfold unmarshalALU. cbn [fields_of OpCode Offset].
  rewrite ALUOp_alu by exact Ha.
  replace ((r_op w / 16) mod 1024) with (r_op w / 16) by lia.
  unfold Div, Mod, Mov.
  assert (N1 : ~ (r_op w / 16 = 3 /\ r_off w = 1)).
  { intros [E1 E2]. apply Hn. exists 1. rewrite E1, E2. constructor. }
  assert (N2 : ~ (r_op w / 16 = 9 /\ r_off w = 1)).
  { intros [E1 E2]. apply Hn. exists 1. rewrite E1, E2. constructor. }
  assert (N3 : ~ (r_op w / 16 = 0xb /\ r_off w = 8)).
  { intros [E1 E2]. apply Hn. exists 1. rewrite E1, E2. constructor. }
  assert (N4 : ~ (r_op w / 16 = 0xb /\ r_off w = 16)).
  { intros [E1 E2]. apply Hn. exists 2. rewrite E1, E2. constructor. }
  assert (N5 : ~ (r_op w / 16 = 0xb /\ r_off w = 32)).
  { intros [E1 E2]. apply Hn. exists 3. rewrite E1, E2. constructor. }
  clear Hn.
  destruct (Z.eqb_spec (r_op w / 16 * 16) 0x30) as [E|E].
  { destruct (Z.eqb_spec (r_off w) 1); [exfalso; lia|reflexivity]. }
  destruct (Z.eqb_spec (r_op w / 16 * 16) 0x90) as [E'|E'].
  { destruct (Z.eqb_spec (r_off w) 1); [exfalso; lia|reflexivity]. }
  destruct (Z.eqb_spec (r_op w / 16 * 16) 0xb0) as [E''|E'']; [|reflexivity].
  destruct (Z.eqb_spec (r_off w) 8); [exfalso; lia|].
  destruct (Z.eqb_spec (r_off w) 16); [exfalso; lia|].
  destruct (Z.eqb_spec (r_off w) 32); [exfalso; lia|reflexivity].
Qed.

Lemma unmarshalALU_ext w ext :
  0 <= r_op w < 256 -> is_alu (r_op w) -> ext_alu ext (r_op w / 16) (r_off w) ->
  unmarshalALU (fields_of w) = set_off (set_op (fields_of w) (ext * 256 + r_op w)) 0.
Proof.
  intros Hop Ha He. unfold unmarshalALU. cbn [fields_of OpCode Offset].
  rewrite ALUOp_alu by exact Ha.
  replace ((r_op w / 16) mod 1024) with (r_op w / 16) by lia.
  assert (S : forall v, 0 <= v < 2 ^ 14 -> v mod 16 = 0 ->
                        SetALUOp (r_op w) v = r_op w - r_op w / 16 * 16 + v).
  { intros v Hv Hm. rewrite SetALUOp_arith by assumption. lia. }
  remember (r_op w / 16) as base. remember (r_off w) as off.
  destruct He; closed_ifs; rewrite S by (cbn; lia); do 2 f_equal;
    unfold SDiv, SMod, MovSX8, MovSX16, MovSX32, Div, Mod, Mov; lia.
Qed.

(** ** Encoding *)
Lemma decode_const_tag t n p :
  plat_tag p = Some t -> 0 <= n < 2 ^ 28 ->
  DecodeConstant (u32 (t * 2 ^ 28 + n)) = (p, n).
Proof.
  intros Hp Hn.
  assert (Ht : 0 <= t <= 1) by (destruct p; inversion Hp; lia).
  unfold u32, wrapu. rewrite Z.mod_small by lia.
  unfold DecodeConstant, platformForConstant. rewrite ldiff_sub.
  change platformMask with (Z.shiftl (2 ^ 3 - 1) 28). rewrite land_field by lia.
  replace ((t * 2 ^ 28 + n) / 2 ^ 28) with t by lia.
  replace (t mod 2 ^ 3) with t by lia.
  destruct p; inversion Hp; subst t; cbv zeta; closed_ifs; f_equal; lia.
Qed.

Lemma newBPFRegisters_raw d s bo :
  0 <= d < 16 -> 0 <= s < 16 ->
  newBPFRegisters d s bo = match bo with LE => d + 16 * s | BE => 16 * d + s end.
Proof.
  intros Hd Hs. destruct bo; cbn [newBPFRegisters]; rewrite nibbles_eq, !Z.mod_small by lia; lia.
Qed.

Lemma bpfOpCode_small op : 0 <= op < 256 -> bpfOpCode op = Some op.
Proof.
  intros H. unfold bpfOpCode. rewrite valid_ff by lia.
  replace (op <? 256) with true by lia. cbn [negb]. rewrite land_ff, Z.mod_small by lia. reflexivity.
Qed.

Lemma bpfOpCode_big op : 256 <= op -> bpfOpCode op = None.
Proof.
  intros H. unfold bpfOpCode. rewrite valid_ff by lia.
  replace (op <? 256) with false by lia. reflexivity.
Qed.

(** general shape of a successful encoding of a single slot instruction *)
Lemma Marshal_shape native bo i op off imm c :
  OpCode i <> 0xffff -> regs_ok i ->
  marshalOp native i = Ok (op, off, imm, c) -> 0 <= op < 256 ->
  Marshal native bo i =
    (if OpCode i =? 0x18
     then Ok (raw_bytes bo (mkRaw op (Dst i) (Src i) off imm) ++
              raw_bytes bo (mkRaw 0 0 0 0 (Z.shiftr c 32)), 16)
     else Ok (raw_bytes bo (mkRaw op (Dst i) (Src i) off imm), 8)).
Proof.
  intros Hinv (Hd & Hs & Hoff) Hm Hop. unfold Marshal.
  destruct (Z.eqb_spec (OpCode i) InvalidOpCode) as [E|E]; [contradiction|].
  rewrite Hm, bpfOpCode_small, newBPFRegisters_raw, IsDWordLoad_eq by assumption.
  destruct (OpCode i =? 0x18); cbn [negb]; [|reflexivity].
  unfold raw_bytes. cbn [r_op r_dst r_src r_off r_imm]. f_equal. f_equal.
  rewrite <- !app_assoc. f_equal. f_equal. f_equal.
  destruct bo; reflexivity.
Qed.

Lemma marshalOp_builtin native i :
  is_builtin (OpCode i) (Dst i) (Src i) ->
  marshalOp native i =
  (let '(p, value) := DecodeConstant (u32 (Constant i)) in
   if plat_eqb p native then Ok (OpCode i, Offset i, i32 value, Constant i) else Err ENotNative).
Proof.
  intros Hb. unfold marshalOp. rewrite (proj2 (IsBuiltinCall_spec i) Hb).
  destruct (DecodeConstant _) as [p v]. now destruct (plat_eqb p native).
Qed.

Lemma marshalOp_alu native i :
  is_alu (OpCode i) ->
  marshalOp native i = match marshalALU (OpCode i) (Offset i) with
                       | Err e => Err e
                       | Ok (op, off) => Ok (op, off, i32 (Constant i), Constant i)
                       end.
Proof.
  intros Ha. unfold marshalOp.
  rewrite (not_bool _ _ (IsBuiltinCall_spec i)).
  - now rewrite (proj2 (IsALU_spec _) Ha).
  - intros Hb. exact (proj1 (class_disjoint _ _ _) Hb Ha).
Qed.

Lemma marshalOp_atomic native i :
  0 <= OpCode i -> is_atomic (OpCode i) ->
  marshalOp native i = Ok (OpCode i - (OpCode i / 256) mod 512 * 256, Offset i, i32 (Constant i),
                           (OpCode i / 256) mod 512).
Proof.
  intros Hop Ha. unfold marshalOp.
  rewrite (not_bool _ _ (IsBuiltinCall_spec i)).
  2:{ intros Hb. exact (proj1 (proj2 (proj2 (class_disjoint _ _ _))) Hb Ha). }
  rewrite (not_bool _ _ (IsALU_spec (OpCode i))).
  2:{ intros Hb. exact (proj1 (proj2 (class_disjoint _ 0 0)) Hb Ha). }
  rewrite (proj1 (AtomicOp_spec _ Hop) Ha).
  destruct (Z.eqb_spec ((OpCode i / 256) mod 512 * 256) InvalidAtomic) as [E|E].
  { unfold InvalidAtomic in E. lia. }
  cbn [negb]. rewrite ldiff_sub, land_atomic, Z.shiftr_div_pow2 by lia.
  change (2 ^ 8) with 256. now rewrite Z.div_mul by lia.
Qed.

Lemma marshalOp_plain native i :
  0 <= OpCode i -> ~ is_builtin (OpCode i) (Dst i) (Src i) -> ~ is_alu (OpCode i) -> ~ is_atomic (OpCode i) ->
  marshalOp native i = Ok (OpCode i, Offset i, i32 (Constant i), Constant i).
Proof.
  intros Hop Hb Ha Ht. unfold marshalOp.
  rewrite (not_bool _ _ (IsBuiltinCall_spec i) Hb), (not_bool _ _ (IsALU_spec (OpCode i)) Ha).
  rewrite (proj2 (AtomicOp_spec _ Hop) Ht), Z.eqb_refl. reflexivity.
Qed.

(** the extended ALU operation of an opcode, if any *)
Lemma marshalALU_spec op off :
  0 <= op -> is_alu op ->
  (forall ext base o8, (op / 16) mod 1024 = ext * 16 + base -> ext_alu ext base o8 ->
      marshalALU op off = if off =? 0 then Ok (op - ext * 256, o8) else Err EAluOffset) /\
  ((forall ext base o8, (op / 16) mod 1024 = ext * 16 + base -> ~ ext_alu ext base o8) ->
      marshalALU op off = Ok (op, 0)).
Proof.
  intros Hop Ha. unfold marshalALU. rewrite ALUOp_alu by exact Ha.
  assert (S : forall v, 0 <= v < 2 ^ 14 -> v mod 16 = 0 ->
                        SetALUOp op v = op - (op / 16) mod 1024 * 16 + v)
    by (intros; now apply SetALUOp_arith).
  set (k := (op / 16) mod 1024) in *. clearbody k. split.
  - intros ext base o8 Hk He.
    destruct He; subst k; closed_ifs; (rewrite S; [|vm_compute; intuition congruence|reflexivity]);
    destruct (Z.eqb_spec off 0); cbn [andb negb Z.eqb]; try reflexivity;
    match goal with |- Ok (?a, _) = Ok (?b, _) =>
      replace a with b by (unfold SDiv, SMod, MovSX8, MovSX16, MovSX32, Div, Mod, Mov; lia) end;
    reflexivity.
  - intros Hn.
    assert (Hx : forall e b o, ext_alu e b o -> k <> e * 16 + b).
    { intros e b o He Hk. exact (Hn e b o Hk He). }
    pose proof (Hx _ _ _ ext_sdiv). pose proof (Hx _ _ _ ext_smod).
    pose proof (Hx _ _ _ ext_movsx8). pose proof (Hx _ _ _ ext_movsx16). pose proof (Hx _ _ _ ext_movsx32).
    unfold Div, Mod, Mov, SDiv, SMod, MovSX8, MovSX16, MovSX32, Div, Mod, Mov.
    destruct (Z.eqb_spec (k * 16) (0x30 + 0x100)); [lia|].
    destruct (Z.eqb_spec (k * 16) (0x90 + 0x100)); [lia|].
    destruct (Z.eqb_spec (k * 16) (0xb0 + 0x100)); [lia|].
    destruct (Z.eqb_spec (k * 16) (0xb0 + 0x200)); [lia|].
    destruct (Z.eqb_spec (k * 16) (0xb0 + 0x300)); [lia|]. reflexivity.
Qed.

Lemma encodes_raw_ok native i ws : encodes native i ws -> Forall raw_ok ws.
Proof.
  intros H; destruct H as [t n Hr Hb Hop Ht Hn Hc|Hr Hb Hop Ht Hc|Hr Ha Hop Ho Hc|ext base off op8 Hr Ha Hop He Hb Hi Ho Hc
    |op8 Hr Ha Hop Hc Hi|lo hi Hr Hd Hl Hh Hc|Hr Hb Ha Ht Hd Hop Hc];
  destruct Hr as (R1 & R2 & R3); repeat constructor; cbn [r_op r_dst r_src r_off r_imm];
  unfold in_s in *; try lia; try (destruct He; lia).
Qed.

Lemma i32_id x : in_s 32 x -> i32 x = x.
Proof. apply sext_id; lia. Qed.

Lemma Marshal_encodes native bo i ws :
  encodes native i ws ->
  Marshal native bo i = Ok (stream_bytes bo ws, 8 * Z.of_nat (length ws)).
Proof.
  intros H; destruct H as [t n Hr Hb Hop Ht Hn Hc|Hr Hb Hop Ht Hc|Hr Ha Hop Ho Hc|ext base off op8 Hr Ha Hop He Hb Hi Ho Hc
    |op8 Hr Ha Hop Hc Hi|lo hi Hr Hd Hl Hh Hc|Hr Hb Ha Ht Hd Hop Hc];
    unfold stream_bytes; cbn [map concat length Z.of_nat Pos.of_succ_nat Pos.succ]; rewrite app_nil_r.
  - destruct Hb as (Hcall & Hd & Hs).
    rewrite (Marshal_shape native bo i (OpCode i) (Offset i) n (Constant i)); try assumption; try lia.
    + rewrite Hd, Hs. destruct (Z.eqb_spec (OpCode i) 0x18) as [E|E]; [|reflexivity].
      exfalso. unfold is_call, cls in Hcall. rewrite E in Hcall. cbn in Hcall; lia.
    + rewrite marshalOp_builtin by (split; auto). rewrite Hc, (decode_const_tag _ _ _ Ht Hn).
      replace (plat_eqb native native) with true by (destruct native; reflexivity).
      rewrite i32_id by (unfold in_s; lia). reflexivity.
  - destruct Hb as (Hcall & Hd & Hs). subst native.
    rewrite (Marshal_shape _ bo i (OpCode i) (Offset i) (Constant i) (Constant i)); try assumption; try lia.
    + rewrite Hd, Hs. destruct (Z.eqb_spec (OpCode i) 0x18) as [E|E]; [|reflexivity].
      exfalso. unfold is_call, cls in Hcall. rewrite E in Hcall. cbn in Hcall; lia.
    + rewrite marshalOp_builtin by (split; auto).
      assert (E : DecodeConstant (u32 (Constant i)) = (PLinux, u32 (Constant i))).
      { unfold DecodeConstant, platformForConstant. rewrite ldiff_sub.
        change platformMask with (Z.shiftl (2 ^ 3 - 1) 28). rewrite land_field by lia.
        replace (u32 (Constant i)) with (Constant i + 2 ^ 32)
          by (unfold u32, wrapu; symmetry; apply (mod_unique _ _ _ (-1)); lia).
        replace ((Constant i + 2 ^ 32) / 2 ^ 28 mod 2 ^ 3) with 0 by lia.
        cbv zeta; closed_ifs; f_equal; lia. }
      rewrite E. cbn [plat_eqb]. unfold i32, u32. rewrite sext_wrapu by lia. fold (i32 (Constant i)).
      rewrite i32_id by (unfold in_s; lia). reflexivity.
  - pose proof (marshalALU_spec (OpCode i) (Offset i) ltac:(lia) Ha) as (_ & M).
    rewrite (Marshal_shape native bo i (OpCode i) 0 (Constant i) (Constant i)); try assumption; try lia.
    + destruct (Z.eqb_spec (OpCode i) 0x18) as [E|E]; [|reflexivity].
      exfalso. unfold is_alu, cls in Ha. rewrite E in Ha. cbn in Ha; lia.
    + rewrite marshalOp_alu, M, i32_id by assumption || (intros ext base o8 Hk He; destruct He; lia). reflexivity.
  - assert (Ha' : is_alu (OpCode i)) by (unfold is_alu, cls in *; rewrite Hi; lia).
    assert (Hext : 1 <= ext <= 3) by (destruct He; lia).
    pose proof (marshalALU_spec (OpCode i) (Offset i) ltac:(lia) Ha') as (M & _).
    specialize (M ext base off ltac:(lia) He). rewrite Ho in M. cbn [Z.eqb] in M.
    replace (OpCode i - ext * 256) with op8 in M by lia.
    rewrite (Marshal_shape native bo i op8 off (Constant i) (Constant i)); try assumption; try lia.
    + destruct (Z.eqb_spec (OpCode i) 0x18) as [E|E]; [|reflexivity]. lia.
    + rewrite marshalOp_alu, Ho, M, i32_id by assumption. reflexivity.
  - assert (Ha' : is_atomic (OpCode i)) by (unfold is_atomic, cls in *; rewrite Hi; lia).
    rewrite (Marshal_shape native bo i op8 (Offset i) (Constant i) (Constant i mod 512)); try assumption; try lia.
    + destruct (Z.eqb_spec (OpCode i) 0x18) as [E|E]; [|reflexivity].
      exfalso. unfold is_atomic, cls in Ha'. rewrite E in Ha'. cbn in Ha'; lia.
    + intros E. unfold is_atomic, cls in Ha'. rewrite E in Ha'. cbn in Ha'; lia.
    + rewrite marshalOp_atomic, i32_id by (assumption || lia).
      do 2 f_equal; [do 2 f_equal|]; lia.
  - unfold is_dword in Hd.
    rewrite (Marshal_shape native bo i 0x18 (Offset i) lo (Constant i)); try assumption; try lia.
    + rewrite Hd. cbn [Z.eqb Pos.eqb].
      replace (Z.shiftr (Constant i) 32) with hi; [reflexivity|].
      rewrite Z.shiftr_div_pow2 by lia. unfold in_s in *. lia.
    + rewrite marshalOp_plain; rewrite ?Hd; try lia; unfold is_builtin, is_call, is_alu, is_atomic, cls; cbn; try lia.
      do 2 f_equal. f_equal. rewrite Hc. unfold i32.
      apply (wrapu_inj_sext 32); try (apply sext_range); try lia; try assumption.
      unfold i32. rewrite wrapu_sext by lia. unfold wrapu. lia.
  - rewrite (Marshal_shape native bo i (OpCode i) (Offset i) (Constant i) (Constant i)); try assumption; try lia.
    + unfold is_dword in Hd. destruct (Z.eqb_spec (OpCode i) 0x18) as [E|E]; [contradiction|reflexivity].
    + rewrite marshalOp_plain, i32_id by (assumption || lia). reflexivity.
Qed.

Lemma Unmarshal_encodes native bo i ws rest :
  encodes native i ws ->
  Unmarshal bo native (stream_bytes bo ws ++ rest) = Ok (strip i, rest).
Proof.
  intros H. pose proof (encodes_raw_ok _ _ _ H) as Hok.
  destruct H as [t n Hr Hb Hop Ht Hn Hc|Hr Hb Hop Ht Hc|Hr Ha Hop Ho Hc|ext base off op8 Hr Ha Hop He Hb Hi Ho Hc
    |op8 Hr Ha Hop Hc Hi|lo hi Hr Hd Hl Hh Hc|Hr Hb Ha Ht Hd Hop Hc];
    unfold stream_bytes; cbn [map concat]; rewrite ?app_nil_r; apply Forall_cons_iff in Hok as [Hw Hok].
  - destruct Hb as (Hcall & Hd & Hs).
    assert (Hbw : is_builtin (OpCode i) 0 0) by (split; auto).
    apply Unmarshal_raw; [exact Hw| |].
    + rewrite unmarshalOp_builtin; cbn [r_op r_dst r_src r_off r_imm]; [|assumption|unfold in_s; lia].
      replace (n <? 0) with false by lia. replace (2 ^ 28 <=? n) with false by lia.
      rewrite Ht. cbn [set_cons fields_of r_op r_dst r_src r_off r_imm OpCode Dst Src Offset Symbol Reference MapFD].
      unfold strip. rewrite Hc, Hd, Hs. reflexivity.
    + cbn [strip OpCode]. exact (proj1 (proj2 (proj2 (proj2 (class_disjoint _ _ _)))) Hbw).
  - destruct Hb as (Hcall & Hd & Hs).
    assert (Hbw : is_builtin (OpCode i) 0 0) by (split; auto).
    apply Unmarshal_raw; [exact Hw| |].
    + rewrite unmarshalOp_builtin; cbn [r_op r_dst r_src r_off r_imm]; [|assumption|unfold in_s; lia].
      replace (Constant i <? 0) with true by lia. unfold fields_of, strip; cbn. rewrite Hd, Hs. reflexivity.
    + cbn [strip OpCode]. exact (proj1 (proj2 (proj2 (proj2 (class_disjoint _ _ _)))) Hbw).
  - apply Unmarshal_raw; [exact Hw| |].
    + rewrite unmarshalOp_alu by exact Ha. rewrite unmarshalALU_none; cbn [r_op r_off]; try assumption.
      * unfold fields_of, strip; cbn. now rewrite Ho.
      * intros [ext He]. inversion He.
    + exact (proj1 (proj2 (proj2 (proj2 (proj2 (class_disjoint (OpCode i) 0 0))))) Ha).
  - apply Unmarshal_raw; [exact Hw| |].
    + rewrite unmarshalOp_alu by exact Ha. rewrite (unmarshalALU_ext _ ext); cbn [r_op r_off]; try assumption.
      * unfold fields_of, strip; cbn. now rewrite Ho, Hi.
      * now rewrite Hb.
    + cbn [strip OpCode]. destruct He; lia.
  - apply Unmarshal_raw; [exact Hw| |].
    + rewrite unmarshalOp_atomic; cbn [r_op]; try assumption. unfold fields_of, strip; cbn. now rewrite Hi.
    + cbn [strip OpCode]. unfold is_atomic, cls in Ha. lia.
  - apply Forall_cons_iff in Hok as [Hw2 _]. rewrite <- app_assoc.
    rewrite (Unmarshal_raw2 bo native _ _ rest (fields_of (mkRaw 0x18 (Dst i) (Src i) (Offset i) lo)) Hw Hw2).
    + cbn [r_op r_dst r_src r_off r_imm Z.eqb andb]. unfold fields_of, strip, set_cons; cbn -[Z.pow Z.mul Z.add Z.modulo].
      unfold is_dword in Hd. rewrite Hc, Hd. reflexivity.
    + apply unmarshalOp_plain; cbn [r_op r_dst r_src]; unfold is_builtin, is_call, is_alu, is_atomic, cls; cbn; lia.
    + reflexivity.
    + exact Hl.
  - apply Unmarshal_raw; [exact Hw| |].
    + apply unmarshalOp_plain; assumption.
    + exact Hd.
Qed.
