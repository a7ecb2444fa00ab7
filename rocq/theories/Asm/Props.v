(** Property theorems for package asm (C01-C14, C50, C51). The specification vocabulary is in Asm/Spec.v. *)
From Coq Require Import String Sorted.
From Verif Require Import Base.GoInt Asm.Model Asm.Spec Asm.Proof Asm.ProofCodec Asm.ProofStream Asm.ProofOps.
From Verif Require Asm.Metadata.
Open Scope Z_scope.

(** * C01 encode then decode *)

(** Every representable instruction is encoded as its wire words, and decoding them (followed by anything)
    gives the same instruction without metadata. *)
Theorem C01_encode_decode native bo i ws rest :
  encodes native i ws ->
  Marshal native bo i = Ok (stream_bytes bo ws, 8 * Z.of_nat (length ws)) /\
  Unmarshal bo native (stream_bytes bo ws ++ rest) = Ok (strip i, rest).
Proof. intros H. split; [now apply Marshal_encodes | now apply Unmarshal_encodes]. Qed.

(** [encodes] is not too narrow: whenever encoding succeeds and the result decodes to the same fields, the
    instruction is representable. *)
Theorem C01_complete native bo i bs n rest :
  well_typed i -> Marshal native bo i = Ok (bs, n) ->
  (Unmarshal bo native (bs ++ rest) = Ok (strip i, rest) <-> exists ws, encodes native i ws).
Proof.
  intros Hw Hm. split; [eapply roundtrip_complete; eauto|].
  intros (ws & He). pose proof (Marshal_encodes native bo i ws He) as Hm'. rewrite Hm in Hm'.
  apply Ok_inj in Hm'. inversion Hm'; subst. now apply Unmarshal_encodes.
Qed.

Example C01_ex_dword : encodes PLinux (LoadImm 3 (-2) DWord) [mkRaw 0x18 3 0 0 (-2); mkRaw 0 0 0 0 (-1)].
Proof. apply (enc_dword PLinux (LoadImm 3 (-2) DWord) (-2) (-1)); unfold regs_ok, in_s, is_dword; cbn; lia || reflexivity. Qed.
Example C01_ex_sdiv : encodes PLinux (ALU_Imm SDiv 1 7) [mkRaw 0x37 1 0 1 7].
Proof.
  apply (enc_alu_ext PLinux (ALU_Imm SDiv 1 7) 1 3 1 0x37); unfold regs_ok, in_s, is_alu; cbn; try lia.
  - constructor.
Qed.
Example C01_ex_jump : encodes PLinux (set_off (Jump_Reg JGT 1 2 "l") 12) [mkRaw 0x2d 1 2 12 0].
Proof.
  apply (enc_plain PLinux (set_off (Jump_Reg JGT 1 2 "l") 12));
    unfold regs_ok, in_s, is_builtin, is_call, is_alu, is_atomic, is_dword; cbn; lia.
Qed.

(** * C02 decode then encode *)
Theorem C02_decode_encode bo p bs i rest :
  bytes_ok bs -> Unmarshal bo p bs = Ok (i, rest) ->
  exists w ws, bs = stream_bytes bo (w :: ws) ++ rest /\ Forall raw_ok (w :: ws) /\
    (Marshal p bo i = Ok (stream_bytes bo (w :: ws), 8 * Z.of_nat (length (w :: ws))) <-> ~ lossy p w).
Proof.
  intros Hb Hu. destruct (Unmarshal_inv _ _ _ _ _ Hb Hu) as (w & ws & E & Hok & _ & H).
  exists w, ws. split; [exact E|]. split; [exact Hok|]. destruct H as [(Nl & He)|(Hl & -> & ->)].
  - split; [auto|]. intros _. now apply Marshal_encodes.
  - split; [|contradiction]. intros C. exfalso. inversion Hok; subst.
    eapply lossy_not_reproduced; eauto.
    unfold stream_bytes in C. cbn [map concat] in C. rewrite app_nil_r in C. exact C.
Qed.

(** Decoding fails only on these inputs. *)
Theorem C02_decode_errors bo p bs e :
  bytes_ok bs -> Unmarshal bo p bs = Err e ->
  (length bs < 8)%nat \/
  exists w tail, raw_ok w /\ bs = raw_bytes bo w ++ tail /\
    ((r_op w = 0x18 /\ ((length tail < 8)%nat \/
        exists w2 tail2, raw_ok w2 /\ tail = raw_bytes bo w2 ++ tail2 /\
                         ~ (r_op w2 = 0 /\ r_dst w2 = 0 /\ r_src w2 = 0 /\ r_off w2 = 0))) \/
     (is_builtin (r_op w) (r_dst w) (r_src w) /\ 0 <= r_imm w /\ (plat_tag p = None \/ 2 ^ 28 <= r_imm w))).
Proof.
  intros Hb Hu. destruct (le_lt_dec 8 (length bs)) as [L|L]; [|auto]. right.
  assert (Split : forall bs0, bytes_ok bs0 -> (8 <= length bs0)%nat ->
            exists w tail, raw_ok w /\ bs0 = raw_bytes bo w ++ tail /\ bytes_ok tail).
  { intros bs0 Hb0 L0. exists (parse_raw bo (firstn 8 bs0)), (skipn 8 bs0).
    rewrite <- (firstn_skipn 8 bs0) in Hb0. apply bytes_ok_app in Hb0 as (B1 & B2).
    destruct (parse_raw_ok bo (firstn 8 bs0) B1) as (Hw & Hd); [rewrite firstn_length; lia|].
    split; [exact Hw|]. split; [|exact B2]. rewrite Hd. symmetry. apply firstn_skipn. }
  destruct (Split bs Hb L) as (w & tail & Hw & -> & Hbt). exists w, tail. split; [exact Hw|]. split; [reflexivity|].
  unfold Unmarshal in Hu. rewrite (read_full_app 8) in Hu by (rewrite ?raw_bytes_length; lia).
  rewrite unmarshalFields_raw in Hu by exact Hw. fold (verbatim w) in Hu.
  pose proof (IsBuiltinCall_spec (verbatim w)) as HB.
  destruct (unmarshalOp p (verbatim w)) as [j|e'] eqn:Hj.
  - assert (Hop : IsDWordLoad (OpCode j) = true -> OpCode j = 0x18) by (rewrite IsDWordLoad_eq; lia).
    destruct (IsDWordLoad (OpCode j)); cbn [negb] in Hu; [|discriminate]. specialize (Hop eq_refl).
    assert (Hr : r_op w = 0x18).
    { pose proof Hw as (W1 & _). unfold unmarshalOp in Hj.
      destruct (IsBuiltinCall (verbatim w)) eqn:Eb.
      - destruct (_ >=? _); [destruct (EncodeConstant _ _); [|discriminate]|]; apply Ok_inj in Hj; subst j; exact Hop.
      - destruct (IsALU (Class (OpCode (verbatim w)))) eqn:Ea.
        + apply IsALU_spec in Ea. apply Ok_inj in Hj. subst j.
          destruct (ext_alu_dec (r_op w / 16) (r_off w)) as [(ext & He)|N].
          * exfalso. rewrite (unmarshalALU_ext w ext) in Hop by (auto || lia).
            cbn in Hop. unfold is_alu, cls in Ea. cbn in Ea. destruct He; lia.
          * rewrite unmarshalALU_none in Hop by (auto || lia). exact Hop.
        + destruct (_ && _) eqn:Et.
          * apply isStX_atomic in Et. apply Ok_inj in Hj. subst j. cbn [OpCode set_op verbatim Constant] in Hop. exfalso.
            change (OpCode (verbatim w)) with (r_op w) in Et.
            unfold is_atomic, cls in Et.
            assert (C : Class (Z.lor (r_op w) (Z.land (u32 (Z.shiftl (r_imm w) 8)) atomicMask)) = Class 0x18) by now rewrite Hop.
            unfold Class in C. rewrite land_lor_distr in C. rewrite <- Z.land_assoc in C.
            change (Z.land atomicMask classMask) with 0 in C. rewrite Z.land_0_r, Z.lor_0_r in C.
            fold (Class (r_op w)) in C. rewrite Class_eq in C. change (Z.land 24 classMask) with 0 in C. lia.
          * apply Ok_inj in Hj. subst j. exact Hop. }
    left. split; [exact Hr|]. destruct (le_lt_dec 8 (length tail)) as [L2|L2]; [|auto]. right.
    destruct (Split tail Hbt L2) as (w2 & tail2 & Hw2 & -> & Hbt2). exists w2, tail2. split; [exact Hw2|].
    split; [reflexivity|]. intros (Z1 & Z2 & Z3 & Z4).
    rewrite (read_full_app 8) in Hu by (rewrite ?raw_bytes_length; lia).
    destruct (raw_low_zero bo w2 Hw2) as (_ & Hz). rewrite Hz in Hu by auto. cbn in Hu. discriminate.
  - right. unfold unmarshalOp in Hj. destruct (IsBuiltinCall (verbatim w)) eqn:Eb.
    + assert (B : is_builtin (r_op w) (r_dst w) (r_src w)) by (apply HB; reflexivity).
      split; [exact B|]. cbn [verbatim Constant] in Hj.
      destruct (Z.geb_spec (r_imm w) 0); [|discriminate]. split; [lia|].
      destruct Hw as (_ & _ & _ & _ & Wi). unfold in_s in Wi.
      unfold EncodeConstant in Hj.
      assert (Eu : u32 (r_imm w) = r_imm w) by (unfold u32, wrapu; apply Z.mod_small; lia).
      rewrite Eu in Hj. unfold platformShift in Hj. rewrite Z.shiftr_div_pow2 in Hj by lia.
      destruct (Z.gtb_spec (r_imm w / 2 ^ 28) 0); [right; lia|]. left.
      destruct p; cbn [tagForPlatform] in Hj; [discriminate Hj|discriminate Hj|reflexivity].
    + destruct (IsALU _); [discriminate|]. destruct (_ && _); discriminate.
Qed.

Example C02_ex_lossy : lossy PLinux (mkRaw 0x07 1 0 5 1).   (* r1 += 1 with offset 5 *)
Proof. left. split; [right; reflexivity|]. split; [discriminate|]. intros (e & H). inversion H. Qed.
Example C02_ex_ok : ~ lossy PLinux (mkRaw 0x37 1 2 1 0).    (* signed division *)
Proof. intros [(_ & _ & H)|((_ & H & _) & _)]; [apply H; exists 1; constructor|discriminate H]. Qed.

(** * C03 sizes *)
Theorem C03_size native bo i bs n :
  Marshal native bo i = Ok (bs, n) -> n = Size i /\ Z.of_nat (length bs) = Size i.
Proof. intros H. rewrite Size_slots. destruct (Marshal_size _ _ _ _ _ H). lia. Qed.

Theorem C03_stream_size native bo l bs l2 :
  Z.of_nat (length l) < 2 ^ 59 -> MarshalInsns native bo l = (bs, l2, None) ->
  Z.of_nat (length bs) = InsnsSize l.
Proof.
  intros Hs H. apply MarshalInsns_ok in H as (l1 & Hf & Hp & Hm).
  pose proof (encodeFunctionReferences_op l l1 ltac:(lia) Hf) as Hop1.
  apply map_until_ok in Hp.
  assert (Hop2 : Forall2 (fun i i' => OpCode i = OpCode i') l1 l2).
  { eapply Forall2_impl'; [|exact Hp]. intros a b Hab. symmetry. now apply encodeMapPointer_op in Hab. }
  assert (T : forall a b, Forall2 (fun i i' => OpCode i = OpCode i') a b -> total_slots a = total_slots b).
  { induction 1 as [|x y a b E F IH]; [reflexivity|]. cbn [total_slots]. unfold slots. rewrite E, IH. reflexivity. }
  rewrite (marshalAll_size _ _ _ _ Hm), InsnsSize_eq, <- (T _ _ Hop2), <- (T _ _ Hop1).
  pose proof (total_slots_range l). symmetry. apply Z.mod_small. lia.
Qed.
Example C03_ex : exists bs l2, MarshalInsns PLinux LE [LoadImm 0 1 DWord; Return] = (bs, l2, None) /\
  Z.of_nat (length bs) = 24.
Proof. eexists. eexists. split; reflexivity. Qed.

(** * C04 decoding streams *)
Theorem C04_decodes_encodings bo p l wss :
  Forall2 (encodes p) l wss ->
  forall insns, AppendInstructions bo p insns (stream_bytes bo (concat wss)) = Some (Ok (insns ++ map strip l)).
Proof. intros H insns. unfold AppendInstructions. apply appendInstructions_encodes; [exact H|lia]. Qed.

(** Decoding terminates on every input, with a stream which accounts for every byte of the input, or an
    error. *)
Theorem C04_total bo p insns r : exists x, AppendInstructions bo p insns r = Some x.
Proof. apply appendInstructions_total. lia. Qed.

Theorem C04_all_input bo p insns r l :
  bytes_ok r -> AppendInstructions bo p insns r = Some (Ok l) ->
  exists l' wss, l = insns ++ l' /\ Forall2 (decoded p) l' wss /\ Forall (Forall raw_ok) wss /\
                 r = stream_bytes bo (concat wss).
Proof. apply appendInstructions_ok. Qed.

Theorem C04_truncated bo p insns r :
  bytes_ok r -> Z.of_nat (length r) mod 8 <> 0 -> exists e, AppendInstructions bo p insns r = Some (Err e).
Proof.
  intros Hb Hl. destruct (C04_total bo p insns r) as ([l|e] & E); [|eauto].
  destruct (C04_all_input _ _ _ _ _ Hb E) as (l' & wss & _ & _ & _ & ->).
  rewrite stream_bytes_length in Hl. lia.
Qed.
Example C04_ex_half : AppendInstructions LE PLinux [] (raw_bytes LE (mkRaw 0x18 1 0 0 5)) = Some (Err EMissingHalf).
Proof. reflexivity. Qed.

(** * C05 opcode accessors *)

(** [v] has no bits outside [mask]; [y] is [x] with the bits of [mask] replaced by those of [v]. *)
Definition within (v mask : Z) : Prop := forall k, 0 <= k -> Z.testbit v k = true -> Z.testbit mask k = true.
Lemma within_spec v m : valid v m = true <-> within v m.
Proof. apply valid_spec. Qed.
Definition replaced (mask x v y : Z) : Prop :=
  forall k, 0 <= k -> Z.testbit y k = if Z.testbit mask k then Z.testbit v k else Z.testbit x k.
Definition load_store (op : Z) : Prop := cls op = 0 \/ cls op = 1 \/ cls op = 2 \/ cls op = 3.
Definition jump_op (op : Z) : Prop := cls op = 5 \/ cls op = 6.

Lemma isLoadOrStore_spec op : isLoadOrStore (Class op) = true <-> load_store op.
Proof.
  unfold isLoadOrStore, IsLoad, IsStore, LdClass, LdXClass, StClass, StXClass, load_store, cls. rewrite Class_eq. lia.
Qed.
Lemma isJump_spec op : IsJump (Class op) = true <-> jump_op op.
Proof. unfold IsJump, JumpClass, Jump32Class, jump_op, cls. rewrite Class_eq. lia. Qed.
Lemma isJumpOrALU_spec op : isJumpOrALU (Class op) = true <-> jump_op op \/ is_alu op.
Proof. unfold isJumpOrALU. rewrite orb_true_iff, isJump_spec, IsALU_spec. tauto. Qed.

Theorem C05_SetMode op m :
  (load_store op /\ within m 0xe0 ->
     replaced 0xe0 op m (SetMode op m) /\ Mode (SetMode op m) = m /\ Class (SetMode op m) = Class op) /\
  (~ (load_store op /\ within m 0xe0) -> SetMode op m = InvalidOpCode).
Proof.
  unfold SetMode. pose proof (isLoadOrStore_spec op) as HC. pose proof (within_spec m modeMask) as HV.
  destruct (isLoadOrStore (Class op)) eqn:EC, (valid m modeMask) eqn:EV; cbn [negb orb];
    (split; [intros (A & B)|intros N]); try reflexivity;
    try (exfalso; apply N; split; [now apply HC | now apply HV]);
    try (apply HC in A; discriminate); try (apply HV in B; discriminate).
  assert (EC' : Class (Z.lor (Z.ldiff op modeMask) m) = Class op) by (apply Class_set; auto).
  split; [intros k Hk; now apply set_bits|]. split; [|exact EC'].
  unfold Mode. rewrite EC', EC. cbn [negb]. apply set_get_same. now apply valid_ldiff.
Qed.

Theorem C05_SetSize op v :
  (load_store op /\ within v 0x18 ->
     replaced 0x18 op v (SetSize op v) /\ OpSize (SetSize op v) = v /\ Class (SetSize op v) = Class op) /\
  (~ (load_store op /\ within v 0x18) -> SetSize op v = InvalidOpCode).
Proof.
  unfold SetSize. pose proof (isLoadOrStore_spec op) as HC. pose proof (within_spec v sizeMask) as HV.
  destruct (isLoadOrStore (Class op)) eqn:EC, (valid v sizeMask) eqn:EV; cbn [negb orb];
    (split; [intros (A & B)|intros N]); try reflexivity;
    try (exfalso; apply N; split; [now apply HC | now apply HV]);
    try (apply HC in A; discriminate); try (apply HV in B; discriminate).
  assert (EC' : Class (Z.lor (Z.ldiff op sizeMask) v) = Class op) by (apply Class_set; auto).
  split; [intros k Hk; now apply set_bits|]. split; [|exact EC'].
  unfold OpSize. rewrite EC', EC. cbn [negb]. apply set_get_same. now apply valid_ldiff.
Qed.

Theorem C05_SetAtomicOp op v :
  (is_atomic op /\ within v 0x1ff00 ->
     replaced 0x1ff00 op v (SetAtomicOp op v) /\ AtomicOp (SetAtomicOp op v) = v /\
     Class (SetAtomicOp op v) = Class op) /\
  (~ (is_atomic op /\ within v 0x1ff00) -> SetAtomicOp op v = InvalidOpCode).
Proof.
  unfold SetAtomicOp. pose proof (isStX_atomic op) as HC. pose proof (within_spec v atomicMask) as HV.
  destruct (Class op =? StXClass) eqn:E1, (Mode op =? AtomicMode) eqn:E2, (valid v atomicMask) eqn:EV; cbn [negb orb andb] in *;
    (split; [intros (A & B)|intros N]); try reflexivity;
    try (exfalso; apply N; split; [now apply HC | now apply HV]);
    try (apply HC in A; discriminate); try (apply HV in B; discriminate).
  assert (EC' : Class (Z.lor (Z.ldiff op atomicMask) v) = Class op) by (apply Class_set; auto).
  split; [intros k Hk; now apply set_bits|]. split; [|exact EC'].
  unfold AtomicOp. rewrite EC', E1.
  assert (EM : Mode (Z.lor (Z.ldiff op atomicMask) v) = Mode op).
  { unfold Mode. rewrite EC'. destruct (isLoadOrStore (Class op)); [|reflexivity]. cbn [negb].
    apply set_get_other; [now apply valid_ldiff|reflexivity]. }
  rewrite EM, E2. cbn [negb orb]. apply set_get_same. now apply valid_ldiff.
Qed.

Theorem C05_SetALUOp op v :
  (is_alu op /\ within v 0x3ff0 ->
     replaced 0x3ff0 op v (SetALUOp op v) /\ ALUOp (SetALUOp op v) = v /\ Class (SetALUOp op v) = Class op) /\
  (~ (is_alu op /\ within v 0x3ff0) -> SetALUOp op v = InvalidOpCode).
Proof.
  unfold SetALUOp. pose proof (IsALU_spec op) as HC. pose proof (within_spec v aluMask) as HV.
  destruct (IsALU (Class op)) eqn:EC, (valid v aluMask) eqn:EV; cbn [negb orb];
    (split; [intros (A & B)|intros N]); try reflexivity;
    try (exfalso; apply N; split; [now apply HC | now apply HV]);
    try (apply HC in A; discriminate); try (apply HV in B; discriminate).
  assert (EC' : Class (Z.lor (Z.ldiff op aluMask) v) = Class op) by (apply Class_set; auto).
  split; [intros k Hk; now apply set_bits|]. split; [|exact EC'].
  unfold ALUOp. rewrite EC', EC. cbn [negb]. apply set_get_same. now apply valid_ldiff.
Qed.

(** The source of a byte swap is its endianness: there the Source getter reports InvalidSource and the
    Endianness getter returns the value. *)
Theorem C05_SetSource op v :
  ((jump_op op \/ is_alu op) /\ within v 8 ->
     replaced 8 op v (SetSource op v) /\ Class (SetSource op v) = Class op /\
     (ALUOp op <> Swap -> Source (SetSource op v) = v) /\
     (ALUOp op = Swap -> OpEndianness (SetSource op v) = v /\ Source (SetSource op v) = InvalidSource)) /\
  (~ ((jump_op op \/ is_alu op) /\ within v 8) -> SetSource op v = InvalidOpCode).
Proof.
  unfold SetSource. pose proof (isJumpOrALU_spec op) as HC. pose proof (within_spec v sourceMask) as HV.
  destruct (isJumpOrALU (Class op)) eqn:EC, (valid v sourceMask) eqn:EV; cbn [negb orb];
    (split; [intros (A & B)|intros N]); try reflexivity;
    try (exfalso; apply N; split; [now apply HC | now apply HV]);
    try (apply HC in A; discriminate); try (apply HV in B; discriminate).
  assert (EC' : Class (Z.lor (Z.ldiff op sourceMask) v) = Class op) by (apply Class_set; auto).
  split; [intros k Hk; now apply set_bits|]. split; [exact EC'|].
  assert (EA : ALUOp (Z.lor (Z.ldiff op sourceMask) v) = ALUOp op).
  { unfold ALUOp. rewrite EC'. destruct (IsALU (Class op)); [|reflexivity]. cbn [negb].
    apply set_get_other; [now apply valid_ldiff|reflexivity]. }
  unfold Source, OpEndianness, endianMask. rewrite EA, EC', EC. cbn [negb orb].
  pose proof (valid_ldiff _ _ EV) as Hd.
  split; intros H.
  - destruct (Z.eqb_spec (ALUOp op) Swap); [contradiction|]. now apply set_get_same.
  - rewrite H, Z.eqb_refl. cbn [negb]. split; [now apply set_get_same|reflexivity].
Qed.

Theorem C05_SetJumpOp op v :
  (jump_op op /\ within v 0xf0 /\ ~ (cls op = 6 /\ (v = Call \/ v = Exit)) ->
     replaced 0xf0 op v (SetJumpOp op v) /\ JumpOp (SetJumpOp op v) = v /\ Class (SetJumpOp op v) = Class op) /\
  (~ (jump_op op /\ within v 0xf0 /\ ~ (cls op = 6 /\ (v = Call \/ v = Exit))) -> SetJumpOp op v = InvalidOpCode).
Proof.
  unfold SetJumpOp. pose proof (isJump_spec op) as HC. pose proof (within_spec v jumpMask) as HV.
  destruct (IsJump (Class op)) eqn:EC, (valid v jumpMask) eqn:EV; cbn [negb orb];
    try (split; [intros (A & B & _)|reflexivity];
         try (apply HC in A; discriminate); try (apply HV in B; discriminate)).
  assert (EC' : Class (Z.lor (Z.ldiff op jumpMask) v) = Class op) by (apply Class_set; auto).
  assert (EJ : JumpOp (Z.lor (Z.ldiff op jumpMask) v) =
               if (Class op =? Jump32Class) && ((v =? Exit) || (v =? Call)) then InvalidJumpOp else v).
  { unfold JumpOp. rewrite EC', EC. cbn [negb]. rewrite set_get_same by now apply valid_ldiff. reflexivity. }
  cbv zeta. rewrite EJ.
  assert (Hv : v <> InvalidJumpOp).
  { intros ->. discriminate EV. }
  unfold cls. rewrite <- Class_eq. unfold Jump32Class in *.
  destruct (Z.eqb_spec (Class op) 6), (Z.eqb_spec v Exit), (Z.eqb_spec v Call); cbn [andb orb];
    try rewrite Z.eqb_refl; try (destruct (Z.eqb_spec v InvalidJumpOp); [contradiction|]);
    (split; [intros (A & B & N)|intros N]); try reflexivity;
    try (exfalso; apply N; split; [now apply HC|]; split; [now apply HV|]; tauto);
    try (exfalso; tauto);
    (split; [intros k Hk; now apply set_bits|]; split; [exact EJ|exact EC']).
Qed.
Example C05_ex : ALUOp (SetALUOp ALU64Class MovSX16) = MovSX16 /\ SetJumpOp Jump32Class Exit = InvalidOpCode.
Proof. split; reflexivity. Qed.

(** * C06 atomics *)

(** What holds: an atomic instruction whose constant carries the operation (as decoding produces it) keeps
    it on the wire. Missing: the same for instructions built by the constructors, which is refuted below. *)
Theorem C06_decoded_atomics_partial bo p bs i rest :
  bytes_ok bs -> Unmarshal bo p bs = Ok (i, rest) -> is_atomic (OpCode i) ->
  exists w, bs = raw_bytes bo w ++ rest /\ raw_ok w /\
    AtomicOp (OpCode i) = (r_imm w mod 512) * 256 /\ Marshal p bo i = Ok (raw_bytes bo w, 8).
Proof.
  intros Hb Hu Ha. destruct (Unmarshal_inv _ _ _ _ _ Hb Hu) as (w & ws & E & Hok & _ & H).
  destruct H as [(_ & He)|(Hl & -> & ->)].
  - assert (Hop : 0 <= OpCode i) by (inversion He; subst; unfold is_dword in *; try match goal with X : ext_alu _ _ _ |- _ => inversion X; subst end; lia).
    pose proof (Marshal_encodes p bo i _ He) as Hm.
    inversion He; subst; unfold is_builtin, is_call, is_alu, is_atomic, is_dword, cls in *; try lia.
    match goal with HI : OpCode i = Constant i mod 512 * 256 + op8 |- _ => rename HI into Hi end.
    exists (mkRaw op8 (Dst i) (Src i) (Offset i) (Constant i)).
    unfold stream_bytes in *. cbn [map concat length] in *. rewrite app_nil_r in *.
    split; [reflexivity|]. split; [now inversion Hok|]. split; [|exact Hm].
    rewrite (proj1 (AtomicOp_spec (OpCode i) Hop)) by (unfold is_atomic, cls; auto).
    cbn [r_imm]. rewrite Hi. f_equal. lia.
  - exfalso. cbn [verbatim OpCode] in Ha. destruct Hl as [(A & _)|(B & _)].
    + exact (proj1 (proj2 (class_disjoint _ 0 0)) A Ha).
    + exact (proj1 (proj2 (proj2 (class_disjoint _ _ _))) B Ha).
Qed.

(** The constructors: the wire immediate is always 0, whatever the operation was. *)
Theorem C06_constructor_wire native bo op dst src size off :
  In op [AddAtomic; AndAtomic; OrAtomic; XorAtomic; FetchAdd; FetchAnd; FetchOr; FetchXor; Xchg; CmpXchg] ->
  size = Word \/ size = DWord -> 0 <= dst < 16 -> 0 <= src < 16 -> in_s 16 off ->
  Marshal native bo (Atomic_Mem op dst src size off) = Ok (raw_bytes bo (mkRaw (0xc3 + size) dst src off 0), 8) /\
  AtomicOp (OpCode (Atomic_Mem op dst src size off)) = op.
Proof.
  intros Hop Hsz Hd Hs Ho.
  assert (E : OpCode (Atomic_Mem op dst src size off) = op + 0xc3 + size /\ 0 <= op < 2 ^ 17 /\ op mod 256 = 0 /\ size < 256).
  { cbn in Hop. decompose [or] Hop; try contradiction; subst op; destruct Hsz as [-> | ->]; repeat split; try reflexivity; discriminate. }
  destruct E as (E & R & M & Sz).
  assert (Ha : is_atomic (OpCode (Atomic_Mem op dst src size off))).
  { rewrite E. unfold is_atomic, cls. destruct Hsz as [-> | ->]; unfold Word, DWord; lia. }
  assert (P : 0 <= OpCode (Atomic_Mem op dst src size off)) by (rewrite E; destruct Hsz as [-> | ->]; unfold Word, DWord; lia).
  split.
  - rewrite (Marshal_shape native bo _ (0xc3 + size) off 0 (op / 256)).
    + destruct (Z.eqb_spec (OpCode (Atomic_Mem op dst src size off)) 24) as [C|]; [|reflexivity].
      rewrite C in Ha. unfold is_atomic, cls in Ha. lia.
    + rewrite E. destruct Hsz as [-> | ->]; unfold Word, DWord; lia.
    + unfold regs_ok. cbn. auto.
    + rewrite marshalOp_atomic by auto. cbn [Offset Atomic_Mem ins5 Constant]. change (i32 0) with 0.
      rewrite E.
      assert (Q : ((op + 0xc3 + size) / 256) mod 512 = op / 256) by (destruct Hsz as [-> | ->]; unfold Word, DWord; lia).
      rewrite Q. replace (op + 0xc3 + size - op / 256 * 256) with (0xc3 + size) by lia. reflexivity.
    + destruct Hsz as [-> | ->]; unfold Word, DWord; lia.
  - rewrite (proj1 (AtomicOp_spec _ P) Ha), E. destruct Hsz as [-> | ->]; unfold Word, DWord; lia.
Qed.

(** Refutation of the full statement: every operation other than AddAtomic decodes as AddAtomic. *)
Theorem C06_constructors_lose_operation_refuted native bo op dst src size off :
  In op [AndAtomic; OrAtomic; XorAtomic; FetchAdd; FetchAnd; FetchOr; FetchXor; Xchg; CmpXchg] ->
  size = Word \/ size = DWord -> 0 <= dst < 16 -> 0 <= src < 16 -> in_s 16 off ->
  exists bs n j, Marshal native bo (Atomic_Mem op dst src size off) = Ok (bs, n) /\
    Unmarshal bo native bs = Ok (j, []) /\ AtomicOp (OpCode j) = AddAtomic /\ AddAtomic <> op.
Proof.
  intros Hop Hsz Hd Hs Ho.
  destruct (C06_constructor_wire native bo op dst src size off) as (Hm & _); auto.
  { right. cbn in Hop |- *. tauto. }
  set (j := mkIns (0xc3 + size) dst src off 0 EmptyString EmptyString None).
  assert (Hat : is_atomic (0xc3 + size)) by (unfold is_atomic, cls; destruct Hsz as [-> | ->]; cbn; lia).
  exists (raw_bytes bo (mkRaw (0xc3 + size) dst src off 0)), 8, j.
  split; [exact Hm|]. split.
  - assert (He : encodes native j [mkRaw (0xc3 + size) dst src off 0]).
    { apply (enc_atomic native j (0xc3 + size)); cbn; unfold regs_ok, in_s; cbn; auto; try lia;
        destruct Hsz as [-> | ->]; unfold Word, DWord; lia. }
    pose proof (Unmarshal_encodes native bo j _ [] He) as Hu.
    unfold stream_bytes in Hu. cbn [map concat] in Hu. rewrite !app_nil_r in Hu. exact Hu.
  - split.
    + assert (P : 0 <= 0xc3 + size) by (destruct Hsz as [-> | ->]; unfold Word, DWord; lia).
      change (OpCode j) with (0xc3 + size). rewrite (proj1 (AtomicOp_spec _ P) Hat).
      destruct Hsz as [-> | ->]; reflexivity.
    + cbn in Hop. decompose [or] Hop; try contradiction; subst op; discriminate.
Qed.

(** * C07 symbolic references *)

(** On success every pending reference has been replaced by a displacement which leads to the instruction
    carrying the symbol, counted in 8 byte slots of the bytes actually written. The restriction to
    displacements that fit the field is necessary (C51). *)
Theorem C07_references_land native bo l bs l2 :
  Z.of_nat (length l) < 2 ^ 61 -> Forall well_typed l ->
  MarshalInsns native bo l = (bs, l2, None) ->
  unique_symbols l /\
  forall k i, nth_error l k = Some i ->
    (pending_imm i -> exists t w, defines l (Reference i) t /\ word_at bo bs (raw_offset l k) w /\
        r_op w = OpCode i /\ r_off w = Offset i /\
        (in_s 32 (raw_offset l t - raw_offset l k - 1) ->
         raw_offset l k + 1 + r_imm w = raw_offset l t)) /\
    (pending_off i -> ~ is_builtin (OpCode i) (Dst i) (Src i) ->
       exists t w, defines l (Reference i) t /\ word_at bo bs (raw_offset l k) w /\
        r_op w = OpCode i /\ r_imm w = i32 (Constant i) /\
        (in_s 16 (raw_offset l t - raw_offset l k - 1) ->
         raw_offset l k + 1 + r_off w = raw_offset l t)).
Proof.
  intros Hs Hw Hm. destruct (references_on_the_wire _ _ _ _ _ Hs Hw Hm) as (Hu & H).
  split; [exact Hu|]. intros k i Hk. destruct (H k i Hk) as (H1 & H2). split.
  - intros P. destruct (H1 P) as (t & w & A & B & C & D & E). exists t, w. repeat split; auto; try apply B.
    intros R. rewrite E. unfold i32. rewrite sext_id by (auto; lia). lia.
  - intros P Q. destruct (H2 P Q) as (t & w & A & B & C & D & E). exists t, w. repeat split; auto; try apply B.
    intros R. rewrite E. unfold i16. rewrite sext_id by (auto; lia). lia.
Qed.

(** Instructions without a pending reference and without a map are written as they are; the failures are
    exactly duplicate and missing symbols. *)
Theorem C07_others_unchanged l l1 :
  Z.of_nat (length l) < 2 ^ 62 -> encodeFunctionReferences l = (l1, None) ->
  length l1 = length l /\
  forall k i, nth_error l k = Some i -> ~ pending_imm i -> ~ pending_off i -> nth_error l1 k = Some i.
Proof.
  intros Hs H. destruct (encodeFunctionReferences_ok l l1 Hs H) as (_ & Hl & HR). split; [exact Hl|].
  intros k i Hk P Q. destruct (HR k i Hk) as (i' & Hk' & (_ & _ & R)). rewrite Hk'. f_equal. auto.
Qed.

Theorem C07_errors l l' e :
  Z.of_nat (length l) < 2 ^ 62 -> encodeFunctionReferences l = (l', Some e) ->
  (e = EDuplicate /\ l' = l /\ ~ unique_symbols l) \/
  (e = EUnsatisfied /\ unique_symbols l /\
   exists i, In i l /\ (pending_imm i \/ pending_off i) /\ forall t, ~ defines l (Reference i) t).
Proof. apply encodeFunctionReferences_err. Qed.

Example C07_ex : exists bs l2,
  MarshalInsns PLinux LE [Jump_Imm JEq 1 0 "exit"; LoadImm 0 1 DWord; set_sym Return "exit"] = (bs, l2, None) /\
  word_at LE bs 0 (mkRaw 0x15 1 0 2 0).
Proof. eexists. eexists. split; [reflexivity|]. split; [|reflexivity]. unfold raw_ok, in_s; cbn; lia. Qed.

(** ** C51: displacements are truncated to 16 bits without an error *)
Theorem C51_far_jump_refuted native bo :
  exists l bs l2 k t i w, MarshalInsns native bo l = (bs, l2, None) /\ Forall well_typed l /\
    nth_error l k = Some i /\ Reference i <> EmptyString /\ defines l (Reference i) t /\
    word_at bo bs (raw_offset l k) w /\ r_op w = OpCode i /\
    raw_offset l k + 1 + r_off w <> raw_offset l t.
Proof.
  set (n := Z.to_nat 40000).
  destruct (far_jump_marshals n native bo ltac:(unfold n; lia)) as (bs & l2 & Hm).
  assert (Hw : Forall well_typed (far_jump n)).
  { apply Forall_forall. intros i Hi. apply far_jump_In in Hi as [-> | [-> | ->]];
      unfold well_typed, in_u, in_s; repeat split; cbn; lia. }
  destruct (references_on_the_wire native bo (far_jump n) bs l2) as (_ & H); auto.
  { rewrite far_jump_length. unfold n. lia. }
  destruct (H O (Label Ja "target") eq_refl) as (_ & H2).
  destruct H2 as (t & w & A & B & C & D & E).
  - split; [discriminate|]. split; [intros (_ & X); discriminate X|]. split; [left; reflexivity|reflexivity].
  - intros ((_ & X) & _). discriminate X.
  - assert (t = S n).
    { destruct A as (it & Ht & Es). eapply (far_jump_unique n); [exact Ht|apply far_jump_last| |]; rewrite Es; [discriminate|reflexivity]. }
    subst t. exists (far_jump n), bs, l2, O, (S n), (Label Ja "target"), w.
    split; [exact Hm|]. split; [exact Hw|]. split; [reflexivity|]. split; [discriminate|].
    split; [exact A|]. split; [exact B|]. split; [exact C|].
    rewrite E, far_jump_offset. change (raw_offset (far_jump n) 0) with 0.
    unfold n. rewrite Z2Nat.id by lia. vm_compute. discriminate.
Qed.

(** * C50 Marshal can be repeated

    Marshal rewrites the instructions in place; doing it again writes the same bytes and changes nothing.
    The hypothesis holds for every instruction built by this package's constructors: they set either
    Constant or Offset to -1, not both. *)
Theorem C50_marshal_idempotent native bo l bs l2 :
  Z.of_nat (length l) < 2 ^ 61 ->
  (forall i, In i l -> ~ (pending_imm i /\ jump_class i /\ Offset i = -1)) ->
  MarshalInsns native bo l = (bs, l2, None) -> MarshalInsns native bo l2 = (bs, l2, None).
Proof. apply marshal_twice. Qed.
Example C50_ex_hyp : forall i, In i [Label Call "f"; LongJump "f"; set_sym Return "f"] ->
  ~ (pending_imm i /\ jump_class i /\ Offset i = -1).
Proof. intros i [<-|[<-|[<-|[]]]] (_ & _ & H); discriminate H. Qed.

(** * C08 map fd and offset *)
Theorem C08_packing i fd offset :
  in_u 32 offset -> in_s 64 (Constant i) ->
  (* writing the fd: read back, offset kept *)
  (in_s 32 fd -> mapFd (encodeMapFD i fd) = fd /\ mapOffset (encodeMapFD i fd) = mapOffset i /\
                 exists c, encodeMapFD i fd = set_cons i c /\ in_s 64 c) /\
  (* writing the offset *)
  (forall i', RewriteMapOffset i offset = Ok i' ->
     mapOffset i' = offset /\ mapFd i' = mapFd i /\ exists c, i' = set_cons i c /\ in_s 64 c) /\
  ((exists i', RewriteMapOffset i offset = Ok i') <-> OpCode i = 0x18 /\ Src i = 2).
Proof.
  intros Hoff Hc. unfold in_u in Hoff. split; [|split].
  - intros Hfd. destruct (encodeMapFD_Constant i fd) as (A & B & C). rewrite !mapOffset_eq, B. split; [|split].
    + unfold mapFd, i32. rewrite <- (sext_wrapu 32) by lia. unfold wrapu. rewrite A.
      change (sext 32 (wrapu 32 fd) = fd). rewrite sext_wrapu by lia. apply sext_id; [lia|exact Hfd].
    + reflexivity.
    + exists (Constant (encodeMapFD i fd)). split; [reflexivity|exact C].
  - intros i'. unfold RewriteMapOffset. destruct (negb (IsDWordLoad _)); [discriminate|].
    destruct (negb (_ =? _)); [discriminate|]. intros H; apply Ok_inj in H; subst i'.
    rewrite mapOffset_eq. cbn [Constant set_cons]. rewrite lo32.
    assert (Hu : u64 (Z.shiftl offset 32) = offset * 2 ^ 32).
    { rewrite Z.shiftl_mul_pow2 by lia. unfold u64, wrapu. apply Z.mod_small. lia. }
    rewrite Hu. set (f := Constant i mod 2 ^ 32). assert (Hf : 0 <= f < 2 ^ 32) by (unfold f; lia).
    rewrite lor_disjoint_add by lia. split; [|split].
    + unfold i64, sext. destruct (_ <? _); lia.
    + unfold mapFd. cbn [Constant set_cons]. unfold i32. rewrite <- (sext_wrapu 32 (i64 _)), <- (sext_wrapu 32 (Constant i)) by lia.
      f_equal. unfold i64. rewrite <- (wrapu_le 32 64 (sext 64 _)) by lia. rewrite wrapu_sext by lia.
      rewrite wrapu_le by lia. unfold wrapu. fold f. lia.
    + eexists. split; [reflexivity|]. apply sext_range; lia.
  - unfold RewriteMapOffset. rewrite IsDWordLoad_eq. unfold PseudoMapValue.
    destruct (Z.eqb_spec (OpCode i) 0x18), (Z.eqb_spec (Src i) 2); cbn [negb]; split;
      try (intros (i' & X); discriminate X); try tauto; intros; try (eexists; reflexivity); intuition.
Qed.

Theorem C08_LoadMapValue dst fd offset :
  in_u 32 offset -> 0 <= fd < 2 ^ 31 ->
  let i := LoadMapValue dst fd offset in
  map_load i /\ mapFd i = fd /\ mapOffset i = offset /\ Dst i = dst.
Proof.
  intros Ho Hf i. unfold in_u in Ho. unfold i, LoadMapValue. destruct (Z.ltb_spec fd 0); [lia|].
  rewrite LoadImmOp_DWord. split; [split; [reflexivity|right; reflexivity]|].
  rewrite mapOffset_eq. unfold mapFd. cbn [Constant Dst ins5].
  assert (Hu : u64 (Z.shiftl offset 32) = offset * 2 ^ 32).
  { rewrite Z.shiftl_mul_pow2 by lia. unfold u64, wrapu. apply Z.mod_small. lia. }
  assert (Hv : u32 fd = fd) by (unfold u32, wrapu; apply Z.mod_small; lia).
  rewrite Hu, Hv, lor_disjoint_add by lia. split; [|split; [|reflexivity]].
  - unfold i32. rewrite <- (sext_wrapu 32) by lia. unfold i64. rewrite <- (wrapu_le 32 64) by lia.
    rewrite wrapu_sext, wrapu_le by lia. unfold wrapu.
    replace ((offset * 2 ^ 32 + fd) mod 2 ^ 32) with fd by lia. apply sext_id; [lia|]. unfold in_s; lia.
  - unfold i64, sext. destruct (_ <? _); lia.
Qed.

(** Whole streams: exactly the map loads with an associated map get their lower half replaced by the fd;
    a closed map is an error. *)
Theorem C08_stream l l' :
  encodeMapPointers l = (l', None) ->
  Forall2 (fun i i' =>
    (forall fd, map_load i -> MapFD i = Some fd ->
       0 <= fd /\ exists c, i' = set_cons i c /\ in_s 64 c /\ c mod 2 ^ 32 = fd mod 2 ^ 32 /\
                            (c / 2 ^ 32) mod 2 ^ 32 = (Constant i / 2 ^ 32) mod 2 ^ 32) /\
    (~ map_load i \/ MapFD i = None -> i' = i)) l l'.
Proof. apply encodeMapPointers_ok. Qed.
Theorem C08_closed_map l :
  (exists i fd, In i l /\ map_load i /\ MapFD i = Some fd /\ fd < 0) <-> snd (encodeMapPointers l) = Some EClosedFd.
Proof.
  split.
  - intros (i & fd & A & B & C & D). eapply encodeMapPointers_closed; eauto.
  - destruct (encodeMapPointers l) as [l' r] eqn:E. cbn. intros ->. now apply encodeMapPointers_err in E as (_ & H).
Qed.
Example C08_ex : map_load (set_map (LoadMapValue 1 0 8) (Some 7)) /\
  encodeMapPointers [set_map (LoadMapValue 1 0 8) (Some 7)] = ([set_map (LoadMapValue 1 7 8) (Some 7)], None).
Proof. repeat split; try (right; reflexivity); reflexivity. Qed.

(** * C09 tags *)

(** Equal up to the constants of map loads and metadata *)
Definition same_up_to_maps (i i' : instr) : Prop :=
  OpCode i = OpCode i' /\ Dst i = Dst i' /\ Src i = Src i' /\ Offset i = Offset i' /\
  (map_load i \/ Constant i = Constant i').

Lemma Marshal_strip native bo i : Marshal native bo i = Marshal native bo (strip i).
Proof. reflexivity. Qed.

Theorem C09_tag_ignores_maps (T : Type) (T_eqb : T -> T -> bool) (sha1 sha256 : list Z -> T) native bo l l' t :
  Forall2 same_up_to_maps l l' ->
  Tag T sha1 native bo l = Tag T sha1 native bo l' /\
  HasTag T T_eqb sha1 sha256 t native bo l = HasTag T T_eqb sha1 sha256 t native bo l'.
Proof.
  intros H.
  assert (E : hash_input native bo l = hash_input native bo l').
  { unfold hash_input. induction H as [|i i' l l' (H1 & H2 & H3 & H4 & H5) H IH]; [reflexivity|].
    cbn [map marshalAll].
    assert (M : Marshal native bo (if IsLoadFromMap i then set_cons i 0 else i) =
                Marshal native bo (if IsLoadFromMap i' then set_cons i' 0 else i')).
    { pose proof (IsLoadFromMap_spec i) as S1. assert (EI : IsLoadFromMap i = IsLoadFromMap i')
        by (unfold IsLoadFromMap; now rewrite H1, H3).
      rewrite <- EI. destruct (IsLoadFromMap i).
      - rewrite Marshal_strip, (Marshal_strip _ _ (set_cons i' 0)). unfold strip. cbn. now rewrite H1, H2, H3, H4.
      - destruct H5 as [H5|H5]; [apply S1 in H5; discriminate|].
        rewrite Marshal_strip, (Marshal_strip _ _ i'). unfold strip. now rewrite H1, H2, H3, H4, H5. }
    rewrite M, IH. reflexivity. }
  unfold Tag, HasTag, tag. rewrite E. auto.
Qed.

(** Without map loads the hashed bytes are the encoding of the stream as it is. *)
Theorem C09_hashed_bytes native bo l :
  (forall i, In i l -> ~ map_load i) -> hash_input native bo l = marshalAll native bo l.
Proof.
  intros H. unfold hash_input. f_equal. induction l as [|i l IH]; [reflexivity|]. cbn [map].
  rewrite IH by (intros; apply H; right; auto). f_equal.
  pose proof (IsLoadFromMap_spec i) as S1. destruct (IsLoadFromMap i); [|reflexivity].
  exfalso. apply (H i (or_introl eq_refl)). now apply S1.
Qed.

(** HasTag accepts the SHA1 and the SHA256 tag and nothing else *)
Theorem C09_HasTag (T : Type) (T_eqb : T -> T -> bool) (sha1 sha256 : list Z -> T) native bo l bs t :
  (forall a b, T_eqb a b = true <-> a = b) -> hash_input native bo l = (bs, None) ->
  exists b, HasTag T T_eqb sha1 sha256 t native bo l = Ok b /\ (b = true <-> t = sha1 bs \/ t = sha256 bs) /\
            Tag T sha1 native bo l = Ok (sha1 bs).
Proof.
  intros He Hh. unfold HasTag, Tag, tag. rewrite Hh. destruct (T_eqb t (sha256 bs)) eqn:E.
  - exists true. split; [reflexivity|]. apply He in E. tauto.
  - exists (T_eqb t (sha1 bs)). split; [reflexivity|]. split; [|reflexivity]. rewrite He. split; [auto|].
    intros [?|C]; [auto|]. apply He in C. congruence.
Qed.
Example C09_ex : Forall2 same_up_to_maps [LoadMapPtr 1 3; Return] [LoadMapPtr 1 9; Return].
Proof.
  constructor; [|constructor; [|constructor]].
  - repeat split. left. split; [reflexivity|left; reflexivity].
  - repeat split. right. reflexivity.
Qed.

(** * C10 iterator *)
Theorem C10_iterator l :
  Z.of_nat (length l) < 2 ^ 62 ->
  length (iterate l) = length l /\
  forall k i, nth_error l k = Some i -> nth_error (iterate l) k = Some (Z.of_nat k, raw_offset l k, i).
Proof.
  intros H. pose proof (small_total l H). rewrite iterate_spec by lia. split; [apply positions_from_length|].
  intros k i Hk. rewrite (positions_from_nth _ _ _ _ _ Hk). apply triple_eq; lia.
Qed.
Example C10_ex : iterate [LoadImm 0 1 DWord; Return] = [(0, 0, LoadImm 0 1 DWord); (1, 2, Return)].
Proof. reflexivity. Qed.

(** * C11 AssociateMap *)
Theorem C11_AssociateMap symbol m l l' r :
  AssociateMap symbol m l = (l', r) ->
  (r = None <-> symbol <> EmptyString /\ (exists i, In i l /\ Reference i = symbol) /\
                forall i, In i l -> Reference i = symbol -> map_load i) /\
  (r = None -> Forall2 (fun i i' =>
      (Reference i = symbol -> i' = set_map (set_ref i EmptyString) (Some m)) /\
      (Reference i <> symbol -> i' = i)) l l').
Proof.
  unfold AssociateMap. destruct (String.eqb_spec symbol EmptyString) as [E|E].
  - intros H; inversion H; subst. split; [split; [discriminate|tauto]|discriminate].
  - intros H. destruct (associateMap_spec symbol m l E false l' r H) as (H1 & H2 & _ & _). split.
    + rewrite H1. split; [intros ([C|C] & D); [discriminate|auto]|tauto].
    + intros C. rewrite (H2 C). clear. induction l as [|i l IH]; cbn [map]; constructor; [|exact IH].
      destruct (String.eqb_spec (Reference i) symbol); split; intros; auto; contradiction.
Qed.
Example C11_ex : snd (AssociateMap "m" 5 [set_ref (LoadMapPtr 1 0) "m"; Return]) = None.
Proof. reflexivity. Qed.

(** * C12 indexes *)
Theorem C12_SymbolOffsets l :
  (forall m, SymbolOffsets l = Ok m ->
     unique_symbols l /\
     forall s o, lookup s m = Some o <-> s <> EmptyString /\ exists k, defines l s k /\ o = Z.of_nat k) /\
  (forall e, SymbolOffsets l = Err e -> e = EDuplicate /\ ~ unique_symbols l).
Proof.
  unfold SymbolOffsets.
  destruct (symbolOffsets_err 0 [] [] l (positions_from 0 0 l)) as (S1 & S2).
  { apply positions_from_snd. } { intros s; split; auto. }
  split.
  - intros m H. split.
    + destruct (index_symbols_dup [] (positions_from 0 0 l)) as [C|(m' & _ & _ & U)].
      * apply S1 in C. congruence.
      * now rewrite positions_from_snd in U.
    + intros s o. rewrite (symbolOffsets_ok _ _ _ _ H s o). split.
      * intros [C|(A & k & B & C)]; [discriminate|]. split; [auto|]. exists k. split; [auto|lia].
      * intros (A & k & B & C). right. split; [auto|]. exists k. split; [auto|lia].
  - intros e H. pose proof (S2 e H). subst e. split; [reflexivity|]. apply S1 in H.
    apply index_symbols_err in H as [(i & _ & _ & C)|C]; [contradiction|]. now rewrite positions_from_snd in C.
Qed.

Theorem C12_ReferenceOffsets l s :
  match lookup s (ReferenceOffsets l) with
  | Some os => s <> EmptyString /\ os <> [] /\ StronglySorted Z.lt os /\
               forall z, In z os <-> exists k i, z = Z.of_nat k /\ nth_error l k = Some i /\ Reference i = s
  | None => s = EmptyString \/ forall i, In i l -> Reference i <> s
  end.
Proof.
  unfold ReferenceOffsets. destruct (string_dec s EmptyString) as [->|N].
  - rewrite referenceOffsets_empty by reflexivity. auto.
  - rewrite referenceOffsets_spec by exact N. cbn [lookup].
    destruct (ref_indices_spec s 0 l) as (Hs & Hin). destruct (ref_indices s 0 l) as [|z zs] eqn:E.
    + right. intros i Hi C. apply In_nth_error in Hi as [k Hk].
      destruct (proj2 (Hin (0 + Z.of_nat k))). exists k, i. auto.
    + split; [exact N|]. split; [discriminate|]. split; [exact Hs|]. intros y. rewrite (Hin y). reflexivity.
Qed.

Theorem C12_FunctionReferences l :
  Sorted str_le (FunctionReferences l) /\ NoDup (FunctionReferences l) /\
  forall s, In s (FunctionReferences l) <->
    exists i, In i l /\ Reference i = s /\ s <> EmptyString /\ Constant i = -1 /\
              ((is_call (OpCode i) /\ Src i = 1) \/ (is_dword (OpCode i) /\ Src i = 4)).
Proof.
  unfold FunctionReferences. destruct (call_set_spec l [] (NoDup_nil _)) as (N & I).
  destruct (sort_strings_spec (call_set [] l)) as (A & B & C). split; [exact A|]. split; [exact (C N)|].
  intros s. rewrite B, I. split.
  - intros [[]|(i & H1 & H2 & H3)]. exists i. split; [auto|]. split; [auto|].
    unfold isPendingCall in H3. apply andb_true_iff in H3 as (H3 & H5). apply andb_true_iff in H3 as (H3 & H4).
    apply negb_true_iff, String.eqb_neq in H4. apply Z.eqb_eq in H3. split; [congruence|]. split; [auto|].
    unfold IsFunctionReference, IsFunctionCall, IsLoadOfFunctionPointer in H5. rewrite IsDWordLoad_eq in H5.
    apply orb_true_iff in H5 as [H5|H5]; apply andb_true_iff in H5 as (H5 & H6).
    + left. split; [now apply JumpOp_call|]. now apply Z.eqb_eq in H6.
    + right. split; [now apply Z.eqb_eq in H5|]. now apply Z.eqb_eq in H6.
  - intros (i & H1 & H2 & H3 & H4 & H5). right. exists i. split; [auto|]. split; [auto|].
    unfold isPendingCall. rewrite H4, H2. cbn [Z.eqb]. destruct (String.eqb_spec s EmptyString); [contradiction|].
    cbn [negb andb Z.eqb Pos.eqb].
    unfold IsFunctionReference, IsFunctionCall, IsLoadOfFunctionPointer. rewrite IsDWordLoad_eq.
    destruct H5 as [(H5 & ->)|(H5 & ->)].
    + apply JumpOp_call in H5. rewrite H5. reflexivity.
    + unfold is_dword in H5. rewrite H5. apply orb_true_r.
Qed.
Example C12_ex : FunctionReferences [Label Call "b"; Label Call "a"; Label Call "b"; Return] = ["a"%string; "b"%string].
Proof. reflexivity. Qed.

(** * C13 metadata *)
Theorem C13_metadata_is_a_persistent_map (K V : Type)
  (keq : forall a b : K, {a = b} + {a <> b}) (veq : forall a b : V, {a = b} + {a <> b})
  (history : list (Metadata.mop K V)) :
  exists s, Metadata.mrun K V keq veq (Metadata.minit K V) history = Some s /\
    forall x k, Metadata.Get K V keq (Metadata.mheap K V s) (Metadata.mvar K V s x) k =
                Some (Metadata.spec_run K V keq history x k).
Proof. apply Metadata.metadata_refines. Qed.
Example C13_ex :
  let h := [Metadata.OSet nat nat 0%nat 1%nat (Some 10%nat); Metadata.OSet nat nat 0%nat 2%nat (Some 20%nat);
            Metadata.OCopy nat nat 1%nat 0%nat; Metadata.OSet nat nat 0%nat 1%nat None] in
  Metadata.spec_run nat nat PeanoNat.Nat.eq_dec h 1%nat 1%nat = Some 10%nat /\
  Metadata.spec_run nat nat PeanoNat.Nat.eq_dec h 0%nat 1%nat = None.
Proof. split; reflexivity. Qed.

(** * C14 helper constants *)
Theorem C14_roundtrip p c :
  in_u 32 c ->
  (forall v, EncodeConstant p c = Some v -> DecodeConstant v = (p, c) /\ in_u 32 v) /\
  ((exists v, EncodeConstant p c = Some v) <-> c < 2 ^ 28 /\ p <> POther).
Proof.
  unfold in_u. intros Hc. unfold EncodeConstant, platformShift. rewrite Z.shiftr_div_pow2 by lia.
  destruct (Z.gtb_spec (c / 2 ^ 28) 0) as [G|G].
  - split; [discriminate|]. split; [intros (v & X); discriminate|]. lia.
  - assert (c < 2 ^ 28) by lia. split.
    + intros v Hv. destruct p; cbn [tagForPlatform] in Hv; [| |discriminate Hv];
        assert (Hv' := f_equal (fun o => match o with Some z => z | None => 0 end) Hv); cbv beta iota in Hv'; clear Hv; subst v.
      * change LinuxTag with 0. rewrite Z.lor_0_l, DecodeConstant_eq. rewrite (Z.div_small c) by lia.
        change (0 mod 8) with 0. cbn [Z.eqb]. split; [f_equal; lia|lia].
      * change WindowsTag with (1 * 2 ^ 28). rewrite lor_disjoint_add by lia. rewrite DecodeConstant_eq.
        replace ((1 * 2 ^ 28 + c) / 2 ^ 28) with 1 by lia. change (1 mod 8) with 1. cbn [Z.eqb].
        split; [f_equal; lia|lia].
    + split.
      * intros (v & Hv). split; [auto|]. intros ->. discriminate.
      * intros (_ & N). destruct p; cbn [tagForPlatform]; eauto. contradiction.
Qed.

Theorem C14_injective p c p' c' v :
  in_u 32 c -> in_u 32 c' -> EncodeConstant p c = Some v -> EncodeConstant p' c' = Some v -> p = p' /\ c = c'.
Proof.
  intros H H' E E'. destruct (C14_roundtrip p c H) as (A & _). destruct (C14_roundtrip p' c' H') as (A' & _).
  destruct (A v E) as (B & _), (A' v E') as (B' & _). rewrite B in B'. now inversion B'.
Qed.

(** Calls of helpers of another platform cannot be encoded; those of the native one are written with the
    tag removed. *)
Theorem C14_calls native bo p c v :
  in_u 32 c -> EncodeConstant p c = Some v ->
  (p <> native -> Marshal native bo (Builtin_Call v) = Err ENotNative) /\
  (p = native -> Marshal native bo (Builtin_Call v) = Ok (raw_bytes bo (mkRaw 0x85 0 0 0 c), 8)).
Proof.
  intros Hc E. destruct (C14_roundtrip p c Hc) as (A & B). destruct (A v E) as (D & R).
  assert (Hc2 : c < 2 ^ 28) by (apply B; eauto).
  assert (Hb : is_builtin (OpCode (Builtin_Call v)) (Dst (Builtin_Call v)) (Src (Builtin_Call v)))
    by (repeat split; reflexivity).
  assert (Hu : u32 (Constant (Builtin_Call v)) = v) by (apply wrapu_id; exact R).
  pose proof (marshalOp_builtin native (Builtin_Call v) Hb) as Hm. rewrite Hu, D in Hm. cbn iota beta in Hm.
  split; intros Hp.
  - unfold Marshal. change (OpCode (Builtin_Call v) =? InvalidOpCode) with false. cbv iota.
    rewrite Hm. destruct p, native; cbn [plat_eqb]; try reflexivity; contradiction.
  - subst native. assert (Hpe : plat_eqb p p = true) by (destruct p; reflexivity). rewrite Hpe in Hm.
    assert (Hi : i32 c = c). { apply i32_id. unfold in_s, in_u in *. lia. }
    rewrite Hi in Hm. rewrite (Marshal_shape p bo (Builtin_Call v) 0x85 0 c v); try reflexivity; try exact Hm.
    + discriminate.
    + unfold regs_ok, in_s. cbn. lia.
    + lia.
Qed.
Example C14_ex : EncodeConstant PWindows 3 = Some (2 ^ 28 + 3) /\ EncodeConstant PLinux (2 ^ 28) = None.
Proof. split; reflexivity. Qed.
