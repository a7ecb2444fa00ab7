(** Completeness of [encodes] and decoding of arbitrary bytes. *)
From Coq Require Import String.
From Verif Require Import Base.GoInt Asm.Model Asm.Spec Asm.Proof.
Open Scope Z_scope.

Lemma is_alu_dec op : is_alu op \/ ~ is_alu op.
Proof. unfold is_alu, cls. lia. Qed.
Lemma is_atomic_dec op : is_atomic op \/ ~ is_atomic op.
Proof. unfold is_atomic, cls. lia. Qed.
Lemma is_builtin_dec op d s : is_builtin op d s \/ ~ is_builtin op d s.
Proof. unfold is_builtin, is_call, cls. lia. Qed.

Lemma ext_alu_dec base off : (exists ext, ext_alu ext base off) \/ ~ (exists ext, ext_alu ext base off).
Proof.
  destruct (Z.eq_dec base 3) as [->|N3].
  { destruct (Z.eq_dec off 1) as [->|]; [left; eexists; constructor|right; intros [e He]; inversion He; lia]. }
  destruct (Z.eq_dec base 9) as [->|N9].
  { destruct (Z.eq_dec off 1) as [->|]; [left; eexists; constructor|right; intros [e He]; inversion He; lia]. }
  destruct (Z.eq_dec base 0xb) as [->|Nb].
  - destruct (Z.eq_dec off 8) as [->|]; [left; eexists; constructor|].
    destruct (Z.eq_dec off 16) as [->|]; [left; eexists; constructor|].
    destruct (Z.eq_dec off 32) as [->|]; [left; eexists; constructor|].
    right; intros [e He]; inversion He; lia.
  - right; intros [e He]; inversion He; lia.
Qed.

Lemma ext_code_dec k :
  (exists ext base o8, k = ext * 16 + base /\ ext_alu ext base o8) \/
  (forall ext base o8, k = ext * 16 + base -> ~ ext_alu ext base o8).
Proof.
  destruct (Z.eq_dec k 0x13) as [->|]; [left; exists 1, 3, 1; split; [reflexivity|constructor]|].
  destruct (Z.eq_dec k 0x19) as [->|]; [left; exists 1, 9, 1; split; [reflexivity|constructor]|].
  destruct (Z.eq_dec k 0x1b) as [->|]; [left; exists 1, 0xb, 8; split; [reflexivity|constructor]|].
  destruct (Z.eq_dec k 0x2b) as [->|]; [left; exists 2, 0xb, 16; split; [reflexivity|constructor]|].
  destruct (Z.eq_dec k 0x3b) as [->|]; [left; exists 3, 0xb, 32; split; [reflexivity|constructor]|].
  right. intros ext base o8 Hk He. destruct He; lia.
Qed.

(** shape of every successful encoding *)
Lemma Marshal_inv native bo i bs n :
  Marshal native bo i = Ok (bs, n) ->
  exists op off imm c,
    OpCode i <> 0xffff /\ marshalOp native i = Ok (op, off, imm, c) /\ bpfOpCode op = Some op /\
    op mod 256 = op /\
    (OpCode i <> 0x18 -> n = 8 /\ bs = raw_bytes bo (mkRaw op (Dst i mod 16) (Src i mod 16) off imm)) /\
    (OpCode i = 0x18 -> n = 16 /\ bs = raw_bytes bo (mkRaw op (Dst i mod 16) (Src i mod 16) off imm) ++
                                       raw_bytes bo (mkRaw 0 0 0 0 (Z.shiftr c 32))).
Proof.
  unfold Marshal. destruct (Z.eqb_spec (OpCode i) InvalidOpCode) as [E|E]; [discriminate|].
  destruct (marshalOp native i) as [[[[op off] imm] c]|] eqn:Hm; [|discriminate].
  destruct (bpfOpCode op) as [b|] eqn:Hb; [|discriminate].
  assert (Hbo : b = op /\ op mod 256 = op).
  { unfold bpfOpCode in Hb. destruct (valid op 0xff) eqn:V; [|discriminate]. cbn [negb] in Hb.
    inversion Hb as [Hb']. unfold valid in V. rewrite Z.eqb_eq, ldiff_sub in V. rewrite land_ff in *. lia. }
  destruct Hbo as [-> Hmod].
  assert (Hr : newBPFRegisters (Dst i) (Src i) bo =
               match bo with LE => Dst i mod 16 + 16 * (Src i mod 16) | BE => 16 * (Dst i mod 16) + Src i mod 16 end).
  { destruct bo; cbn [newBPFRegisters]; rewrite nibbles_eq; lia. }
  rewrite Hr, IsDWordLoad_eq. intros H. exists op, off, imm, c.
  repeat split; auto; destruct (Z.eqb_spec (OpCode i) 0x18); try contradiction; cbn [negb] in H;
    inversion H; subst; auto.
  unfold raw_bytes; cbn [r_op r_dst r_src r_off r_imm]. rewrite <- !app_assoc.
  f_equal. f_equal. f_equal. destruct bo; reflexivity.
Qed.

Lemma marshalOp_ranges native i op off imm c :
  well_typed i -> marshalOp native i = Ok (op, off, imm, c) -> in_s 16 off /\ in_s 32 imm.
Proof.
  intros (_ & _ & _ & Ho & _). unfold marshalOp.
  assert (R : forall x, in_s 32 (i32 x)) by (intros; apply sext_range; lia).
  destruct (IsBuiltinCall i).
  { destruct (DecodeConstant _) as [p v]. destruct (negb _); [discriminate|]. intros E; inversion E; subst; auto. }
  destruct (IsALU _).
  { destruct (marshalALU _ _) as [[op' off']|] eqn:Ma; [|discriminate]. intros E; inversion E; subst.
    split; [|apply R]. unfold marshalALU in Ma.
    repeat match type of Ma with
    | context [if ?c then _ else _] =>
        match c with
        | negb _ && _ => fail 1
        | _ => destruct c
        end
    end; cbn [negb andb Z.eqb] in Ma;
    try (destruct (negb (Offset i =? 0)); [discriminate|]); inversion Ma; subst; unfold in_s; lia. }
  destruct (negb _); intros E; inversion E; subst; auto.
Qed.

Lemma unmarshalOp_regs p w i : unmarshalOp p (fields_of w) = Ok i -> Dst i = r_dst w /\ Src i = r_src w.
Proof.
  unfold unmarshalOp. destruct (IsBuiltinCall _).
  { destruct (_ >=? 0).
    - destruct (EncodeConstant _ _); [|discriminate]. intros E; inversion E; split; reflexivity.
    - intros E; inversion E; split; reflexivity. }
  destruct (IsALU _).
  { intros E; inversion E. unfold unmarshalALU.
    repeat match goal with |- context [if ?c then _ else _] => destruct c end; split; reflexivity. }
  destruct (_ && _); intros E; inversion E; split; reflexivity.
Qed.

Lemma DecodeConstant_eq c :
  DecodeConstant c =
  (if (c / 2 ^ 28) mod 8 =? 0 then PLinux else if (c / 2 ^ 28) mod 8 =? 1 then PWindows else POther,
   c - (c / 2 ^ 28) mod 8 * 2 ^ 28).
Proof.
  unfold DecodeConstant, platformForConstant. rewrite ldiff_sub.
  change platformMask with (Z.shiftl (2 ^ 3 - 1) 28). rewrite land_field by lia. cbv zeta.
  change (2 ^ 3) with 8. set (t := (c / 2 ^ 28) mod 8). f_equal.
  change LinuxTag with (0 * 2 ^ 28). change WindowsTag with (1 * 2 ^ 28).
  destruct (Z.eqb_spec t 0) as [->|]; [reflexivity|].
  destruct (Z.eqb_spec t 1) as [->|]; [reflexivity|].
  destruct (Z.eqb_spec (t * 2 ^ 28) (0 * 2 ^ 28)); [lia|].
  destruct (Z.eqb_spec (t * 2 ^ 28) (1 * 2 ^ 28)); [lia|]. reflexivity.
Qed.

Lemma unmarshal_single_inv bo p w rest i r' :
  raw_ok w -> Unmarshal bo p (raw_bytes bo w ++ rest) = Ok (i, r') -> r_op w <> 0x18 ->
  unmarshalOp p (fields_of w) = Ok i /\ r' = rest.
Proof.
  intros Hw H Hne. unfold Unmarshal in H. rewrite read_full_app in H; [|lia|apply raw_bytes_length].
  rewrite unmarshalFields_raw in H by exact Hw. fold (fields_of w) in H.
  destruct (unmarshalOp p (fields_of w)) as [j|] eqn:Hu; [|discriminate].
  assert (Hj : OpCode j <> 0x18).
  { unfold unmarshalOp in Hu. destruct (IsBuiltinCall _).
    { destruct (_ >=? 0).
      - destruct (EncodeConstant _ _); [|discriminate]. inversion Hu; exact Hne.
      - inversion Hu; exact Hne. }
    destruct Hw as (Hop & _).
    destruct (is_alu_dec (r_op w)) as [Ha|Ha].
    { cbn [fields_of OpCode] in Hu. rewrite (proj2 (IsALU_spec _) Ha) in Hu. inversion Hu.
      destruct (ext_alu_dec (r_op w / 16) (r_off w)) as [[e He]|Hn].
      - rewrite (unmarshalALU_ext w e Hop Ha He). cbn [set_off set_op OpCode]. destruct He; lia.
      - rewrite (unmarshalALU_none w Hop Ha Hn). exact Hne. }
    cbn [fields_of OpCode] in Hu. rewrite (not_bool _ _ (IsALU_spec (r_op w)) Ha) in Hu.
    destruct (is_atomic_dec (r_op w)) as [Ht|Ht].
    - pose proof (unmarshalOp_atomic p w Hop Ht) as E. unfold unmarshalOp in E.
      rewrite (not_bool _ _ (IsBuiltinCall_spec (fields_of w))) in E.
      2:{ intros Hb. exact (proj1 (proj2 (proj2 (class_disjoint _ _ _))) Hb Ht). }
      cbn [fields_of OpCode] in E. rewrite (not_bool _ _ (IsALU_spec (r_op w)) Ha) in E.
      rewrite Hu in E. inversion E. cbn [set_op OpCode fields_of].
      unfold is_atomic, cls in Ht. lia.
    - rewrite (not_bool _ _ (isStX_atomic (r_op w)) Ht) in Hu. inversion Hu. exact Hne. }
  rewrite IsDWordLoad_eq in H. destruct (Z.eqb_spec (OpCode j) 0x18); [contradiction|].
  cbn [negb] in H. inversion H; subst. auto.
Qed.

Lemma roundtrip_complete native bo i bs n rest :
  well_typed i -> Marshal native bo i = Ok (bs, n) ->
  Unmarshal bo native (bs ++ rest) = Ok (strip i, rest) ->
  exists ws, encodes native i ws.
Proof.
  intros Hwt Hm Hu.
  destruct (Marshal_inv _ _ _ _ _ Hm) as (op & off & imm & c & Hinv & Hmo & Hbpf & Hmod & Hs1 & Hs2).
  destruct (marshalOp_ranges _ _ _ _ _ _ Hwt Hmo) as (Hoff & Himm).
  destruct Hwt as (Wop & Wd & Ws & Wo & Wc). unfold in_u in Wop, Wd, Ws.
  set (w := mkRaw op (Dst i mod 16) (Src i mod 16) off imm) in *.
  assert (Hw : raw_ok w) by (repeat split; cbn [w r_op r_dst r_src r_off r_imm]; try lia; apply Hoff || apply Himm).
  assert (Wop' : 0 <= op < 256) by lia.
  destruct (Z.eq_dec (OpCode i) 0x18) as [E18|N18].
  - (* dword load *)
    destruct (Hs2 E18) as (-> & ->). clear Hs1 Hs2.
    assert (Hreg : Dst i = Dst i mod 16 /\ Src i = Src i mod 16).
    { unfold Unmarshal in Hu. rewrite <- app_assoc, read_full_app in Hu; [|lia|apply raw_bytes_length].
      rewrite unmarshalFields_raw in Hu by exact Hw. fold (fields_of w) in Hu.
      destruct (unmarshalOp native (fields_of w)) as [j|] eqn:Hj; [|discriminate].
      apply unmarshalOp_regs in Hj. cbn [w r_dst r_src] in Hj.
      destruct (negb (IsDWordLoad (OpCode j))).
      - inversion Hu. rewrite H0 in Hj. exact Hj.
      - destruct (read_full 8 _) as [[d2 r2]|]; [|discriminate]. destruct (negb _); [discriminate|].
        apply (f_equal (fun r => match r with Ok (a, _) => (Dst a, Src a) | Err _ => (0, 0) end)) in Hu.
        cbn [set_cons strip Dst Src] in Hu. destruct Hj as [<- <-]. inversion Hu as [[H1 H2]]. auto. }
    exists [mkRaw 0x18 (Dst i) (Src i) (Offset i) (i32 (Constant i)); mkRaw 0 0 0 0 (i32 (Z.shiftr (Constant i) 32))].
    apply enc_dword; try (apply sext_range; lia); auto.
    + repeat split; try lia; apply Wo.
    + rewrite Z.shiftr_div_pow2 by lia. unfold in_s in Wc. unfold i32.
      rewrite sext_mod by lia. rewrite sext_id; [lia|lia|unfold in_s; lia].
  - destruct (Hs1 N18) as (-> & ->). clear Hs1 Hs2.
    assert (Nop : r_op w <> 0x18).
    { cbn [w r_op]. intros E. destruct (is_builtin_dec (OpCode i) (Dst i) (Src i)) as [B|B].
      { rewrite marshalOp_builtin in Hmo by exact B. destruct (DecodeConstant _) as [p v].
        destruct (plat_eqb p native); [|discriminate]. inversion Hmo; congruence. }
      destruct (is_alu_dec (OpCode i)) as [A|A].
      { rewrite marshalOp_alu in Hmo by exact A.
        destruct (marshalALU_spec (OpCode i) (Offset i) ltac:(lia) A) as (M1 & M2).
        destruct (ext_code_dec ((OpCode i / 16) mod 1024)) as [(ext & base & o8 & Hk & He)|Hne].
        - rewrite (M1 _ _ _ Hk He) in Hmo. destruct (Offset i =? 0); [|discriminate]. inversion Hmo.
          unfold is_alu, cls in A. destruct He; lia.
        - rewrite (M2 Hne) in Hmo. inversion Hmo. congruence. }
      destruct (is_atomic_dec (OpCode i)) as [T|T].
      { rewrite marshalOp_atomic in Hmo by (assumption || lia). inversion Hmo. unfold is_atomic, cls in T. lia. }
      rewrite marshalOp_plain in Hmo by (assumption || lia). inversion Hmo; congruence. }
    destruct (unmarshal_single_inv bo native w rest _ _ Hw Hu Nop) as (Hj & _).
    destruct (unmarshalOp_regs _ _ _ Hj) as (Rd & Rs). cbn [strip Dst Src w r_dst r_src] in Rd, Rs.
    assert (Hregs : regs_ok i) by (repeat split; try lia; apply Wo).
    destruct (is_builtin_dec (OpCode i) (Dst i) (Src i)) as [B|B].
    { pose proof B as (_ & D0 & S0).
      rewrite marshalOp_builtin, DecodeConstant_eq in Hmo by exact B.
      set (t := (u32 (Constant i) / 2 ^ 28) mod 8) in *.
      destruct (plat_eqb _ native) eqn:Hpl; [|discriminate]. inversion Hmo; subst op off c.
      rewrite unmarshalOp_builtin in Hj.
      2:{ cbn [w r_op r_dst r_src]. rewrite D0, S0. cbn. rewrite D0, S0 in B. exact B. }
      2:{ exact Himm. }
      cbn [w r_imm] in Hj.
      assert (Hv : imm = i32 (u32 (Constant i) - t * 2 ^ 28)) by congruence.
      destruct (Z.ltb_spec imm 0) as [L|L].
      - apply Ok_inj in Hj as Hj'. apply (f_equal Constant) in Hj'. cbn in Hj'.
        assert (Hu32 : u32 (Constant i) = imm + 2 ^ 32).
        { unfold u32, wrapu. rewrite <- Hj'. unfold in_s in Himm. apply (mod_unique _ _ _ (-1)); lia. }
        assert (Ht : 0 <= t < 8) by (unfold t; lia).
        assert (T0 : t = 0).
        { rewrite Hu32 in Hv.
          assert (Hx : wrapu 32 imm = wrapu 32 (imm - t * 2 ^ 28)).
          { rewrite Hv at 1. unfold i32. rewrite wrapu_sext by lia. unfold wrapu.
            replace (imm + 2 ^ 32 - t * 2 ^ 28) with (imm - t * 2 ^ 28 + 1 * 2 ^ 32) by lia.
            now rewrite Z.mod_add by lia. }
          unfold wrapu in Hx. unfold in_s in Himm. clearbody t. clear - Hx Himm L Ht. lia. }
        rewrite T0 in Hpl. cbn [Z.eqb] in Hpl. destruct native; try discriminate Hpl.
        exists [mkRaw (OpCode i) 0 0 (Offset i) (Constant i)].
        apply enc_builtin_negative; auto; try lia.
        unfold t in T0. rewrite Hu32 in T0. unfold in_s in Himm. lia.
      - destruct (Z.leb_spec (2 ^ 28) imm); [discriminate|].
        destruct (plat_tag native) as [tg|] eqn:Htg; [|discriminate].
        apply Ok_inj in Hj as Hj'. apply (f_equal Constant) in Hj'.
        change (tg * 2 ^ 28 + imm = Constant i) in Hj'.
        exists [mkRaw (OpCode i) 0 0 (Offset i) imm].
        apply (enc_builtin native i tg imm); auto; lia. }
    destruct (is_alu_dec (OpCode i)) as [A|A].
    { rewrite marshalOp_alu in Hmo by exact A.
      destruct (marshalALU_spec (OpCode i) (Offset i) ltac:(lia) A) as (M1 & M2).
      destruct (ext_code_dec ((OpCode i / 16) mod 1024)) as [(ext & base & o8 & Hk & He)|Hne].
      - rewrite (M1 _ _ _ Hk He) in Hmo.
        destruct (Z.eqb_spec (Offset i) 0) as [O0|]; [|discriminate]. inversion Hmo; subst op off imm c.
        assert (A8 : is_alu (OpCode i - ext * 256)) by (unfold is_alu, cls in *; lia).
        assert (B8 : (OpCode i - ext * 256) / 16 = base) by (destruct He; lia).
        assert (Hal : unmarshalALU (fields_of w) = strip i).
        { rewrite unmarshalOp_alu in Hj by exact A8. congruence. }
        rewrite (unmarshalALU_ext w ext) in Hal; try assumption.
        2:{ cbn [w r_op r_off]. rewrite B8. exact He. }
        apply (f_equal Constant) in Hal. change (i32 (Constant i) = Constant i) in Hal.
        eexists. apply (enc_alu_ext native i ext base o8 (OpCode i - ext * 256)); auto; try lia.
        rewrite <- Hal. apply sext_range; lia.
      - rewrite (M2 Hne) in Hmo. inversion Hmo; subst op off imm c.
        assert (Hal : unmarshalALU (fields_of w) = strip i).
        { rewrite unmarshalOp_alu in Hj by exact A. congruence. }
        rewrite unmarshalALU_none in Hal; try assumption.
        2:{ cbn [w r_off]. intros [e He]. inversion He. }
        pose proof (f_equal Constant Hal) as Hc. pose proof (f_equal Offset Hal) as Ho.
        change (i32 (Constant i) = Constant i) in Hc. change (0 = Offset i) in Ho.
        eexists. apply enc_alu; auto. rewrite <- Hc. apply sext_range; lia. }
    destruct (is_atomic_dec (OpCode i)) as [T|T].
    { rewrite marshalOp_atomic in Hmo by (assumption || lia). inversion Hmo; subst off imm c. rename H0 into Eop.
      assert (T8 : is_atomic op) by (unfold is_atomic, cls in *; lia).
      rewrite unmarshalOp_atomic in Hj by assumption.
      apply Ok_inj in Hj as Hj'. pose proof (f_equal OpCode Hj') as H1. pose proof (f_equal Constant Hj') as H2.
      change (i32 (Constant i) = Constant i) in H2.
      change (i32 (Constant i) mod 512 * 256 + op = OpCode i) in H1. rewrite H2 in H1.
      eexists. apply (enc_atomic native i op); auto. rewrite <- H2. apply sext_range; lia. }
    rewrite marshalOp_plain in Hmo by (assumption || lia). inversion Hmo; subst op off imm c.
    assert (Hc : i32 (Constant i) = Constant i).
    { rewrite unmarshalOp_plain in Hj; try assumption.
      - apply Ok_inj in Hj as Hj'. pose proof (f_equal Constant Hj') as H1. exact H1.
      - cbn [w r_op r_dst r_src]. rewrite <- Rd, <- Rs. exact B. }
    eexists. apply enc_plain; auto. rewrite <- Hc. apply sext_range; lia.
Qed.

(** ** Decoding arbitrary bytes *)
Lemma read_full_inv n r d r' :
  (0 < n)%nat -> read_full n r = Ok (d, r') -> r = d ++ r' /\ length d = n.
Proof.
  unfold read_full. destruct r as [|x r]; [discriminate|].
  destruct (Nat.ltb_spec (length (x :: r)) n); [discriminate|]. intros Hn E; injection E as <- <-.
  split; [now rewrite firstn_skipn|]. rewrite firstn_length. lia.
Qed.

Lemma lossy_dec p w : lossy p w \/ ~ lossy p w.
Proof.
  unfold lossy. destruct (is_alu_dec (r_op w)) as [A|A].
  - assert (NB : ~ is_builtin (r_op w) (r_dst w) (r_src w)).
    { intros B. exact (proj1 (class_disjoint _ _ _) B A). }
    destruct (ext_alu_dec (r_op w / 16) (r_off w)); destruct (Z.eq_dec (r_off w) 0); tauto.
  - destruct (is_builtin_dec (r_op w) (r_dst w) (r_src w)); [|tauto].
    destruct (Z_lt_dec (r_imm w) 0); [|tauto].
    destruct (Z_lt_dec (r_imm w) (- 2 ^ 31 + 2 ^ 28)); [|tauto].
    destruct p; [tauto| |]; left; right; (split; [assumption|]; split; [assumption|]; intros [? _]; discriminate).
Qed.

Lemma Unmarshal_inv bo p bs i rest :
  bytes_ok bs -> Unmarshal bo p bs = Ok (i, rest) ->
  exists w ws, bs = stream_bytes bo (w :: ws) ++ rest /\ Forall raw_ok (w :: ws) /\ bytes_ok rest /\
    ((~ lossy p w /\ encodes p i (w :: ws)) \/
     (lossy p w /\ ws = [] /\ i = fields_of w)).
Proof.
  intros Hb Hu. unfold Unmarshal in Hu.
  destruct (read_full 8 bs) as [[d r1]|] eqn:Hr1; [|discriminate].
  apply read_full_inv in Hr1 as [-> Hd]; [|lia].
  apply bytes_ok_app in Hb as [Hbd Hb1].
  destruct (parse_raw_ok bo d Hbd Hd) as (Hw & Hdw). set (w := parse_raw bo d) in *. clearbody w.
  rewrite <- Hdw in Hu. rewrite unmarshalFields_raw in Hu by exact Hw. fold (fields_of w) in Hu.
  destruct (unmarshalOp p (fields_of w)) as [j|] eqn:Hj; [|discriminate].
  assert (Hregs : forall o c, in_s 16 o -> regs_ok (mkIns (r_op w) (r_dst w) (r_src w) o c EmptyString EmptyString None)).
  { intros. unfold regs_ok; cbn. destruct Hw as (? & ? & ? & ? & ?). auto. }
  pose proof Hw as (Wop & Wd & Ws & Wo & Wi).
  destruct (Z.eq_dec (r_op w) 0x18) as [E18|N18].
  - (* dword *)
    assert (P1 : ~ is_builtin (r_op w) (r_dst w) (r_src w)) by (rewrite E18; unfold is_builtin, is_call, cls; cbn; lia).
    assert (P2 : ~ is_alu (r_op w)) by (rewrite E18; unfold is_alu, cls; cbn; lia).
    assert (P3 : ~ is_atomic (r_op w)) by (rewrite E18; unfold is_atomic, cls; cbn; lia).
    rewrite unmarshalOp_plain in Hj by assumption. injection Hj as <-.
    rewrite IsDWordLoad_eq in Hu. cbn [fields_of OpCode] in Hu. rewrite E18 in Hu. cbn [Z.eqb Pos.eqb negb] in Hu.
    destruct (read_full 8 r1) as [[d2 r2]|] eqn:Hr2; [|discriminate].
    apply read_full_inv in Hr2 as [-> Hd2]; [|lia].
    apply bytes_ok_app in Hb1 as [Hbd2 Hb2].
    destruct (parse_raw_ok bo d2 Hbd2 Hd2) as (Hw2 & Hdw2). set (w2 := parse_raw bo d2) in *. clearbody w2.
    rewrite <- Hdw2 in Hu.
    pose proof (raw_low_zero bo w2 Hw2) as Hz.
    destruct (get bo (slice (raw_bytes bo w2) 0 4) =? 0); [|discriminate]. cbn [negb] in Hu.
    destruct (proj1 Hz eq_refl) as (Z1 & Z2 & Z3 & Z4).
    assert (Hi : i32 (get bo (slice (raw_bytes bo w2) 4 8)) = r_imm w2).
    { pose proof (unmarshalFields_raw bo w2 Hw2) as F. apply (f_equal Constant) in F. exact F. }
    rewrite Hi, hi_lo in Hu by (apply Hw2 || apply Hw). inversion Hu; subst i rest.
    exists w, [w2]. split; [|split; [|split; [exact Hb2|left; split]]].
    + unfold stream_bytes; cbn [map concat]. rewrite app_nil_r, <- app_assoc. congruence.
    + auto using Forall_cons, Forall_nil.
    + intros [[? _]|[? _]]; contradiction.
    + replace [w; w2] with [mkRaw 0x18 (r_dst w) (r_src w) (r_off w) (r_imm w); mkRaw 0 0 0 0 (r_imm w2)]
        by (destruct w, w2; cbn in *; congruence).
      match goal with |- encodes p ?x _ =>
        change [mkRaw 0x18 (r_dst w) (r_src w) (r_off w) (r_imm w); mkRaw 0 0 0 0 (r_imm w2)] with
               [mkRaw 0x18 (Dst x) (Src x) (Offset x) (r_imm w); mkRaw 0 0 0 0 (r_imm w2)] end.
      apply enc_dword; auto; try apply Hw2. repeat split; cbn; lia || apply Wo.
  - (* single slot *)
    assert (Hdd : d ++ r1 = raw_bytes bo w ++ r1) by congruence.
    assert (Hu' : Unmarshal bo p (raw_bytes bo w ++ r1) = Ok (i, rest)).
    { unfold Unmarshal. rewrite read_full_app; [|lia|apply raw_bytes_length].
      rewrite unmarshalFields_raw by exact Hw. fold (fields_of w). rewrite Hj. exact Hu. }
    destruct (unmarshal_single_inv _ _ _ _ _ _ Hw Hu' N18) as (Hj' & ->).
    rewrite Hj in Hj'. injection Hj' as ->. clear Hu Hu'.
    exists w, []. rewrite Hdd. unfold stream_bytes; cbn [map concat]. rewrite app_nil_r.
    split; [reflexivity|]. split; [auto using Forall_cons, Forall_nil|]. split; [exact Hb1|].
    destruct (is_builtin_dec (r_op w) (r_dst w) (r_src w)) as [B|B].
    { pose proof B as (_ & D0 & S0). rewrite unmarshalOp_builtin in Hj by assumption.
      assert (NA : ~ is_alu (r_op w)) by (intros A; exact (proj1 (class_disjoint _ _ _) B A)).
      destruct (Z.ltb_spec (r_imm w) 0) as [L|L].
      - injection Hj as <-. destruct (lossy_dec p w) as [Hl|Hl]; [right; auto|left].
        split; [exact Hl|]. unfold lossy in Hl.
        assert (Hp : p = PLinux /\ r_imm w < - 2 ^ 31 + 2 ^ 28).
        { destruct (Z_lt_dec (r_imm w) (- 2 ^ 31 + 2 ^ 28)).
          - destruct p; [auto| |]; exfalso; apply Hl; right; split; auto; split; auto; intros [? _]; discriminate.
          - exfalso; apply Hl; right; split; auto; split; auto; intros [_ ?]; lia. }
        destruct Hp as [-> Hp].
        replace [w] with [mkRaw (r_op w) 0 0 (r_off w) (r_imm w)] by (destruct w; cbn in *; congruence).
        apply (enc_builtin_negative PLinux (fields_of w)); auto.
        + apply Hregs; exact Wo.
        + unfold in_s in Wi. cbn. lia.
      - destruct (Z.leb_spec (2 ^ 28) (r_imm w)); [discriminate|].
        destruct (plat_tag p) as [t|] eqn:Ht; [|discriminate]. injection Hj as <-.
        left. split.
        { intros [[? _]|(_ & ? & _)]; [contradiction|lia]. }
        replace [w] with [mkRaw (r_op w) 0 0 (r_off w) (r_imm w)] by (destruct w; cbn in *; congruence).
        apply (enc_builtin p (set_cons (fields_of w) (t * 2 ^ 28 + r_imm w)) t (r_imm w)); auto.
        apply Hregs; exact Wo. }
    destruct (is_alu_dec (r_op w)) as [A|A].
    { rewrite unmarshalOp_alu in Hj by exact A. injection Hj as <-.
      destruct (ext_alu_dec (r_op w / 16) (r_off w)) as [[e He]|Hne].
      - left. split.
        { intros [(_ & _ & N)|[? _]]; [apply N; eauto|contradiction]. }
        rewrite (unmarshalALU_ext w e Wop A He).
        replace [w] with [mkRaw (r_op w) (r_dst w) (r_src w) (r_off w) (r_imm w)] by (destruct w; cbn in *; congruence).
        apply (enc_alu_ext p (set_off (set_op (fields_of w) (e * 256 + r_op w)) 0) e (r_op w / 16) (r_off w) (r_op w)); auto.
        unfold regs_ok, in_s; cbn; lia.
      - rewrite (unmarshalALU_none w Wop A Hne).
        destruct (Z.eq_dec (r_off w) 0) as [O0|O1].
        + left. split.
          { intros [(_ & ? & _)|[? _]]; contradiction. }
          replace [w] with [mkRaw (r_op w) (r_dst w) (r_src w) 0 (r_imm w)] by (destruct w; cbn in *; congruence).
          apply (enc_alu p (fields_of w)); auto. apply (Hregs _ (r_imm w)); exact Wo.
        + right. split; [left; auto|auto]. }
    destruct (is_atomic_dec (r_op w)) as [T|T].
    { rewrite unmarshalOp_atomic in Hj by assumption. injection Hj as <-.
      left. split; [intros [[? _]|[? _]]; contradiction|].
      replace [w] with [mkRaw (r_op w) (r_dst w) (r_src w) (r_off w) (r_imm w)] by (destruct w; cbn in *; congruence).
      apply (enc_atomic p (set_op (fields_of w) (r_imm w mod 512 * 256 + r_op w)) (r_op w)); auto.
      repeat split; cbn; lia || apply Wo. }
    rewrite unmarshalOp_plain in Hj by assumption. injection Hj as <-.
    left. split; [intros [[? _]|[? _]]; contradiction|].
    replace [w] with [mkRaw (r_op w) (r_dst w) (r_src w) (r_off w) (r_imm w)] by (destruct w; cbn in *; congruence).
    apply (enc_plain p (fields_of w)); auto. apply (Hregs _ (r_imm w)); exact Wo.
Qed.

(** raw instructions are determined by their bytes *)
Lemma raw_bytes_inj bo w w' : raw_ok w -> raw_ok w' -> raw_bytes bo w = raw_bytes bo w' -> w = w'.
Proof.
  intros H H' E.
  pose proof (unmarshalFields_raw bo w H) as F. rewrite E, unmarshalFields_raw in F by exact H'.
  destruct w, w'; cbn in F. congruence.
Qed.

Lemma lossy_not_reproduced native bo w :
  raw_ok w -> lossy native w -> forall n, Marshal native bo (fields_of w) <> Ok (raw_bytes bo w, n).
Proof.
  intros Hw Hl n Hm. pose proof Hw as (Wop & Wd & Ws & Wo & Wi).
  destruct (Marshal_inv _ _ _ _ _ Hm) as (op & off & imm & c & Hinv & Hmo & Hbpf & Hmod & Hs1 & Hs2).
  assert (Hwt : well_typed (fields_of w)).
  { unfold well_typed, in_u, in_s in *. cbn. lia. }
  destruct (marshalOp_ranges _ _ _ _ _ _ Hwt Hmo) as (Hoff & Himm).
  assert (Hok : raw_ok (mkRaw op (r_dst w mod 16) (r_src w mod 16) off imm)).
  { repeat split; cbn [r_op r_dst r_src r_off r_imm]; try lia; apply Hoff || apply Himm. }
  destruct Hl as [(A & O & Ne)|(B & I & Np)].
  - assert (N18 : r_op w <> 0x18) by exact (proj1 (proj2 (proj2 (proj2 (proj2 (class_disjoint (r_op w) 0 0))))) A).
    destruct (Hs1 N18) as (_ & E). apply (raw_bytes_inj _ _ _ Hw Hok) in E.
    rewrite marshalOp_alu in Hmo by exact A. cbn [fields_of OpCode Offset Constant] in Hmo.
    destruct (marshalALU_spec (r_op w) (r_off w) ltac:(lia) A) as (_ & M2).
    rewrite M2 in Hmo.
    + inversion Hmo; subst off. apply O. rewrite E. reflexivity.
    + intros ext base o8 Hk He. destruct He; lia.
  - assert (N18 : r_op w <> 0x18) by exact (proj1 (proj2 (proj2 (proj2 (class_disjoint _ _ _)))) B).
    destruct (Hs1 N18) as (_ & E). apply (raw_bytes_inj _ _ _ Hw Hok) in E.
    assert (Ei : r_imm w = imm) by (rewrite E at 1; reflexivity).
    rewrite marshalOp_builtin, DecodeConstant_eq in Hmo by exact B. cbn [fields_of OpCode Offset Constant] in Hmo.
    set (t := (u32 (r_imm w) / 2 ^ 28) mod 8) in *.
    destruct (plat_eqb _ native) eqn:Hpl; [|discriminate]. 
    assert (Hv : imm = i32 (u32 (r_imm w) - t * 2 ^ 28)) by congruence.
    assert (Hu32 : u32 (r_imm w) = r_imm w + 2 ^ 32).
    { unfold u32, wrapu. unfold in_s in Wi. apply (mod_unique _ _ _ (-1)); lia. }
    assert (Ht : 0 <= t < 8) by (unfold t; lia).
    assert (T0 : t = 0).
    { rewrite Hu32 in Hv.
      assert (Hx : wrapu 32 (r_imm w) = wrapu 32 (r_imm w - t * 2 ^ 28)).
      { rewrite Ei, Hv at 1. unfold i32. rewrite wrapu_sext by lia. unfold wrapu.
        replace (r_imm w + 2 ^ 32 - t * 2 ^ 28) with (r_imm w - t * 2 ^ 28 + 1 * 2 ^ 32) by lia.
        now rewrite Z.mod_add by lia. }
      unfold wrapu in Hx. unfold in_s in Wi. clearbody t. clear - Hx Wi I Ht. lia. }
    rewrite T0 in Hpl. cbn [Z.eqb] in Hpl. destruct native; try discriminate Hpl.
    apply Np. split; [reflexivity|]. unfold t in T0. rewrite Hu32 in T0. unfold in_s in Wi. lia.
Qed.
