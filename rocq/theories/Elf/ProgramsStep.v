(** Relocation of single instructions: the model does what the specification says. *)
From Coq Require Import String Ascii Sorting.Sorted Permutation.
From Verif Require Import Base.GoInt Asm.Model Asm.Spec Asm.Proof Asm.ProofStream Asm.Props Link.Flatten Elf.Programs Elf.ProgramsSpec Elf.ProgramsProof.
Open Scope string_scope. Open Scope list_scope. Open Scope Z_scope.

Definition step (o : obj) (x : externs) (m : rels) (symbols : list sym) (off : Z) (ins : instr) : res lerr lins :=
  match relAt m off with Some rel => relocateInstruction o x ins rel | None => referenceRelativeJump ins off symbols end.

Lemma fref_spec : forall ins, IsFunctionReference ins = true <-> function_reference ins.
Proof.
  intros ins. unfold IsFunctionReference, IsFunctionCall, IsLoadOfFunctionPointer, function_reference, is_dword, PseudoCall, PseudoFunc. rewrite IsDWordLoad_eq, orb_true_iff, !andb_true_iff, JumpOp_call, !Z.eqb_eq. tauto.
Qed.
Lemma call_true : forall op, is_call op -> (JumpOp op =? Call) = true. Proof. intros op H. now apply JumpOp_call. Qed.
Lemma call_false : forall op, ~ is_call op -> (JumpOp op =? Call) = false. Proof. intros op H. destruct (JumpOp op =? Call) eqn:E; [apply JumpOp_call in E; contradiction|reflexivity]. Qed.
Lemma call_not_dword : forall op, is_call op -> ~ is_dword op. Proof. intros op (H & _) ->. discriminate. Qed.
Lemma set_cons_id : forall ins, Constant ins = -1 -> set_cons ins (-1) = ins. Proof. intros [] H. cbn in *. now subst. Qed.
Lemma i64_small : forall x, - 2 ^ 63 <= x < 2 ^ 63 -> i64 x = x. Proof. intros x H. apply sext_id; [lia|exact H]. Qed.
Lemma i64_add : forall a b, i64 (i64 a + i64 b) = i64 (a + b).
Proof.
  intros a b. unfold i64. rewrite <- (sext_wrapu 64 (sext 64 a + sext 64 b)), <- (sext_wrapu 64 (a + b)) by lia. f_equal. unfold wrapu.
  rewrite <- (Zplus_mod_idemp_l (sext 64 a)), <- (Zplus_mod_idemp_r (sext 64 b)), !sext_mod by lia. now rewrite Zplus_mod_idemp_l, Zplus_mod_idemp_r.
Qed.
Lemma jumpTarget_eq : forall off ins, 0 <= off + 8 + 8 * Constant ins < 2 ^ 63 -> jumpTarget off ins = off + 8 + 8 * Constant ins.
Proof.
  intros off ins H. unfold jumpTarget. rewrite i64_add. replace (Constant ins * 8 + (off + 8)) with (off + 8 + 8 * Constant ins) by lia. rewrite i64_small by lia. destruct (Z.ltb_spec (off + 8 + 8 * Constant ins) 0); [lia|reflexivity].
Qed.
Lemma i32_small : forall x, - 2 ^ 31 <= x < 2 ^ 31 -> i32 x = x. Proof. intros x H. apply sext_id; [lia|exact H]. Qed.
Lemma u64_small : forall x, 0 <= x < 2 ^ 64 -> u64 x = x. Proof. intros x H. apply wrapu_id. exact H. Qed.
Lemma u32_small : forall x, 0 <= x < 2 ^ 32 -> u32 x = x. Proof. intros x H. apply wrapu_id. exact H. Qed.
Lemma kconfigVar_spec : forall vars n a, kconfigVar vars n = Some a <-> exists pre post, vars = pre ++ (n, a) :: post /\ ~ In n (map fst pre).
Proof.
  induction vars as [|[k b] vars IH]; intros n a; cbn [kconfigVar]; [split; [discriminate|intros (pre & post & H & _); destruct pre; discriminate]|].
  destruct (String.eqb_spec k n) as [->|N].
  - split; [intros H; injection H as <-; exists [], vars; auto|]. intros (pre & post & H & Nin). destruct pre as [|[k' b'] pre]; [now injection H as <- _|]. injection H as -> -> ->. exfalso. apply Nin. now left.
  - rewrite IH. split; intros (pre & post & H & Nin).
    + exists ((k, b) :: pre), post. split; [now rewrite H|]. cbn [map fst In]. intros [E|E]; contradiction.
    + destruct pre as [|[k' b'] pre]; [injection H as E _; contradiction|]. injection H as -> -> ->. exists pre, post. split; [reflexivity|]. intros Hn. apply Nin. now right.
Qed.
Lemma relocated_sym : forall o i off y, relocated o i off y -> In y (o_syms o).
Proof. intros o i off y (s & es & e & _ & _ & _ & _ & _ & H). eapply nth_error_In. exact H. Qed.

Section Step.
Variables (o : obj) (x : externs) (i : Z) (s : osec) (m : rels) (off : Z) (ins : instr).
Hypothesis (R : regular o) (Hs : program_section o i s) (Hm : relocationsOf o i = Some (Ok m)) (U : usual o i off ins).

Let HR : forall y, relAt m off = Some y <-> relocated o i off y. Proof. intros y. eapply relocations_spec; eassumption. Qed.
Lemma fsyms : forall k t a g, program_section o k t -> symAt (symbolsOf o k) a = Some g <-> function_symbol o k g /\ y_value g = a.
Proof. intros. eapply symbols_spec; eassumption. Qed.

Lemma step_resolved : forall j, step o x m (symbolsOf o i) off ins = Ok j -> resolved o x i off ins j.
Proof.
  intros j H. unfold step in H. destruct U as (U1 & U2 & U3 & U4 & U5 & U6 & U7). destruct (relAt m off) as [y|] eqn:Er.
  - assert (Hy : relocated o i off y) by now apply HR. pose proof (relocated_sym _ _ _ _ Hy) as Iy. destruct (rg_syms o R y Iy) as (Y1 & Y2 & Y3 & Y4).
    unfold relocateInstruction, STB_LOCAL, STB_GLOBAL, STB_WEAK, STT_SECTION, STT_OBJECT, STT_NOTYPE, STT_FUNC in H. cbn zeta in H. destruct (kindAt o (y_section y)) as [[]|] eqn:K; try discriminate.
    + (* undefined *) apply kind_undef in K; [|exact R].
      destruct (negb (y_bind y =? 1) && negb (y_bind y =? 2)) eqn:Eb; [discriminate|]. assert (B : y_bind y = 1 \/ y_bind y = 2) by lia. destruct (Z.eqb_spec (y_type y) 0) as [T|T]; cbn [negb] in H; [|discriminate].
      rewrite IsDWordLoad_eq in H.
      destruct (x_kfunc x (y_name y) && (JumpOp (OpCode ins) =? Call)) eqn:E1; [apply andb_true_iff in E1 as (E1 & C); apply JumpOp_call in C; injection H as <-; eapply r_kfunc_call; eauto|].
      destruct (x_kfunc x (y_name y) && (OpCode ins =? 24)) eqn:E2; [apply andb_true_iff in E2 as (E2 & D); apply Z.eqb_eq in D; injection H as <-; eapply r_kfunc_addr; eauto|].
      assert (NC : is_call (OpCode ins) -> x_kfunc x (y_name y) = false). { intros C. apply call_true in C. rewrite C, andb_true_r in E1. exact E1. }
      assert (ND : is_dword (OpCode ins) -> x_kfunc x (y_name y) = false). { intros D. unfold is_dword in D. rewrite D, andb_true_r in E2. exact E2. }
      destruct (x_ksym x (y_name y) && (OpCode ins =? 24)) eqn:E3; [apply andb_true_iff in E3 as (E3 & D); apply Z.eqb_eq in D; injection H as <-; eapply r_ksym; eauto|].
      assert (NS : is_dword (OpCode ins) -> x_ksym x (y_name y) = false). { intros D. unfold is_dword in D. rewrite D, andb_true_r in E3. exact E3. }
      destruct (x_kconfig x) as [vars|] eqn:Xk.
      * destruct (Z.eqb_spec (OpCode ins) 24) as [D|D].
        -- destruct (Z.eqb_spec (y_bind y) 1) as [B1|B1]; cbn [negb] in H; [|discriminate]. destruct (kconfigVar vars (y_name y)) as [a|] eqn:Kv; [|discriminate]. injection H as <-. apply kconfigVar_spec in Kv as (pre & post & E & Nin). eapply r_kconfig; eauto.
        -- injection H as <-. eapply r_extern; eauto. intros D'. contradiction.
      * injection H as <-. eapply r_extern; eauto.
    + (* map *) assert (K' : exists t, map_section o (y_section y) t) by (apply kind_map; auto). destruct K' as (t & Ht).
      destruct (Z.eqb_spec (y_bind y) 0); [discriminate|]. destruct (Z.eqb_spec (y_bind y) 1) as [B|]; [|discriminate]. cbn [negb] in H.
      destruct (Z.eqb_spec (y_type y) 1) as [T|T], (Z.eqb_spec (y_type y) 0) as [T'|T']; cbn [negb andb] in H; try discriminate; injection H as <-; eapply r_map with (y := y); eauto.
    + assert (K' : exists t, map_section o (y_section y) t) by (apply kind_map; auto). destruct K' as (t & Ht).
      destruct (Z.eqb_spec (y_bind y) 0); [discriminate|]. destruct (Z.eqb_spec (y_bind y) 1) as [B|]; [|discriminate]. cbn [negb] in H.
      destruct (Z.eqb_spec (y_type y) 1) as [T|T], (Z.eqb_spec (y_type y) 0) as [T'|T']; cbn [negb andb] in H; try discriminate; injection H as <-; eapply r_map with (y := y); eauto.
    + (* program *) apply kind_prog in K as (t & Ht). destruct (JumpOp (OpCode ins) =? Call) eqn:C.
      * apply JumpOp_call in C. unfold PseudoCall in H. destruct (Z.eqb_spec (Src ins) 1) as [Sr|]; [|discriminate]. cbn [negb] in H.
        destruct (Z.eqb_spec (y_type y) 0) as [T0|T0], (Z.eqb_spec (y_type y) 2) as [T2|T2]; cbn [orb] in H; try congruence.
        -- destruct (U4 y t Hy Ht C ltac:(lia)) as (N & E1). destruct (Z.eqb_spec (y_bind y) 1) as [B1|B1], (Z.eqb_spec (y_bind y) 2) as [B2|B2]; cbn [negb andb] in H; try discriminate; injection H as <-.
           all: rewrite <- (set_cons_id (set_ref ins (y_name y))) by exact E1; eapply r_call; eauto; [split; [exact Iy|]; split; [reflexivity|]; split; [exact N|]; right; lia|lia].
        -- destruct (U4 y t Hy Ht C ltac:(lia)) as (N & E1). destruct (Z.eqb_spec (y_bind y) 1) as [B1|B1], (Z.eqb_spec (y_bind y) 2) as [B2|B2]; cbn [negb andb] in H; try discriminate; injection H as <-.
           all: rewrite <- (set_cons_id (set_ref ins (y_name y))) by exact E1; eapply r_call; eauto; [split; [exact Iy|]; split; [reflexivity|]; split; [exact N|]; left; lia|lia].
        -- destruct (Z.eqb_spec (y_type y) 3) as [T3|]; [|discriminate]. destruct (Z.eqb_spec (y_bind y) 0) as [B0|]; [|discriminate]. cbn [negb] in H. specialize (U5 y t Hy Ht C T3). specialize (Y4 T3).
           assert (A : u64 (i32 (i32 (Constant ins) + 1) * 8) = y_value y + 8 * (Constant ins + 1)). { rewrite (i32_small (Constant ins)) by lia. rewrite i32_small by lia. rewrite u64_small by lia. lia. }
           rewrite A in H. destruct (symAt (symbolsOf o (y_section y)) _) as [g|] eqn:G; [|discriminate]. injection H as <-. apply (fsyms _ t) in G as (G1 & G2); [|exact Ht].
           eapply (r_call o x i off ins y g t); eauto.
      * rewrite IsDWordLoad_eq in H. destruct (Z.eqb_spec (OpCode ins) 24) as [D|]; [|discriminate]. destruct (U6 y t Hy Ht D) as (V0 & C0).
        assert (A : u64 (Constant ins) = y_value y + Constant ins) by (unfold in_s in U2; rewrite u64_small by lia; lia). rewrite A in H.
        assert (Q : forall g, symAt (symbolsOf o (y_section y)) (y_value y + Constant ins) = Some g -> function_symbol o (y_section y) g /\ y_value g = y_value y + Constant ins) by (intros g G; now apply (fsyms _ t) in G).
        destruct (Z.eqb_spec (y_type y) 2) as [T2|T2].
        -- destruct (Z.eqb_spec (y_bind y) 1) as [B|]; cbn [negb] in H; [|discriminate]. destruct (symAt _ _) as [g|]; [|discriminate]. injection H as <-. destruct (Q g eq_refl) as (G1 & G2). eapply (r_func o x i off ins y g t); eauto.
        -- destruct (Z.eqb_spec (y_type y) 3) as [T3|]; cbn [negb] in H; [|discriminate]. destruct (Z.eqb_spec (y_bind y) 0) as [B|]; cbn [negb] in H; [|discriminate]. destruct (symAt _ _) as [g|]; [|discriminate]. injection H as <-. destruct (Q g eq_refl) as (G1 & G2). eapply (r_func o x i off ins y g t); eauto.
    + (* data *) apply kind_data in K as (t & Ht). destruct (U7 y t Hy Ht) as (V & Cr & Z0). destruct Ht as (Ht & Dn). pose proof (proj2 (sect_section _ _ _) Ht) as St. rewrite St in H.
      assert (S64 : forall a, in_u 32 a -> i64 (u64 (Z.shiftl a 32)) = sext 64 (a * 2 ^ 32)). { intros a Ha. rewrite Z.shiftl_mul_pow2 by lia. unfold i64, u64. apply sext_wrapu. lia. }
      assert (Kr : forall a, a = y_value y + Constant ins -> in_u 32 a -> (y_type y = 3 /\ y_bind y = 0) \/ (y_type y = 1 /\ (y_bind y = 0 \/ y_bind y = 1 \/ y_bind y = 2)) \/ (y_type y = 0 /\ y_bind y = 0) ->
        j = (set_ref (set_src (set_cons ins (i64 (u64 (Z.shiftl a 32)))) PseudoMapValue) (o_name t), None) -> resolved o x i off ins j).
      { intros a Ea Ra Ty ->. rewrite S64 by exact Ra. eapply (r_data o x i off ins y t a); eauto. split; assumption. }
      destruct (Z.eqb_spec (y_type y) 3) as [T3|T3].
      * destruct (Z.eqb_spec (y_bind y) 0) as [B|]; cbn [negb] in H; [|discriminate]. apply Ok_inj in H; apply eq_sym in H. unfold in_u in *. specialize (Y4 T3). rewrite (u64_small (Constant ins)) in H by lia. rewrite u32_small in H by lia. eapply (Kr (Constant ins)); [lia|lia|tauto|exact H].
      * specialize (Z0 T3). destruct (Z.eqb_spec (y_type y) 1) as [T1|T1].
        -- destruct (Z.eqb_spec (y_bind y) 1) as [B1|B1], (Z.eqb_spec (y_bind y) 0) as [B2|B2], (Z.eqb_spec (y_bind y) 2) as [B3|B3]; cbn [negb andb] in H; try discriminate; apply Ok_inj in H; apply eq_sym in H; rewrite u32_small in H by exact V; (eapply (Kr (y_value y)); [lia|exact V|tauto|exact H]).
        -- destruct (Z.eqb_spec (y_type y) 0) as [T0|T0]; [|discriminate]. destruct (Z.eqb_spec (y_bind y) 0) as [B|]; cbn [negb] in H; [|discriminate]. apply Ok_inj in H; apply eq_sym in H. rewrite u32_small in H by exact V. eapply (Kr (y_value y)); [lia|exact V|tauto|exact H].
  - assert (N : forall y, ~ relocated o i off y) by (intros y Hy; apply HR in Hy; congruence). unfold referenceRelativeJump in H. pose proof (fref_spec ins) as F.
    destruct (IsFunctionReference ins) eqn:Fr; cbn [negb orb] in H; [|injection H as <-; apply r_plain; [exact N|left; intros X; apply F in X; discriminate]].
    assert (Fi : function_reference ins) by tauto. destruct (Z.eqb_spec (Constant ins) (-1)) as [E|E]; [injection H as <-; apply r_plain; auto|]. rewrite jumpTarget_eq in H by now apply U3.
    destruct (symAt _ _) as [g|] eqn:G; [|discriminate]. apply (fsyms _ s) in G as (G1 & G2); [|exact Hs]. destruct (String.eqb_spec (y_name g) ""); [discriminate|]. injection H as <-. eapply r_relative; eauto.
Qed.
Lemma resolved_step : forall j, resolved o x i off ins j -> step o x m (symbolsOf o i) off ins = Ok j.
Proof.
  intros j H. unfold step. destruct U as (U1 & U2 & U3 & U4 & U5 & U6 & U7).
  assert (Rel : forall y, relocated o i off y -> relAt m off = Some y) by (intros y Hy; now apply HR).
  assert (NRel : (forall y, ~ relocated o i off y) -> relAt m off = None) by (intros N; destruct (relAt m off) as [y|] eqn:E in |- *; [apply HR in E; now apply N in E|reflexivity]).
  destruct H as [N P|g N F C G V|y g t Hy Ht C Sr B G V|y g t Hy Ht D B G V|y t Hy Ht B T|y t a Hy Ht B Ea Ra|y Hy S0 T B X C|y Hy S0 T B X D|y Hy S0 T B X1 X2 D|y vars pre post a Hy S0 T B X1 X2 D Xk Ev Nin|y Hy S0 T B X1 X2];
    try (rewrite (Rel y Hy)); try (rewrite (NRel N)).
  - unfold referenceRelativeJump. pose proof (fref_spec ins) as F. destruct (IsFunctionReference ins); cbn [negb orb]; [|reflexivity]. destruct P as [P|P]; [tauto|]. rewrite P. reflexivity.
  - unfold referenceRelativeJump. rewrite (proj2 (fref_spec ins) F). cbn [negb orb]. destruct (Z.eqb_spec (Constant ins) (-1)); [contradiction|]. rewrite jumpTarget_eq by now apply U3. rewrite (proj2 (fsyms i s _ g Hs) (conj G V)). destruct G as (_ & _ & G & _). destruct (String.eqb_spec (y_name g) ""); [contradiction|]. reflexivity.
  - pose proof (proj2 (kind_prog o (y_section y)) (ex_intro _ t Ht)) as K. unfold relocateInstruction. cbn zeta. rewrite K, (call_true _ C). unfold PseudoCall. rewrite Sr. cbn [Z.eqb Pos.eqb negb]. unfold STB_LOCAL, STB_GLOBAL, STB_WEAK, STT_SECTION, STT_OBJECT, STT_NOTYPE, STT_FUNC.
    destruct B as [(T & B)|(T & B)].
    + destruct (U4 y t Hy Ht C ltac:(lia)) as (Ny & E1). assert (g = y). { apply (rg_alias o R (y_section y)); [exact G| |lia]. split; [eapply relocated_sym; eassumption|]. split; [reflexivity|]. split; [exact Ny|]. lia. } subst g.
      replace ((y_type y =? 0) || (y_type y =? 2)) with true by lia. replace (negb (y_bind y =? 1) && negb (y_bind y =? 2)) with false by lia. f_equal. f_equal. symmetry. apply set_cons_id. exact E1.
    + specialize (U5 y t Hy Ht C T). destruct (rg_syms o R y (relocated_sym _ _ _ _ Hy)) as (_ & _ & _ & V0). specialize (V0 T). rewrite T, B. cbn [Z.eqb Pos.eqb orb negb].
      assert (A : u64 (i32 (i32 (Constant ins) + 1) * 8) = y_value y + 8 * (Constant ins + 1)). { rewrite (i32_small (Constant ins)) by lia. rewrite i32_small by lia. rewrite u64_small by lia. lia. }
      rewrite A, (proj2 (fsyms _ t _ g Ht) (conj G V)). reflexivity.
  - pose proof (proj2 (kind_prog o (y_section y)) (ex_intro _ t Ht)) as K. unfold relocateInstruction. cbn zeta. rewrite K, call_false by (intros C; exact (call_not_dword _ C D)). rewrite IsDWordLoad_eq. rewrite D. cbn [Z.eqb Pos.eqb]. unfold STB_LOCAL, STB_GLOBAL, STB_WEAK, STT_SECTION, STT_OBJECT, STT_NOTYPE, STT_FUNC.
    destruct (U6 y t Hy Ht D) as (V0 & C0). assert (A : u64 (Constant ins) = y_value y + Constant ins) by (unfold in_s in U2; rewrite u64_small by lia; lia). rewrite A, (proj2 (fsyms _ t _ g Ht) (conj G V)).
    destruct B as [(-> & ->)|(-> & ->)]; reflexivity.
  - pose proof (proj2 (kind_map o (y_section y)) (ex_intro _ t Ht)) as K. unfold relocateInstruction, STB_LOCAL, STB_GLOBAL, STB_WEAK, STT_SECTION, STT_OBJECT, STT_NOTYPE, STT_FUNC. cbn zeta. rewrite B. destruct K as [-> | ->], T as [-> | ->]; reflexivity.
  - pose proof (proj2 (kind_data o (y_section y)) (ex_intro _ t Ht)) as K. unfold relocateInstruction, STB_LOCAL, STB_GLOBAL, STB_WEAK, STT_SECTION, STT_OBJECT, STT_NOTYPE, STT_FUNC. cbn zeta. rewrite K. destruct (U7 y t Hy Ht) as (V & Cr & Z0). destruct Ht as (Ht & Dn). pose proof (proj2 (sect_section _ _ _) Ht) as St. rewrite St. unfold in_u in *.
    assert (S64 : i64 (u64 (Z.shiftl a 32)) = sext 64 (a * 2 ^ 32)). { rewrite Z.shiftl_mul_pow2 by lia. unfold i64, u64. apply sext_wrapu. lia. }
    destruct B as [(T & B)|[(T & B)|(T & B)]].
    + destruct (rg_syms o R y (relocated_sym _ _ _ _ Hy)) as (_ & _ & _ & V0). specialize (V0 T). rewrite T, B. cbn [Z.eqb Pos.eqb negb]. rewrite (u64_small (Constant ins)) by lia. rewrite u32_small by lia. replace (Constant ins) with a by lia. rewrite S64. reflexivity.
    + specialize (Z0 ltac:(lia)). rewrite T. cbn [Z.eqb Pos.eqb]. replace (negb (y_bind y =? 1) && negb (y_bind y =? 0) && negb (y_bind y =? 2)) with false by lia. rewrite u32_small by lia. replace (y_value y) with a by lia. rewrite S64. reflexivity.
    + specialize (Z0 ltac:(lia)). rewrite T, B. cbn [Z.eqb Pos.eqb negb]. rewrite u32_small by lia. replace (y_value y) with a by lia. rewrite S64. reflexivity.
  - pose proof (proj2 (kind_undef o (y_section y) R) S0) as K. unfold relocateInstruction, STB_LOCAL, STB_GLOBAL, STB_WEAK, STT_SECTION, STT_OBJECT, STT_NOTYPE, STT_FUNC. cbn zeta. rewrite K, T, X, (call_true _ C). destruct B as [-> | ->]; reflexivity.
  - pose proof (proj2 (kind_undef o (y_section y) R) S0) as K. unfold relocateInstruction, STB_LOCAL, STB_GLOBAL, STB_WEAK, STT_SECTION, STT_OBJECT, STT_NOTYPE, STT_FUNC. cbn zeta. rewrite K, T, X, call_false by (intros C; exact (call_not_dword _ C D)). rewrite IsDWordLoad_eq, D. destruct B as [-> | ->]; reflexivity.
  - pose proof (proj2 (kind_undef o (y_section y) R) S0) as K. unfold relocateInstruction, STB_LOCAL, STB_GLOBAL, STB_WEAK, STT_SECTION, STT_OBJECT, STT_NOTYPE, STT_FUNC. cbn zeta. rewrite K, T, X1, X2, IsDWordLoad_eq, D. destruct B as [-> | ->]; reflexivity.
  - pose proof (proj2 (kind_undef o (y_section y) R) S0) as K. unfold relocateInstruction, STB_LOCAL, STB_GLOBAL, STB_WEAK, STT_SECTION, STT_OBJECT, STT_NOTYPE, STT_FUNC. cbn zeta. rewrite K, T, X1, X2, IsDWordLoad_eq, D, B, Xk. rewrite (proj2 (kconfigVar_spec vars (y_name y) a) (ex_intro _ pre (ex_intro _ post (conj Ev Nin)))). reflexivity.
  - pose proof (proj2 (kind_undef o (y_section y) R) S0) as K. unfold relocateInstruction, STB_LOCAL, STB_GLOBAL, STB_WEAK, STT_SECTION, STT_OBJECT, STT_NOTYPE, STT_FUNC. cbn zeta. rewrite K, T, IsDWordLoad_eq. replace (negb (y_bind y =? 1) && negb (y_bind y =? 2)) with false by lia. cbn [Z.eqb negb].
    destruct (JumpOp (OpCode ins) =? Call) eqn:C.
    + apply JumpOp_call in C. rewrite (X1 C). cbn [andb]. destruct (Z.eqb_spec (OpCode ins) 24) as [D|D]; [destruct (call_not_dword _ C D)|]. rewrite andb_false_r. destruct (x_kconfig x); reflexivity.
    + rewrite andb_false_r. destruct (Z.eqb_spec (OpCode ins) 24) as [D|D]; [destruct (X2 D) as (-> & -> & ->); reflexivity|]. rewrite !andb_false_r. destruct (x_kconfig x); reflexivity.
Qed.
End Step.
