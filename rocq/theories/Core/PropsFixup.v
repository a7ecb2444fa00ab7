(** C41: applying a fixup changes only the relocated operand.  C38: choosing the best target. *)
From Coq Require Import ZArith List Lia Bool String Permutation.
From Verif.Base Require Import GoInt ListExtra.
From Verif.Asm Require Import Model Spec Proof ProofOps.
From Verif.Core Require Import Fixup.
Import ListNotations.
Open Scope Z_scope.

(** ** C41 *)
(** everything but the offset, and everything but the constant, is unchanged *)
Definition only_offset_differs (i i' : instr) : Prop :=
  OpCode i' = OpCode i /\ Dst i' = Dst i /\ Src i' = Src i /\ Constant i' = Constant i /\ Symbol i' = Symbol i /\ Reference i' = Reference i /\ MapFD i' = MapFD i.
Definition only_constant_differs (i i' : instr) : Prop :=
  OpCode i' = OpCode i /\ Dst i' = Dst i /\ Src i' = Src i /\ Offset i' = Offset i /\ Symbol i' = Symbol i /\ Reference i' = Reference i /\ MapFD i' = MapFD i.
(** classes of instructions by opcode: loads and stores through a register; arithmetic (32 and 64 bit) *)
Definition op_class (i : instr) : Z := OpCode i mod 8.
Definition memory_access (i : instr) : Prop := op_class i = 1 \/ op_class i = 2 \/ op_class i = 3.
Definition arithmetic (i : instr) : Prop := op_class i = 4 \/ op_class i = 7.
Definition lddw (i : instr) : Prop := OpCode i = 24.
(** the instruction is a call of a helper that doesn't exist, or a load into the read-only frame pointer *)
Definition poisonous (i : instr) : Prop :=
  Constant i = 195896080 /\ Src i = 0 /\ Offset i = 0 /\ ((OpCode i = 133 /\ Dst i = 0) \/ (OpCode i = 24 /\ Dst i = 10)).

Lemma class_mod op : Class op = op mod 8.
Proof. unfold Class, classMask. change 7 with (Z.ones 3). rewrite Z.land_ones by lia. reflexivity. Qed.
Lemma i16_small x : 0 <= x -> (x >? 32767) = false -> i16 x = x.
Proof. intros H1 H2. rewrite Z.gtb_ltb in H2; apply Z.ltb_ge in H2. unfold i16. apply sext_id; [lia|]. unfold in_s. change (2 ^ (16 - 1)) with 32768. lia. Qed.
Lemma i64_small x : 0 <= x -> (x >? 2147483647) = false -> i64 x = x.
Proof. intros H1 H2. rewrite Z.gtb_ltb in H2; apply Z.ltb_ge in H2. unfold i64. apply sext_id; [lia|]. unfold in_s. change (2 ^ (64 - 1)) with 9223372036854775808. lia. Qed.

Lemma land_field x k m : 0 <= k -> 0 <= m -> Z.land x (Z.shiftl (Z.ones m) k) = (x / 2 ^ k) mod 2 ^ m * 2 ^ k.
Proof.
  intros Hk Hm. rewrite <- Z.shiftl_mul_pow2, <- Z.land_ones, <- Z.shiftr_div_pow2 by lia. apply Z.bits_inj'. intros n Hn. rewrite Z.land_spec, !Z.shiftl_spec by lia. destruct (Z.lt_ge_cases n k).
  - rewrite !(Z.testbit_neg_r _ (n - k)) by lia. apply andb_false_r.
  - rewrite Z.land_spec, Z.shiftr_spec by lia. f_equal. f_equal. lia.
Qed.

Theorem C41_apply : forall f i i', in_u 64 (f_local f) -> in_u 64 (f_target f) -> Apply f i = Ok i' ->
  (* poisoned: replaced by an instruction of the same width which the verifier rejects *)
  (f_poison f = true /\ poisonous i' /\ Width i' = Width i) \/
  (* a memory access: its offset is the target, and was the local value *)
  (f_poison f = false /\ memory_access i /\ only_offset_differs i i' /\ Offset i' = f_target f /\ f_target f < 2 ^ 15 /\ (f_skip f = false -> Offset i = i16 (f_local f))) \/
  (* arithmetic with an immediate: the same for the immediate, which has 32 bits *)
  (f_poison f = false /\ arithmetic i /\ only_constant_differs i i' /\ Constant i' = f_target f /\ f_target f < 2 ^ 31 /\ (f_skip f = false -> Constant i = i64 (f_local f))) \/
  (* a load of a 64 bit constant: the constant has the 64 bits of the target *)
  (f_poison f = false /\ lddw i /\ Src i = 0 /\ only_constant_differs i i' /\ in_s 64 (Constant i') /\ Constant i' mod 2 ^ 64 = f_target f /\ (f_skip f = false -> Constant i = i64 (f_local f))).
Proof.
  intros f i i' (Hl & _) Ht E. unfold Apply in E. destruct (f_poison f).
  { left. split; [reflexivity|]. inversion E; subst i'; clear E. unfold Width, rawInstructions, IsDWordLoad. change (LoadImmOp DWord) with 24.
    destruct (Z.eqb_spec (OpCode i) 24); (split; [repeat split; (left; split; reflexivity) || (right; split; reflexivity) | reflexivity]). }
  right. rewrite class_mod in E. change (OpCode i mod 8) with (op_class i) in E.
  change LdXClass with 1 in E. change StClass with 2 in E. change StXClass with 3 in E. change LdClass with 0 in E. change ALUClass with 4 in E. change ALU64Class with 7 in E.
  assert (Alu : forall i', apply_alu f i = Ok i' -> only_constant_differs i i' /\ Constant i' = f_target f /\ f_target f < 2 ^ 31 /\ (f_skip f = false -> Constant i = i64 (f_local f))).
  { clear E. intros j E. unfold apply_alu in E. destruct (negb (Source (OpCode i) =? ImmSource)); [discriminate E|].
    destruct (f_skip f) eqn:Sk; cbn [negb andb] in E; [|destruct (Z.eqb_spec (i64 (f_local f)) (Constant i)) as [El|]; cbn [negb] in E; [|discriminate E]];
      (destruct (f_target f >? 2147483647) eqn:G; [discriminate E|]); (inversion E; subst j; clear E); unfold only_constant_differs, set_cons; cbn [OpCode Dst Src Offset Constant Symbol Reference MapFD];
      rewrite i64_small by (unfold in_u in Ht; lia || assumption); rewrite Z.gtb_ltb in G; apply Z.ltb_ge in G; change (2 ^ 31) with 2147483648; repeat split; try lia; try congruence. }
  destruct ((op_class i =? 1) || (op_class i =? 2) || (op_class i =? 3)) eqn:C.
  { left. split; [reflexivity|]. split; [unfold memory_access; rewrite !orb_true_iff, !Z.eqb_eq in C; tauto|].
    destruct (f_skip f) eqn:Sk; cbn [negb andb] in E; [|destruct (Z.eqb_spec (i16 (f_local f)) (Offset i)) as [El|]; cbn [negb] in E; [|discriminate E]];
      (destruct (f_target f >? 32767) eqn:G; [discriminate E|]); (inversion E; subst i'; clear E); unfold only_offset_differs, set_off; cbn [OpCode Dst Src Offset Constant Symbol Reference MapFD];
      rewrite i16_small by (unfold in_u in Ht; lia || assumption); rewrite Z.gtb_ltb in G; apply Z.ltb_ge in G; change (2 ^ 15) with 32768; repeat split; try lia; try congruence. }
  destruct (Z.eqb_spec (op_class i) 0) as [C0|_].
  { right. right. split; [reflexivity|]. unfold IsConstantLoad in E. change (LoadImmOp DWord) with 24 in E. change R0 with 0 in E.
    destruct (Z.eqb_spec (OpCode i) 24) as [Eo|]; [|discriminate E]. destruct (Z.eqb_spec (Src i) 0) as [Es|]; [|discriminate E]. destruct (Z.eqb_spec (Offset i) 0) as [Ef|]; [|discriminate E].
    cbn [andb negb] in E. split; [exact Eo|]. split; [exact Es|].
    assert (X : i' = set_cons i (i64 (f_target f)) /\ (f_skip f = false -> Constant i = i64 (f_local f))).
    { destruct (f_skip f) eqn:Sk; cbn [negb andb] in E; [|destruct (Z.eqb_spec (i64 (f_local f)) (Constant i)) as [El|]; cbn [negb] in E; [|discriminate E]]; (inversion E; subst i'; clear E); split; congruence. }
    destruct X as (-> & V). unfold only_constant_differs, set_cons; cbn [OpCode Dst Src Offset Constant Symbol Reference MapFD]. split; [repeat split|].
    split; [apply sext_range; lia|]. split; [|exact V]. unfold i64. rewrite sext_mod by lia. apply Z.mod_small. exact Ht. }
  destruct (Z.eqb_spec (op_class i) 4) as [C4|_].
  { right. left. split; [reflexivity|]. split; [left; exact C4|]. destruct (ALUOp (OpCode i) =? Swap); [discriminate E|auto]. }
  destruct (Z.eqb_spec (op_class i) 7) as [C7|_]; [|discriminate E].
  right. left. split; [reflexivity|]. split; [right; exact C7|auto].
Qed.

(** When it succeeds.  Byte swaps are the arithmetic operation 13, which has 10 bits since the extended opcodes carry
    the offset of some instructions; bit 3 of the opcode selects a register operand. *)
Theorem C41_succeeds : forall f i, in_u 64 (f_local f) -> in_u 64 (f_target f) -> in_u 32 (OpCode i) ->
  (exists i', Apply f i = Ok i') <->
  f_poison f = true \/
  (memory_access i /\ f_target f < 2 ^ 15 /\ (f_skip f = false -> Offset i = i16 (f_local f))) \/
  (arithmetic i /\ (OpCode i / 8) mod 2 = 0 /\ (OpCode i / 16) mod 2 ^ 10 <> 13 /\ f_target f < 2 ^ 31 /\ (f_skip f = false -> Constant i = i64 (f_local f))) \/
  (lddw i /\ Src i = 0 /\ Offset i = 0 /\ (f_skip f = false -> Constant i = i64 (f_local f))).
Proof.
  intros f i Hl Ht Ho. unfold Apply. destruct (f_poison f); [split; [auto|eauto]|]. rewrite class_mod. fold (op_class i).
  change LdXClass with 1. change StClass with 2. change StXClass with 3. change LdClass with 0. change ALUClass with 4. change ALU64Class with 7.
  assert (V : forall a b, (negb (f_skip f) && negb (a =? b) = false) <-> (f_skip f = false -> b = a)).
  { intros a b. destruct (f_skip f); cbn; [split; [congruence|auto]|]. destruct (Z.eqb_spec a b); cbn; split; auto; try congruence. intros H. specialize (H eq_refl). congruence. }
  assert (Sw : arithmetic i -> (ALUOp (OpCode i) =? Swap) = ((OpCode i / 16) mod 2 ^ 10 =? 13)).
  { intros A. unfold ALUOp. replace (IsALU (Class (OpCode i))) with true.
    2:{ unfold IsALU. rewrite class_mod. fold (op_class i). destruct A as [-> | ->]; reflexivity. }
    cbn [negb]. change aluMask with (Z.shiftl (Z.ones 10) 4). rewrite land_field by lia. change Swap with (13 * 2 ^ 4). change (2 ^ 4) with 16.
    destruct (Z.eqb_spec ((OpCode i / 16) mod 2 ^ 10) 13) as [->|]; [reflexivity|]. apply Z.eqb_neq. lia. }
  assert (Sr : arithmetic i -> (Source (OpCode i) =? ImmSource) = negb (ALUOp (OpCode i) =? Swap) && ((OpCode i / 8) mod 2 =? 0)).
  { intros A. unfold Source. replace (isJumpOrALU (Class (OpCode i))) with true.
    2:{ unfold isJumpOrALU, IsJump, IsALU. rewrite class_mod. fold (op_class i). destruct A as [-> | ->]; reflexivity. }
    cbn [negb orb]. destruct (ALUOp (OpCode i) =? Swap); [reflexivity|]. cbn [negb andb]. unfold ImmSource. change sourceMask with (Z.shiftl (Z.ones 1) 3).
    rewrite land_field by lia. change (2 ^ 3) with 8. change (2 ^ 1) with 2. destruct (Z.eqb_spec ((OpCode i / 8) mod 2) 0) as [->|]; [reflexivity|]. apply Z.eqb_neq. lia. }
  assert (Alu : arithmetic i -> (exists i', apply_alu f i = Ok i') <-> (OpCode i / 8) mod 2 = 0 /\ (OpCode i / 16) mod 2 ^ 10 <> 13 /\ f_target f < 2 ^ 31 /\ (f_skip f = false -> Constant i = i64 (f_local f))).
  { intros A. unfold apply_alu. rewrite (Sr A), (Sw A). rewrite <- V. destruct (Z.eqb_spec ((OpCode i / 8) mod 2) 0), (Z.eqb_spec ((OpCode i / 16) mod 2 ^ 10) 13); cbn [negb andb];
      try (split; [intros (? & E); discriminate E|intros (E & E' & _); congruence]).
    destruct (negb (f_skip f) && _); [split; [intros (? & E); discriminate E|intros (_ & _ & _ & E); discriminate E]|].
    change (2 ^ 31) with 2147483648. destruct (Z.gtb_spec (f_target f) 2147483647); [split; [intros (? & E); discriminate E|lia]|]. split; [intros _; repeat split; try assumption; lia|eauto]. }
  assert (Cl : lddw i -> op_class i = 0) by (unfold lddw, op_class; intros ->; reflexivity).
  destruct ((op_class i =? 1) || (op_class i =? 2) || (op_class i =? 3)) eqn:C.
  { assert (M : memory_access i) by (unfold memory_access; rewrite !orb_true_iff, !Z.eqb_eq in C; tauto). specialize (V (i16 (f_local f)) (Offset i)).
    destruct (negb (f_skip f) && _).
    - split; [intros (? & E); discriminate E|]. intros [E|[(_ & _ & E)|[(A & _)|(A & _)]]]; [discriminate E|apply V in E; discriminate E| |]; unfold memory_access, arithmetic in *; try specialize (Cl A); lia.
    - change (2 ^ 15) with 32768. destruct (Z.gtb_spec (f_target f) 32767).
      + split; [intros (? & E); discriminate E|]. intros [E|[(_ & E & _)|[(A & _)|(A & _)]]]; [discriminate E|lia| |]; unfold memory_access, arithmetic in *; try specialize (Cl A); lia.
      + split; [|eauto]. intros _. right. left. split; [exact M|]. split; [lia|]. now apply V. }
  assert (NM : ~ memory_access i) by (unfold memory_access; intros H; rewrite !orb_false_iff, !Z.eqb_neq in C; lia).
  destruct (Z.eqb_spec (op_class i) 0) as [C0|N0].
  { assert (NA : ~ arithmetic i) by (unfold arithmetic; lia). unfold IsConstantLoad. change (LoadImmOp DWord) with 24. change R0 with 0. unfold lddw. specialize (V (i64 (f_local f)) (Constant i)).
    destruct (Z.eqb_spec (OpCode i) 24), (Z.eqb_spec (Src i) 0), (Z.eqb_spec (Offset i) 0); cbn [andb negb]; try (split; [intros (? & E); discriminate E|intros [E|[(E & _)|[(E & _)|E]]]; try discriminate E; try contradiction; lia]).
    destruct (negb (f_skip f) && _).
    - split; [intros (? & E); discriminate E|]. intros [E|[(E & _)|[(E & _)|(_ & _ & _ & E)]]]; try discriminate E; try contradiction. apply V in E. discriminate E.
    - split; [|eauto]. intros _. right. right. right. repeat split; try assumption. now apply V. }
  destruct (Z.eqb_spec (op_class i) 4) as [C4|N4].
  { assert (A : arithmetic i) by (now left). specialize (Alu A). rewrite (Sw A). destruct (Z.eqb_spec ((OpCode i / 16) mod 2 ^ 10) 13).
    - split; [intros (? & E); discriminate E|]. intros [E|[(E & _)|[(_ & _ & E & _)|(E & _)]]]; [discriminate E|contradiction|contradiction|apply Cl in E; lia].
    - rewrite Alu. split; [tauto|]. intros [E|[(E & _)|[E|(E & _)]]]; [discriminate E|contradiction|tauto|apply Cl in E; lia]. }
  destruct (Z.eqb_spec (op_class i) 7) as [C7|N7].
  { assert (A : arithmetic i) by (now right). rewrite (Alu A). split; [tauto|].
    intros [E|[(E & _)|[E|(E & _)]]]; [discriminate E|contradiction|tauto|apply Cl in E; lia]. }
  split; [intros (? & E); discriminate E|]. intros [E|[(E & _)|[([E|E] & _)|(E & _)]]]; try discriminate E; try contradiction; try lia; apply Cl in E; lia.
Qed.

(** A poisoned instruction loses its symbol: if it is the first of a function, or a jump target, references to it
    can't be resolved any more. *)
Theorem C41_symbol_lost_refuted : exists f i i', Apply f i = Ok i' /\ Symbol i <> EmptyString /\ Symbol i' = EmptyString.
Proof. exists (mkFixup reloFieldByteOffset 0 0 true false), (set_sym (LoadMem 1 1 8 Word) "fn"%string). eexists. split; [reflexivity|]. split; [discriminate|reflexivity]. Qed.

Example C41_example :
  Apply (mkFixup reloFieldByteOffset 8 24 false false) (LoadMem 1 2 8 Word) = Ok (LoadMem 1 2 24 Word) /\
  Apply (mkFixup reloFieldByteOffset 8 24 false false) (LoadMem 1 2 16 Word) = Err BadOffset /\
  Apply (mkFixup reloFieldByteOffset 8 32768 false false) (LoadMem 1 2 8 Word) = Err OffsetTooLarge /\
  Apply (mkFixup reloEnumvalValue 1 (2 ^ 64 - 1) false false) (LoadImm 3 1 DWord) = Ok (LoadImm 3 (-1) DWord) /\
  Apply (mkFixup reloFieldExists 1 0 false false) (ALU_Imm Mov 3 1) = Ok (ALU_Imm Mov 3 0).
Proof. repeat split; reflexivity. Qed.

(** ** C38 *)
(** A fixup is bad if it poisons the instruction or says that something doesn't exist. *)
Definition existence_check (k : Z) : Prop := k = 2 \/ k = 8 \/ k = 10 \/ k = 12.
Definition is_bad (f : fixup) : Prop := f_poison f = true \/ (existence_check (f_kind f) /\ f_target f = 0).
(** [badness fs n]: n of the fixups are bad *)
Inductive badness : list fixup -> Z -> Prop :=
| bad_nil : badness [] 0
| bad_yes f fs n : is_bad f -> badness fs n -> badness (f :: fs) (n + 1)
| bad_no f fs n : ~ is_bad f -> badness fs n -> badness (f :: fs) n.
(** two fixups agree if they have the same values *)
Definition same_values (f g : fixup) : Prop := f_local f = f_local g /\ f_target f = f_target g.

Section Selection.
  Variables relo target : Type.
  Variable kind_of : relo -> Z.
  Variable calc : relo -> target -> option fixup.
  Notation coreCalculateFixups := (coreCalculateFixups relo target kind_of calc).
  (** the fixups of all relocations for one target *)
  Definition solution (relos : list relo) (t : target) (fs : list fixup) : Prop := Forall2 (fun r f => calc r t = Some f) relos fs.

  Lemma bad_iff f : bad f = true <-> is_bad f.
  Proof.
    unfold bad, is_bad, isNonExistant, checksForExistence, existence_check, reloEnumvalExists, reloTypeExists, reloFieldExists, reloTypeMatches.
    rewrite orb_true_iff, andb_true_iff, !orb_true_iff, !Z.eqb_eq. tauto.
  Qed.
  Lemma badness_fun fs n : badness fs n -> forall m, badness fs m -> n = m.
  Proof. induction 1; intros m M; inversion M; subst; try contradiction; auto. f_equal. auto. Qed.
  Lemma badness_bound fs n : badness fs n -> 0 <= n <= Z.of_nat (length fs).
  Proof. induction 1; cbn [length]; lia. Qed.
  Lemma fixups_for_spec relos t fs s : fixups_for _ _ calc relos t = Some (fs, s) <-> solution relos t fs /\ badness fs s.
  Proof.
    revert fs s. induction relos as [|r relos IH]; intros fs s; cbn [fixups_for].
    - split; [intros E; inversion E; split; constructor|]. intros (S & B). inversion S; subst. inversion B; subst. reflexivity.
    - split.
      + destruct (calc r t) as [f|] eqn:C; [|discriminate]. destruct (fixups_for _ _ calc relos t) as [[fs' s']|]; [|discriminate]. intros E. inversion E; subst.
        destruct (proj1 (IH fs' s') eq_refl) as (S & B). split; [constructor; assumption|]. destruct (bad f) eqn:Bf.
        * rewrite Z.add_comm. constructor; [now apply bad_iff|exact B].
        * rewrite Z.add_0_l. apply bad_no; [intros X; apply bad_iff in X; congruence|exact B].
      + intros (S & B). inversion S as [|? f ? fs' C S']; subst. rewrite C. assert (X : exists s', badness fs' s' /\ s = (if bad f then 1 else 0) + s').
        { inversion B as [|? ? n Bf B' Ef En|? ? n Bf B' Ef En].
          - exists n. split; [exact B'|]. apply bad_iff in Bf. rewrite Bf. lia.
          - exists s. split; [exact B'|]. destruct (bad f) eqn:X; [apply bad_iff in X; contradiction|lia]. }
        destruct X as (s' & B' & ->). now rewrite (proj2 (IH fs' s') (conj S' B')).
  Qed.
  Lemma solution_len relos t fs : solution relos t fs -> length fs = length relos.
  Proof. induction 1; cbn; auto. Qed.
  Lemma agree_spec fs : forall gs, length fs = length gs -> agree fs gs = true <-> Forall2 same_values fs gs.
  Proof.
    induction fs as [|f fs IH]; intros [|g gs] L; try discriminate L; cbn [agree]; [split; [constructor|reflexivity]|]. rewrite andb_true_iff, IH by (cbn in L; lia).
    unfold fixup_equal. rewrite andb_true_iff, !Z.eqb_eq. split; [intros (A & B); constructor; assumption|]. intros F. inversion F; subst. split; assumption.
  Qed.

  (** *** the loop: what the best candidate is among the targets seen so far *)
  Definition Best (relos : list relo) (seen : list target) (score : Z) (best : option (list fixup)) : Prop :=
    match best with
    | None => score = Z.of_nat (length relos) /\ forall t, In t seen -> exists fs, solution relos t fs /\ badness fs score
    | Some fs => score < Z.of_nat (length relos) /\ (exists t, In t seen /\ solution relos t fs /\ badness fs score) /\
        forall t, In t seen -> exists gs n, solution relos t gs /\ badness gs n /\ score <= n /\ (n = score -> Forall2 same_values fs gs)
    end.
  Lemma select_best relos : forall ts seen score best r, Best relos seen score best -> select _ _ calc relos ts score best = Ok r -> exists score', Best relos (seen ++ ts) score' r.
  Proof.
    induction ts as [|t ts IH]; intros seen score best r B E; cbn [select] in E; [exists score; rewrite app_nil_r; inversion E; subst; exact B|].
    destruct (fixups_for _ _ calc relos t) as [[fs s]|] eqn:F; [|discriminate E]. apply fixups_for_spec in F. destruct F as (S & Bd). pose proof (solution_len _ _ _ S) as Ls. pose proof (badness_bound _ _ Bd) as Bb. rewrite Ls in Bb.
    replace (seen ++ t :: ts) with ((seen ++ [t]) ++ ts) by (rewrite <- app_assoc; reflexivity).
    assert (Split : forall P : target -> Prop, (forall u, In u seen -> P u) -> P t -> forall u, In u (seen ++ [t]) -> P u).
    { intros P H1 H2 u Hu. apply in_app_or in Hu. destruct Hu as [Hu|[<-|[]]]; auto. }
    rewrite Z.gtb_ltb in E. destruct (Z.ltb_spec score s) as [G|G].
    { apply IH with (2 := E). destruct best as [b|]; cbn [Best] in *.
      - destruct B as (B1 & (t0 & I0 & B2) & B3). split; [exact B1|]. split; [exists t0; split; [apply in_or_app; auto|exact B2]|]. apply Split; [exact B3|]. exists fs, s. repeat split; auto; lia.
      - destruct B as (B1 & _). lia. }
    destruct (Z.ltb_spec s score) as [G'|G'].
    { apply IH with (2 := E). cbn [Best]. split; [destruct best; cbn [Best] in B; lia|]. split; [exists t; split; [apply in_or_app; right; now left|auto]|].
      apply Split.
      - intros u Hu. destruct best as [b|]; cbn [Best] in B.
        + destruct B as (_ & _ & B3). destruct (B3 u Hu) as (gs & n & X & Y & Z & _). exists gs, n. repeat split; auto; lia.
        + destruct B as (_ & B3). destruct (B3 u Hu) as (gs & X & Y). exists gs, score. repeat split; auto; lia.
      - exists fs, s. split; [exact S|]. split; [exact Bd|]. split; [lia|]. intros _. clear. induction fs; constructor; auto. split; reflexivity. }
    assert (s = score) by lia. subst s. destruct best as [b|]; cbn [Best] in B.
    - destruct (agree b fs) eqn:A; [|discriminate E]. apply IH with (2 := E). destruct B as (B1 & (t0 & I0 & S0 & B2) & B3). split; [exact B1|]. split; [exists t0; split; [apply in_or_app; auto|auto]|].
      apply Split; [exact B3|]. exists fs, score. split; [exact S|]. split; [exact Bd|]. split; [lia|]. intros _. apply agree_spec; [|exact A]. rewrite (solution_len _ _ _ S0), Ls. reflexivity.
    - apply IH with (2 := E). destruct B as (B1 & B3). split; [exact B1|]. apply Split; eauto.
  Qed.
  Lemma select_error relos : forall ts seen score best, Best relos seen score best -> select _ _ calc relos ts score best = Err Ambiguous ->
    exists t u fs gs n, In t (seen ++ ts) /\ In u (seen ++ ts) /\ solution relos t fs /\ solution relos u gs /\ badness fs n /\ badness gs n /\ n < Z.of_nat (length relos) /\ ~ Forall2 same_values fs gs.
  Proof.
    induction ts as [|t ts IH]; intros seen score best B E; cbn [select] in E; [discriminate E|].
    destruct (fixups_for _ _ calc relos t) as [[fs s]|] eqn:F; [|discriminate E].
    assert (Step : forall score' best', select _ _ calc relos [t] score best = Ok best' -> select _ _ calc relos ts score' best' = Err Ambiguous -> Best relos (seen ++ [t]) score' best' -> 
      exists t' u fs gs n, In t' (seen ++ t :: ts) /\ In u (seen ++ t :: ts) /\ solution relos t' fs /\ solution relos u gs /\ badness fs n /\ badness gs n /\ n < Z.of_nat (length relos) /\ ~ Forall2 same_values fs gs).
    { intros score' best' _ E' B'. specialize (IH (seen ++ [t]) score' best' B' E'). rewrite <- app_assoc in IH. exact IH. }
    assert (Bs : forall best', select _ _ calc relos [t] score best = Ok best' -> exists s', Best relos (seen ++ [t]) s' best') by (intros best' Eb; eapply select_best; eassumption).
    cbn [select] in Bs, Step. rewrite F in Bs, Step. apply fixups_for_spec in F. destruct F as (S & Bd). pose proof (solution_len _ _ _ S) as Ls. pose proof (badness_bound _ _ Bd) as Bb. rewrite Ls in Bb.
    assert (Sc : forall s1 s2 b, Best relos (seen ++ [t]) s1 b -> Best relos (seen ++ [t]) s2 b -> s1 = s2).
    { intros s1 s2 [b|]; cbn [Best]; [|lia]. intros (_ & (t1 & _ & _ & X) & _) (_ & (t2 & _ & _ & Y) & _). eapply badness_fun; eassumption. }
    destruct (Z.gtb_spec s score) as [G|G].
    { destruct (Bs _ eq_refl) as (s' & B'). apply (Step score best eq_refl E). destruct best as [b|]; cbn [Best] in *; [|lia].
      assert (s' = score) by (destruct B as (_ & (? & _ & _ & X) & _), B' as (_ & (? & _ & _ & Y) & _); eapply badness_fun; eassumption). subst. exact B'. }
    destruct (Z.ltb_spec s score) as [G'|G'].
    { destruct (Bs _ eq_refl) as (s' & B'). apply (Step s (Some fs) eq_refl E). assert (s' = s) by (destruct B' as (_ & (? & _ & _ & Y) & _); eapply badness_fun; eassumption). subst. exact B'. }
    assert (s = score) by lia. subst s. destruct best as [b|].
    - destruct (agree b fs) eqn:A.
      + destruct (Bs _ eq_refl) as (s' & B'). apply (Step score (Some b) eq_refl E). cbn [Best] in *.
        assert (s' = score) by (destruct B as (_ & (? & _ & _ & X) & _), B' as (_ & (? & _ & _ & Y) & _); eapply badness_fun; eassumption). subst. exact B'.
      + destruct B as (B1 & (t0 & I0 & S0 & B2) & _). exists t0, t, b, fs, score. split; [apply in_or_app; auto|]. split; [apply in_or_app; right; now left|].
        split; [exact S0|]. split; [exact S|]. split; [exact B2|]. split; [exact Bd|]. split; [exact B1|]. intros X. apply agree_spec in X; [congruence|]. rewrite (solution_len _ _ _ S0), Ls. reflexivity.
    - destruct (Bs _ eq_refl) as (s' & B'). apply (Step score None eq_refl E). cbn [Best] in *. destruct B as (B1 & _), B' as (B1' & B''). split; [exact B1|]. rewrite B1, <- B1'. exact B''.
  Qed.
  Lemma Best_init relos : Best relos [] (Z.of_nat (length relos)) None.
  Proof. split; [reflexivity|]. intros t []. Qed.
End Selection.

(** Fixups are returned only if every fixup of every target can be computed.  Either every target is entirely bad and the
    fixups are the default ones, or they are those of a target with the fewest bad fixups, with which all other such
    targets agree. *)
Theorem C38_best : forall relo target kind_of calc relos targets fs,
  coreCalculateFixups relo target kind_of calc relos targets = Ok fs ->
  (exists t n, In t targets /\ solution relo target calc relos t fs /\ badness fs n /\ n < Z.of_nat (length relos) /\
     forall u, In u targets -> exists gs m, solution relo target calc relos u gs /\ badness gs m /\ n <= m /\ (m = n -> Forall2 same_values fs gs)) \/
  ((forall u, In u targets -> exists gs, solution relo target calc relos u gs /\ badness gs (Z.of_nat (length relos))) /\
   Forall2 (fun r f => f_kind f = kind_of r /\ f_skip f = false /\
      (existence_check (kind_of r) /\ f_poison f = false /\ f_local f = 1 /\ f_target f = 0 \/ ~ existence_check (kind_of r) /\ f_poison f = true)) relos fs).
Proof.
  intros relo target kind_of calc relos targets fs E. unfold coreCalculateFixups in E.
  destruct (select relo target calc relos targets (Z.of_nat (length relos)) None) as [best|] eqn:S; [|discriminate E].
  destruct (select_best _ _ kind_of _ _ _ [] _ _ _ (Best_init _ _ _ _) S) as (n & B). cbn [app] in B. destruct best as [b|]; inversion E; subst; cbn [Best] in B.
  - left. destruct B as (B1 & (t & I & X & Y) & B3). exists t, n. auto 6.
  - right. destruct B as (-> & B). split; [exact B|]. clear. induction relos as [|r relos IH]; constructor; auto. unfold default_fixup, checksForExistence, reloEnumvalExists, reloTypeExists, reloFieldExists, reloTypeMatches, existence_check.
    destruct ((_ =? 10) || _ || _ || _) eqn:X; cbn; (split; [reflexivity|]; split; [reflexivity|]).
    + left. rewrite !orb_true_iff, !Z.eqb_eq in X. split; [lia|auto].
    + right. rewrite !orb_false_iff, !Z.eqb_neq in X. split; [lia|auto].
Qed.
(** one fixup per relocation *)
Theorem C38_length : forall relo target kind_of calc relos targets fs,
  coreCalculateFixups relo target kind_of calc relos targets = Ok fs -> length fs = length relos.
Proof.
  intros relo target kind_of calc relos targets fs E. destruct (C38_best _ _ _ _ _ _ _ E) as [(t & n & _ & S & _)|(_ & F)]; [eapply solution_len; exact S|]. clear -F. induction F; cbn; auto.
Qed.
(** two targets with the fewest bad fixups which disagree make the relocation fail *)
Theorem C38_ambiguous : forall relo target kind_of calc relos targets t u fs gs n,
  In t targets -> In u targets -> solution relo target calc relos t fs -> solution relo target calc relos u gs -> badness fs n -> badness gs n -> n < Z.of_nat (length relos) ->
  (forall v hs m, In v targets -> solution relo target calc relos v hs -> badness hs m -> n <= m) -> ~ Forall2 same_values fs gs ->
  exists e, coreCalculateFixups relo target kind_of calc relos targets = Err e.
Proof.
  intros relo target kind_of calc relos targets t u fs gs n It Iu St Su Bt Bu L M D.
  destruct (coreCalculateFixups _ _ _ _ _ _) as [hs|e] eqn:E; [exfalso|eauto].
  assert (Uniq : forall v a b, solution relo target calc relos v a -> solution relo target calc relos v b -> a = b).
  { clear. intros v a b H. revert b. induction H; intros b H'; inversion H'; subst; auto. f_equal; [congruence|auto]. }
  destruct (C38_best _ _ _ _ _ _ _ E) as [(v & m & Iv & Sv & Bv & _ & H)|(H & _)].
  - destruct (H t It) as (fs' & m1 & S1 & B1 & L1 & A1), (H u Iu) as (gs' & m2 & S2 & B2 & L2 & A2).
    pose proof (Uniq _ _ _ S1 St). pose proof (Uniq _ _ _ S2 Su). subst fs' gs'. pose proof (badness_fun _ _ B1 _ Bt). pose proof (badness_fun _ _ B2 _ Bu). subst m1 m2.
    assert (m = n) by (specialize (M v hs m Iv Sv Bv); lia). subst m. apply D. specialize (A1 eq_refl). specialize (A2 eq_refl). clear -A1 A2. revert gs A2.
    induction A1 as [|h f hs fs (X & Y) F IH]; intros gs A2; inversion A2 as [|? g ? gs' (X' & Y') F']; subst; constructor; auto. split; congruence.
  - destruct (H t It) as (fs' & S1 & B1). rewrite (Uniq _ _ _ S1 St) in B1. pose proof (badness_fun _ _ B1 _ Bt). lia.
Qed.
(** and "ambiguous" is only reported if two equally good targets disagree, not necessarily the best ones *)
Theorem C38_ambiguous_only_if : forall relo target kind_of calc relos targets,
  coreCalculateFixups relo target kind_of calc relos targets = Err Ambiguous ->
  exists t u fs gs n, In t targets /\ In u targets /\ solution relo target calc relos t fs /\ solution relo target calc relos u gs /\ badness fs n /\ badness gs n /\
    n < Z.of_nat (length relos) /\ ~ Forall2 same_values fs gs.
Proof.
  intros relo target kind_of calc relos targets E. unfold coreCalculateFixups in E.
  destruct (select relo target calc relos targets (Z.of_nat (length relos)) None) as [best|e] eqn:S; [destruct best; discriminate E|]. inversion E; subst.
  exact (select_error _ _ kind_of _ _ _ [] _ _ (Best_init _ _ _ _) S).
Qed.
(** the result doesn't depend on the order of the targets, as far as values go and if there is one *)
Theorem C38_order : forall relo target kind_of calc relos targets targets' fs fs', Permutation targets targets' ->
  coreCalculateFixups relo target kind_of calc relos targets = Ok fs -> coreCalculateFixups relo target kind_of calc relos targets' = Ok fs' -> Forall2 same_values fs fs'.
Proof.
  intros relo target kind_of calc relos targets targets' fs fs' P E E'.
  assert (Uniq : forall v a b, solution relo target calc relos v a -> solution relo target calc relos v b -> a = b).
  { clear. intros v a b H. revert b. induction H; intros b H'; inversion H'; subst; auto. f_equal; [congruence|auto]. }
  assert (Refl : forall a b, a = b -> Forall2 same_values a b) by (intros a b ->; induction b; constructor; auto; split; reflexivity).
  unfold coreCalculateFixups in E, E'.
  destruct (select relo target calc relos targets (Z.of_nat (length relos)) None) as [best|] eqn:S; [|discriminate E].
  destruct (select relo target calc relos targets' (Z.of_nat (length relos)) None) as [best'|] eqn:S'; [|discriminate E'].
  destruct (select_best _ _ kind_of _ _ _ [] _ _ _ (Best_init _ _ _ _) S) as (n & B), (select_best _ _ kind_of _ _ _ [] _ _ _ (Best_init _ _ _ _) S') as (n' & B'). cbn [app] in *.
  destruct best as [b|], best' as [b'|]; inversion E; inversion E'; subst; cbn [Best] in *.
  - destruct B as (_ & (t & It & St & Bt) & B3), B' as (_ & (t' & It' & St' & Bt') & B3').
    destruct (B3 t') as (gs & m & S1 & B1 & L1 & A1); [eapply Permutation_in; [symmetry; exact P|exact It']|]. rewrite (Uniq _ _ _ S1 St') in *. pose proof (badness_fun _ _ B1 _ Bt'). subst m.
    destruct (B3' t) as (gs' & m & S2 & B2 & L2 & A2); [eapply Permutation_in; [exact P|exact It]|]. rewrite (Uniq _ _ _ S2 St) in *. pose proof (badness_fun _ _ B2 _ Bt). subst m. apply A1. lia.
  - destruct B as (L & (t & It & St & Bt) & _), B' as (-> & B'). destruct (B' t) as (gs & S1 & B1); [eapply Permutation_in; [exact P|exact It]|]. rewrite (Uniq _ _ _ S1 St) in B1. pose proof (badness_fun _ _ B1 _ Bt). lia.
  - destruct B' as (L & (t & It & St & Bt) & _), B as (-> & B). destruct (B t) as (gs & S1 & B1); [eapply Permutation_in; [symmetry; exact P|exact It]|]. rewrite (Uniq _ _ _ S1 St) in B1. pose proof (badness_fun _ _ B1 _ Bt). lia.
  - now apply Refl.
Qed.
(** Whether there is a result does depend on it: two targets with one bad fixup each disagree, a third has none. *)
Definition ex_calc (r t : Z) : option fixup :=
  Some (if t =? 0 then mkFixup 0 r 8 false false else if r =? 0 then mkFixup 0 r t false false else mkFixup 0 0 0 true false).
Theorem C38_order_refuted : coreCalculateFixups Z Z (fun _ => 0) ex_calc [0; 1] [0; 1; 2] = Ok [mkFixup 0 0 8 false false; mkFixup 0 1 8 false false] /\
  coreCalculateFixups Z Z (fun _ => 0) ex_calc [0; 1] [1; 2; 0] = Err Ambiguous.
Proof. split; reflexivity. Qed.
(** Poisoning is not part of the values compared.  Two members at offset 0 of the local type, one of which is missing in
    each target while the other is at offset 0: the targets disagree on which instruction is poisoned, the first wins. *)
Definition ex_poison (r t : Z) : option fixup := Some (if r =? t then mkFixup 0 0 0 true false else mkFixup 0 0 0 false false).
Theorem C38_poison_refuted : coreCalculateFixups Z Z (fun _ => 0) ex_poison [0; 1] [0; 1] = Ok [mkFixup 0 0 0 true false; mkFixup 0 0 0 false false] /\
  coreCalculateFixups Z Z (fun _ => 0) ex_poison [0; 1] [1; 0] = Ok [mkFixup 0 0 0 false false; mkFixup 0 0 0 true false].
Proof. split; reflexivity. Qed.
(** C38_ambiguous and C38_best at work *)
Example C38_example :
  coreCalculateFixups Z Z (fun _ => 0) ex_calc [0] [1; 2] = Err Ambiguous /\
  coreCalculateFixups Z Z (fun _ => 2) ex_calc [0] [] = Ok [mkFixup 2 1 0 false false] /\
  coreCalculateFixups Z Z (fun _ => 0) ex_calc [0] [1; 1] = Ok [mkFixup 0 0 1 false false].
Proof. repeat split; reflexivity. Qed.
