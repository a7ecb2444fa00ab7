(** Proofs about Elf/Programs.v *)
From Coq Require Import String Ascii Sorting.Sorted Permutation.
From Verif Require Import Base.GoInt Asm.Model Asm.Spec Asm.Proof Asm.ProofStream Asm.Props Link.Flatten Elf.Programs Elf.ProgramsSpec.
Open Scope string_scope. Open Scope list_scope. Open Scope Z_scope.

Lemma prefix_spec : forall p s, prefix p s = true <-> begins p s.
Proof.
  induction p as [|a p IH]; intros s; [split; [intros _; now exists s|intros _; now destruct s]|]. destruct s as [|b s]; cbn [prefix]; [split; [discriminate|intros (t & H); discriminate]|].
  destruct (Ascii.ascii_dec a b) as [->|N].
  - rewrite IH. split; intros (t & H); exists t; [subst s; reflexivity|now injection H].
  - split; [discriminate|]. intros (t & H). injection H; intros; congruence.
Qed.
Lemma prefix_false : forall p s, prefix p s = false <-> ~ begins p s.
Proof. intros p s. rewrite <- prefix_spec. destruct (prefix p s); split; congruence. Qed.
Lemma data_spec : forall n, isDataSection n = true <-> data_name n.
Proof. intros n. unfold isDataSection, data_name. rewrite !orb_true_iff, !prefix_spec, String.eqb_eq. tauto. Qed.
Lemma data_not_map : forall n, data_name n -> ~ begins "license" n /\ ~ begins "version" n /\ ~ begins "maps" n /\ n <> ".maps".
Proof.
  intros n H. assert (X : exists c n', n = String "."%char (String c n') /\ c <> "m"%char).
  { destruct H as [->|[(t & ->)|(t & ->)]]; cbn [append]; eexists _, _; (split; [reflexivity|discriminate]). }
  destruct X as (c & n' & -> & Hc). repeat split; try (intros (t & E); discriminate). intros E. injection E. intros; congruence.
Qed.
Lemma exec_bit : forall f, negb (Z.land f SHF_EXECINSTR =? 0) = Z.testbit f 2.
Proof.
  intros f. change SHF_EXECINSTR with (2 ^ 2). destruct (Z.testbit f 2) eqn:E.
  - assert (Z.land f (2 ^ 2) = 2 ^ 2). { apply Z.bits_inj'. intros n Hn. rewrite Z.land_spec, Z.pow2_bits_eqb by lia. destruct (Z.eqb_spec 2 n); [subst; now rewrite E|apply andb_false_r]. } rewrite H. reflexivity.
  - assert (Z.land f (2 ^ 2) = 0). { apply Z.bits_inj'. intros n Hn. rewrite Z.land_spec, Z.pow2_bits_eqb, Z.bits_0 by lia. destruct (Z.eqb_spec 2 n); [subst; now rewrite E|apply andb_false_r]. } rewrite H. reflexivity.
Qed.
Lemma sect_section : forall o i s, section o i = Some s <-> sect o i s.
Proof. intros o i s. unfold section, sect. destruct (Z.ltb_spec i 0); [split; [discriminate|lia]|]. split; [auto|tauto]. Qed.
(** the kinds *)
Lemma classify_spec : forall s,
  (classify s = CKind KProg <-> ~ reserved (o_name s) /\ o_type s = 1 /\ 0 < o_size s /\ Z.testbit (o_flags s) 2 = true) /\
  (classify s = CKind KMap \/ classify s = CKind KBtfMap <-> map_name (o_name s)) /\
  (classify s = CKind KData <-> data_name (o_name s)) /\
  (classify s = CRel <-> ~ reserved (o_name s) /\ o_type s = 9) /\
  classify s <> CKind KUndef.
Proof.
  intros s. unfold classify, reserved, map_name. pose proof (data_not_map (o_name s)) as DM. rewrite exec_bit. unfold SHT_REL, SHT_PROGBITS.
  assert (DN := data_spec (o_name s)). assert (ML : begins "maps" (o_name s) \/ o_name s = ".maps" -> ~ begins "license" (o_name s) /\ ~ begins "version" (o_name s)).
  { intros [(t & ->)| ->]; split; intros (u & E); discriminate. }
  Local Ltac fin := repeat split; try discriminate; try tauto; try lia; try (intros [?|?]; discriminate); try (intuition congruence).
  destruct (prefix "license" (o_name s)) eqn:E1; [apply prefix_spec in E1|apply prefix_false in E1]; [fin|].
  destruct (prefix "version" (o_name s)) eqn:E2; [apply prefix_spec in E2|apply prefix_false in E2]; [fin|].
  destruct (prefix "maps" (o_name s)) eqn:E3; [apply prefix_spec in E3|apply prefix_false in E3]; [fin|].
  destruct (String.eqb_spec (o_name s) ".maps") as [E4|E4]; [fin|].
  destruct (isDataSection (o_name s)) eqn:E5; [assert (data_name (o_name s)) by tauto; fin|].
  assert (~ data_name (o_name s)) by (intros D; apply DN in D; discriminate).
  destruct (Z.eqb_spec (o_type s) 9) as [E6|E6]; [fin|].
  destruct (Z.eqb_spec (o_type s) 1) as [E7|E7], (Z.ltb_spec 0 (o_size s)) as [E8|E8], (Z.testbit (o_flags s) 2) eqn:E9; cbn [andb];
    repeat match goal with |- context[if ?b then _ else _] => destruct b end; fin.
Qed.
Lemma null_undef : forall o, regular o -> kindAt o 0 = Some KUndef.
Proof.
  intros o R. destruct (rg_null o R) as (s & E & Nr & T). unfold kindAt, section. cbn [Z.ltb Z.compare Z.to_nat]. rewrite E. pose proof (classify_spec s) as (C1 & C2 & C3 & C4 & _).
  destruct (classify s) as [[]| | |] eqn:Ec; try reflexivity; exfalso; unfold reserved, map_name in *.
  - apply Nr. assert (M : (begins "maps" (o_name s) \/ o_name s = ".maps") /\ ~ begins "license" (o_name s) /\ ~ begins "version" (o_name s)) by (apply C2; auto). tauto.
  - apply Nr. assert (M : (begins "maps" (o_name s) \/ o_name s = ".maps") /\ ~ begins "license" (o_name s) /\ ~ begins "version" (o_name s)) by (apply C2; auto). tauto.
  - destruct (proj1 C1 eq_refl) as (_ & X & _). lia.
  - apply Nr. do 4 right. now apply C3.
  - unfold classify in Ec. rewrite T in Ec. cbn in Ec. repeat match type of Ec with (if ?b then _ else _) = _ => destruct b; try discriminate end.
Qed.
Lemma kind_undef : forall o i, regular o -> kindAt o i = Some KUndef <-> i = 0.
Proof.
  intros o i R. split; [|intros ->; now apply null_undef]. unfold kindAt. destruct (section o i) as [s|]; [destruct (classify s) as [[]| | |] eqn:E|]; try discriminate; try (destruct (Z.eqb_spec i 0); [auto|discriminate]).
  destruct (classify_spec s) as (_ & _ & _ & _ & N). contradiction.
Qed.
Lemma kind_prog : forall o i, kindAt o i = Some KProg <-> exists s, program_section o i s.
Proof.
  intros o i. unfold kindAt. split.
  - destruct (section o i) as [s|] eqn:Es; [|destruct (i =? 0); discriminate]. intros H. exists s. apply sect_section in Es. split; [exact Es|]. apply (proj1 (classify_spec s)). destruct (classify s) as [[]| | |]; try (destruct (i =? 0)); congruence.
  - intros (s & Hs & H). apply sect_section in Hs. rewrite Hs. apply (proj1 (classify_spec s)) in H. now rewrite H.
Qed.
Lemma kind_map : forall o i, (kindAt o i = Some KMap \/ kindAt o i = Some KBtfMap) <-> exists s, map_section o i s.
Proof.
  intros o i. unfold kindAt. split.
  - destruct (section o i) as [s|] eqn:Es; [|destruct (i =? 0); intros [?|?]; discriminate]. intros H. exists s. apply sect_section in Es. split; [exact Es|]. apply (proj1 (proj2 (classify_spec s))). destruct (classify s) as [[]| | |]; try (destruct (i =? 0)); destruct H; try discriminate; auto.
  - intros (s & Hs & H). apply sect_section in Hs. rewrite Hs. apply (proj1 (proj2 (classify_spec s))) in H. destruct H as [-> | ->]; auto.
Qed.
Lemma kind_data : forall o i, kindAt o i = Some KData <-> exists s, data_section o i s.
Proof.
  intros o i. unfold kindAt. split.
  - destruct (section o i) as [s|] eqn:Es; [|destruct (i =? 0); discriminate]. intros H. exists s. apply sect_section in Es. split; [exact Es|]. apply (proj1 (proj2 (proj2 (classify_spec s)))). destruct (classify s) as [[]| | |]; try (destruct (i =? 0)); congruence.
  - intros (s & Hs & H). apply sect_section in Hs. rewrite Hs. apply (proj1 (proj2 (proj2 (classify_spec s)))) in H. now rewrite H.
Qed.

(** ** Symbols *)
Lemma symAt_insert : forall y m a, symAt (insertSym y m) a = if y_value y =? a then Some y else symAt m a.
Proof.
  intros y m a. induction m as [|z m IH]; cbn [insertSym symAt]; [reflexivity|].
  destruct (Z.ltb_spec (y_value y) (y_value z)); [reflexivity|]. destruct (Z.eqb_spec (y_value y) (y_value z)) as [E|E]; cbn [symAt].
  - destruct (Z.eqb_spec (y_value y) a); [reflexivity|]. destruct (Z.eqb_spec (y_value z) a); [congruence|reflexivity].
  - rewrite IH. destruct (Z.eqb_spec (y_value z) a), (Z.eqb_spec (y_value y) a); try reflexivity. congruence.
Qed.
Definition below (a b : sym) : Prop := y_value a < y_value b.
Lemma insert_In : forall y m z, In z (insertSym y m) -> z = y \/ In z m.
Proof.
  intros y m z. induction m as [|w m IH]; cbn [insertSym]; [intros [->|[]]; auto|]. destruct (y_value y <? y_value w); [intros [->|H]; auto|]. destruct (y_value y =? y_value w); [intros [->|H]; [auto|right; now right]|].
  intros [->|H]; [right; now left|]. destruct (IH H); [auto|right; now right].
Qed.
Lemma insert_sorted_ok : forall y m, StronglySorted below m -> StronglySorted below (insertSym y m).
Proof.
  intros y m H. induction H as [|z m H IH F]; cbn [insertSym]; [repeat constructor|].
  destruct (Z.ltb_spec (y_value y) (y_value z)) as [L|L].
  - constructor; [constructor; assumption|]. constructor; [exact L|]. eapply Forall_impl; [|exact F]. unfold below. intros w Hw. lia.
  - destruct (Z.eqb_spec (y_value y) (y_value z)) as [E|E].
    + constructor; [assumption|]. eapply Forall_impl; [|exact F]. unfold below. intros w Hw. lia.
    + constructor; [assumption|]. apply Forall_forall. intros w Hw. apply insert_In in Hw as [->|Hw]; [unfold below; lia|]. rewrite Forall_forall in F. auto.
Qed.
Lemma sorted_In : forall m y, StronglySorted below m -> In y m -> symAt m (y_value y) = Some y.
Proof.
  intros m y H. induction H as [|z m H IH F]; [intros []|]. cbn [symAt]. intros [->|Hy]; [now rewrite Z.eqb_refl|]. rewrite Forall_forall in F. specialize (F y Hy). unfold below in F. destruct (Z.eqb_spec (y_value z) (y_value y)); [lia|auto].
Qed.
Lemma symAt_In : forall m a y, symAt m a = Some y -> In y m /\ y_value y = a.
Proof. induction m as [|z m IH]; cbn [symAt]; [discriminate|]. intros a y. destruct (Z.eqb_spec (y_value z) a) as [E|E]; [intros H; injection H as <-; split; [now left|exact E]|]. intros H. apply IH in H as [H1 H2]. split; [now right|exact H2]. Qed.
Section Fold.
Variable keep : sym -> bool.
Let fold l m := fold_left (fun m y => if keep y then insertSym y m else m) l m.
Lemma fold_sorted : forall l m, StronglySorted below m -> StronglySorted below (fold l m).
Proof. induction l as [|y l IH]; intros m H; [exact H|]. cbn. apply IH. destruct (keep y); [now apply insert_sorted_ok|exact H]. Qed.
Lemma fold_symAt : forall l m a g, symAt (fold l m) a = Some g -> (In g l /\ keep g = true /\ y_value g = a) \/ symAt m a = Some g.
Proof.
  induction l as [|y l IH]; intros m a g H; [now right|]. cbn in H. apply IH in H as [(H1 & H2)|H]; [left; split; [now right|exact H2]|].
  destruct (keep y) eqn:K; [|now right]. rewrite symAt_insert in H. destruct (Z.eqb_spec (y_value y) a) as [E|E]; [|now right]. injection H as <-. left. split; [now left|auto].
Qed.
Lemma fold_symAt_some : forall l m a g, symAt m a <> None \/ (In g l /\ keep g = true /\ y_value g = a) -> symAt (fold l m) a <> None.
Proof.
  induction l as [|y l IH]; intros m a g [H|(H & K & E)]; try exact H; try contradiction.
  - cbn. apply (IH _ _ g). left. destruct (keep y); [|exact H]. rewrite symAt_insert. destruct (y_value y =? a); [discriminate|exact H].
  - cbn. destruct H as [->|H]; [|apply (IH _ _ g); right; auto]. apply (IH _ _ g). left. rewrite K, symAt_insert, E, Z.eqb_refl. discriminate.
Qed.
End Fold.
Lemma symbols_sorted : forall o i, StronglySorted below (symbolsOf o i).
Proof. intros o i. unfold symbolsOf. destruct (kindAt o i); [|constructor]. apply (fold_sorted (fun y => (y_section y =? i) && keepSym k y)). constructor. Qed.
Lemma keep_prog : forall y, keepSym KProg y = true <-> y_name y <> "" /\ (y_type y = 2 \/ (y_type y = 0 /\ y_bind y <> 0)).
Proof. intros y. unfold keepSym, STT_NOTYPE, STT_FUNC, STB_LOCAL. destruct (String.eqb_spec (y_name y) ""); cbn [negb andb]; [split; [discriminate|tauto]|]. split; [intros H; split; [assumption|lia]|lia]. Qed.
(** the functions of a section, by address *)
Lemma symbols_spec : forall o i s a g, regular o -> program_section o i s -> symAt (symbolsOf o i) a = Some g <-> function_symbol o i g /\ y_value g = a.
Proof.
  intros o i s a g R Hs. assert (K : kindAt o i = Some KProg) by (apply kind_prog; eauto). unfold symbolsOf. rewrite K.
  assert (Kp : forall y, ((y_section y =? i) && keepSym KProg y) = true <-> y_section y = i /\ y_name y <> "" /\ (y_type y = 2 \/ (y_type y = 0 /\ y_bind y <> 0))). { intros y. rewrite andb_true_iff, keep_prog, Z.eqb_eq. tauto. }
  split.
  - intros H. apply (fold_symAt (fun y => (y_section y =? i) && keepSym KProg y)) in H as [(H1 & H2 & H3)|H]; [|discriminate]. apply Kp in H2. unfold function_symbol. tauto.
  - intros ((H1 & H2) & H3). pose proof (fold_symAt_some (fun y => (y_section y =? i) && keepSym KProg y) (o_syms o) [] a g (or_intror (conj H1 (conj (proj2 (Kp g) H2) H3)))) as N.
    destruct (symAt _ a) as [f|] eqn:E in |- *; [|contradiction]. apply (fold_symAt (fun y => (y_section y =? i) && keepSym KProg y)) in E as [(F1 & F2 & F3)|E]; [|discriminate]. apply Kp in F2. f_equal. apply (rg_alias o R i); unfold function_symbol; [tauto|tauto|congruence].
Qed.
Lemma symbols_In : forall o i s g, regular o -> program_section o i s -> In g (symbolsOf o i) <-> function_symbol o i g.
Proof.
  intros o i s g R Hs. split.
  - intros H. apply sorted_In in H; [|apply symbols_sorted]. eapply symbols_spec in H; try eassumption. tauto.
  - intros H. assert (X : symAt (symbolsOf o i) (y_value g) = Some g) by (eapply symbols_spec; eauto). now apply symAt_In in X.
Qed.

(** ** Relocations *)
Lemma le_bytes_len : forall n x, List.length (le_bytes n x) = n.
Proof. induction n as [|n IH]; intros x; cbn [le_bytes List.length]; [reflexivity|now rewrite IH]. Qed.
Lemma put_length : forall bo n x, List.length (put bo n x) = n.
Proof. intros [] n x; cbn [put]; [|rewrite rev_length]; apply le_bytes_len. Qed.
Lemma le_val_le_bytes : forall n x, 0 <= x < 256 ^ Z.of_nat n -> le_val (le_bytes n x) = x.
Proof.
  induction n as [|n IH]; intros x H; cbn [le_bytes le_val]; [change (256 ^ Z.of_nat 0) with 1 in H; lia|]. rewrite Nat2Z.inj_succ, Z.pow_succ_r in H by lia. rewrite IH; [|split; [apply Z.div_pos; lia|apply Z.div_lt_upper_bound; lia]]. pose proof (Z.div_mod x 256). lia.
Qed.
Lemma get_put8 : forall bo x, in_u 64 x -> get bo (put bo 8 x) = x.
Proof. intros [] x H; cbn [get put]; [|rewrite rev_involutive]; apply le_val_le_bytes; exact H. Qed.
Lemma entry_length : forall bo e, List.length (entry_bytes bo e) = 16%nat.
Proof. intros bo e. unfold entry_bytes. rewrite app_length, !put_length. reflexivity. Qed.
Lemma entry_parse : forall bo e rest, entry_ok e -> get bo (firstn 8 (entry_bytes bo e ++ rest)) = e_off e /\ get bo (firstn 8 (skipn 8 (entry_bytes bo e ++ rest))) = e_sym e * 2 ^ 32 + e_type e /\ skipn 16 (entry_bytes bo e ++ rest) = rest.
Proof.
  intros bo e rest (H1 & H2 & H3). unfold entry_bytes. rewrite <- app_assoc.
  assert (A : firstn 8 (put bo 8 (e_off e) ++ put bo 8 (e_sym e * 2 ^ 32 + e_type e) ++ rest) = put bo 8 (e_off e)) by (rewrite firstn_app, put_length, Nat.sub_diag, firstn_O, app_nil_r; apply firstn_all2; rewrite put_length; lia).
  assert (B : skipn 8 (put bo 8 (e_off e) ++ put bo 8 (e_sym e * 2 ^ 32 + e_type e) ++ rest) = put bo 8 (e_sym e * 2 ^ 32 + e_type e) ++ rest) by (rewrite skipn_app, put_length, Nat.sub_diag; rewrite skipn_all2 by (rewrite put_length; lia); reflexivity).
  split; [rewrite A; now apply get_put8|]. split.
  - rewrite B. rewrite firstn_app, put_length, Nat.sub_diag, firstn_O, app_nil_r, firstn_all2 by (rewrite put_length; lia). apply get_put8. unfold in_u in *. split; [lia|]. change (2 ^ 64) with (2 ^ 32 * 2 ^ 32). nia.
  - rewrite app_assoc, skipn_app, app_length, !put_length. cbn [Nat.sub Nat.add]. rewrite skipn_all2 by (rewrite app_length, !put_length; lia). reflexivity.
Qed.
Definition entrySym (o : obj) (e : entry) : option sym := if (1 <=? e_sym e) then nth_error (o_syms o) (Z.to_nat (e_sym e - 1)) else None.
Fixpoint entryRels (o : obj) (es : list entry) (m : rels) : option rels :=
  match es with [] => Some m | e :: es => match entrySym o e with Some y => entryRels o es ((e_off e, y) :: m) | None => None end end.
Lemma relLoop_entries : forall o, Z.of_nat (List.length (o_syms o)) < 2 ^ 32 - 1 -> forall es fuel off m, Forall entry_ok es -> 0 <= off -> off + 16 * Z.of_nat (List.length es) < 2 ^ 64 -> (List.length es < fuel)%nat ->
  relLoop fuel (o_order o) 16 (off + 16 * Z.of_nat (List.length es)) off (concat (map (entry_bytes (o_order o)) es)) (o_syms o) m =
  Some (match entryRels o es m with Some m => Ok m | None => Err ENoSymbol end).
Proof.
  intros o Hc. induction es as [|e es IH]; intros fuel off m F Ho Hb Hf; (destruct fuel as [|fuel]; [cbn in Hf; lia|]); cbn [relLoop].
  - replace (off + 16 * Z.of_nat (List.length (@nil entry)) <=? off) with true by (cbn; lia). reflexivity.
  - inversion F as [|? ? He F']; subst. cbn [List.length map concat entryRels] in *. rewrite Nat2Z.inj_succ in *. replace (off + 16 * Z.succ (Z.of_nat (List.length es)) <=? off) with false by lia.
    destruct (entry_parse (o_order o) e (concat (map (entry_bytes (o_order o)) es)) He) as (P1 & P2 & P3). rewrite P1, P2, P3.
    replace (Z.of_nat (List.length (entry_bytes (o_order o) e ++ concat (map (entry_bytes (o_order o)) es))) <? 16) with false by (rewrite app_length, entry_length; lia).
    destruct He as (H1 & H2 & H3). assert (S1 : u32 (Z.shiftr (e_sym e * 2 ^ 32 + e_type e) 32) = e_sym e).
    { rewrite Z.shiftr_div_pow2 by lia. unfold in_u in *. replace ((e_sym e * 2 ^ 32 + e_type e) / 2 ^ 32) with (e_sym e) by (rewrite Z.add_comm, Z.div_add by lia; rewrite Z.div_small by lia; lia). apply wrapu_id. exact H2. }
    rewrite S1. unfold entrySym. destruct (Z.leb_spec 1 (e_sym e)) as [L|L].
    + assert (S2 : u32 (e_sym e - 1) = e_sym e - 1) by (apply wrapu_id; unfold in_u in *; lia). rewrite S2.
      destruct (Z.leb_spec (Z.of_nat (List.length (o_syms o))) (e_sym e - 1)) as [M|M].
      * assert (X : nth_error (o_syms o) (Z.to_nat (e_sym e - 1)) = None) by (apply nth_error_None; lia). now rewrite X.
      * destruct (nth_error (o_syms o) (Z.to_nat (e_sym e - 1))) as [y|] eqn:En; [|apply nth_error_None in En; lia].
        assert (S3 : u64 (off + 16) = off + 16) by (apply wrapu_id; unfold in_u; lia). rewrite S3. replace (off + 16 * Z.succ (Z.of_nat (List.length es))) with (off + 16 + 16 * Z.of_nat (List.length es)) by lia. apply IH; try assumption; lia.
    + assert (Z0 : e_sym e = 0) by (unfold in_u in *; lia). rewrite Z0. change (u32 (0 - 1)) with (2 ^ 32 - 1). replace (Z.of_nat (List.length (o_syms o)) <=? 2 ^ 32 - 1) with true by lia. reflexivity.
Qed.
Lemma relLoop_total : forall fuel bo ent size off data syms m, (List.length data < fuel)%nat -> exists r, relLoop fuel bo ent size off data syms m = Some r.
Proof.
  induction fuel as [|fuel IH]; intros bo ent size off data syms m H; [lia|]. cbn [relLoop]. destruct (size <=? off); [eauto|]. destruct (Z.ltb_spec (Z.of_nat (List.length data)) 16) as [L|L]; [eauto|]. cbn zeta. destruct (Z.of_nat (List.length syms) <=? _); [eauto|]. destruct (nth_error _ _); [|eauto].
  apply IH. rewrite skipn_length. lia.
Qed.
Lemma relocations_total : forall o i, exists r, relocationsOf o i = Some r.
Proof.
  intros o i. unfold relocationsOf. destruct (kindAt o i); [|eauto]. destruct (relSection o i); [|eauto]. unfold loadSectionRelocations. destruct (o_entsize o0 <? 16); [eauto|]. edestruct relLoop_total as (r & ->); [|destruct r; [destruct (forallb _ _)|]; eauto]. lia.
Qed.
Lemma relSection_spec : forall o i s, (forall s', reloc_section o i s' -> s' = s) -> (relSection o i = Some s <-> reloc_section o i s) .
Proof.
  intros o i s U. unfold relSection.
  assert (P : forall l acc, let r := fold_left (fun r s => match classify s with CRel => if o_info s =? i then Some s else r | _ => r end) l acc in
    (r = acc /\ forall s, In s l -> ~ (classify s = CRel /\ o_info s = i)) \/ (exists s, r = Some s /\ In s l /\ classify s = CRel /\ o_info s = i)).
  { induction l as [|z l IH]; intros acc r; subst r; cbn [fold_left]; [left; split; [reflexivity|intros ? []]|].
    match goal with |- context[fold_left ?f l ?a] => destruct (IH a) as [(E & N)|(w & E & Hw)] end.
    - destruct (classify z) eqn:C; try (left; split; [exact E|]; intros w [<-|Hw]; [intros [? _]; congruence|auto]). destruct (Z.eqb_spec (o_info z) i) as [Ei|Ei]; [right; exists z; split; [exact E|]; split; [now left|auto]|].
      left. split; [exact E|]. intros w [<-|Hw]; [intros [_ ?]; contradiction|auto].
    - right. exists w. split; [exact E|]. split; [now right|tauto]. }
  assert (RS : forall w, In w (o_sects o) /\ classify w = CRel /\ o_info w = i <-> reloc_section o i w). { intros w. unfold reloc_section. destruct (classify_spec w) as (_ & _ & _ & C & _). rewrite C. tauto. }
  destruct (P (o_sects o) None) as [(E & N)|(w & E & Hw)]; rewrite E.
  - split; [discriminate|]. intros H. apply RS in H. exfalso. apply (N s); tauto.
  - apply RS in Hw. pose proof (U w Hw) as Ew; subst w. split; [intros _; exact Hw|intros _; reflexivity].
Qed.
Lemma relSection_none : forall o i, relSection o i = None -> forall s, ~ reloc_section o i s.
Proof.
  intros o i H s Hs. unfold relSection in H.
  assert (P : forall l acc, acc <> None \/ (exists s, In s l /\ classify s = CRel /\ o_info s = i) -> fold_left (fun r s => match classify s with CRel => if o_info s =? i then Some s else r | _ => r end) l acc <> None).
  { induction l as [|z l IH]; intros acc [A|(w & Hw & A)]; try contradiction; cbn [fold_left]; try exact A.
    - apply IH. left. destruct (classify z); try exact A. destruct (o_info z =? i); [discriminate|exact A].
    - destruct Hw as [->|Hw]; [|apply IH; right; eauto]. apply IH. left. destruct A as (-> & ->). rewrite Z.eqb_refl. discriminate. }
  apply (P (o_sects o) None); [|exact H]. right. exists s. destruct Hs as (H1 & H2 & H3 & H4). split; [exact H1|]. split; [apply classify_spec; auto|exact H4].
Qed.
Lemma entryRels_relAt : forall o es m m', entryRels o es m = Some m' -> NoDup (map e_off es) -> (forall e, In e es -> relAt m (e_off e) = None) ->
  forall a y, relAt m' a = Some y <-> (relAt m a = Some y \/ exists e, In e es /\ e_off e = a /\ symbol_number o (e_sym e) y).
Proof.
  induction es as [|e es IH]; intros m m' H Nd Hm a y; cbn [entryRels] in H.
  - injection H as <-. split; [auto|]. intros [H|(e & [] & _)]. exact H.
  - destruct (entrySym o e) as [z|] eqn:Ez; [|discriminate]. cbn [map] in Nd. inversion Nd as [|? ? Nin Nd']; subst. 
    assert (SN : symbol_number o (e_sym e) z) by (unfold entrySym in Ez; destruct (Z.leb_spec 1 (e_sym e)); [split; assumption|discriminate]).
    assert (SU : forall w, symbol_number o (e_sym e) w -> w = z) by (intros w (_ & Hw); destruct SN as (_ & Hz); congruence).
    rewrite (IH _ _ H Nd').
    + cbn [relAt]. destruct (Z.eqb_spec (e_off e) a) as [E|E].
      * split.
        -- intros [X|(e' & He' & X)]; [injection X as <-; right; exists e; split; [now left|auto]|right; exists e'; split; [now right|exact X]].
        -- intros [X|(e' & [<-|He'] & X1 & X2)]; [subst a; rewrite (Hm e (or_introl eq_refl)) in X; discriminate|left; f_equal; symmetry; now apply SU|right; exists e'; auto].
      * split.
        -- intros [X|(e' & He' & X)]; [now left|right; exists e'; split; [now right|exact X]].
        -- intros [X|(e' & [<-|He'] & X1 & X2)]; [now left|contradiction|right; exists e'; auto].
    + intros e' He'. cbn [relAt]. destruct (Z.eqb_spec (e_off e) (e_off e')) as [E|E]; [exfalso; apply Nin; rewrite E; now apply List.in_map|]. apply Hm. now right.
Qed.
Lemma entries_size : forall o s es, entries o s es -> List.length (o_data s) = (16 * List.length es)%nat.
Proof. intros o s es (_ & ->). induction es as [|e es IH]; cbn [map concat List.length]; [reflexivity|]. rewrite app_length, entry_length, IH. lia. Qed.
Lemma load_relocs : forall o i s es, regular o -> reloc_section o i s -> entries o s es -> loadSectionRelocations o s = Some (match entryRels o es [] with Some m => Ok m | None => Err ENoSymbol end).
Proof.
  intros o i s es R Hs He. destruct (rg_relocs o R i s Hs) as (E16 & _). unfold loadSectionRelocations. rewrite E16. cbn [Z.ltb Z.compare Pos.compare Pos.compare_cont].
  destruct Hs as (Hin & _ & T & _). apply In_nth_error in Hin as (n & Hn). destruct (rg_data o R (Z.of_nat n) s) as (_ & L & B); [split; [lia|]; now rewrite Nat2Z.id|].
  pose proof (entries_size _ _ _ He) as Sz. destruct He as (F & D). rewrite L by auto. rewrite Sz, D. replace (Z.of_nat (16 * List.length es)) with (0 + 16 * Z.of_nat (List.length es)) by lia.
  apply relLoop_entries; [apply (rg_count o R)|exact F|lia| |lia].
  rewrite L in B by auto. rewrite Sz in B. assert (2 ^ 63 < 2 ^ 64) by (apply Z.pow_lt_mono_r; lia). lia.
Qed.
(** the relocations of a section which is loaded are those of the file *)
Lemma relocations_kind : forall o i k m, regular o -> kindAt o i = Some k -> relocationsOf o i = Some (Ok m) -> forall a y, relAt m a = Some y <-> relocated o i a y.
Proof.
  intros o i k m R K H a y. unfold relocationsOf in H. rewrite K in H.
  destruct (relSection o i) as [rs|] eqn:Er.
  - assert (Hr : reloc_section o i rs).
    { destruct (loadSectionRelocations o rs); [|discriminate]. assert (X : exists w, reloc_section o i w).
      { unfold relSection in Er. assert (Q : forall l acc, fold_left (fun r s => match classify s with CRel => if o_info s =? i then Some s else r | _ => r end) l acc = Some rs -> acc = Some rs \/ (In rs l /\ classify rs = CRel /\ o_info rs = i)).
        { induction l as [|z l IH]; intros acc Q; [now left|]. cbn [fold_left] in Q. apply IH in Q as [Q|Q]; [|right; split; [now right|tauto]]. destruct (classify z) eqn:C; auto. destruct (Z.eqb_spec (o_info z) i); auto. injection Q as <-. right. split; [now left|auto]. }
        apply Q in Er as [Er|(E1 & E2 & E3)]; [discriminate|]. exists rs. apply (proj1 (proj2 (proj2 (proj2 (classify_spec rs))))) in E2. split; tauto. }
      destruct X as (w & Hw). destruct (rg_relocs o R i w Hw) as (_ & _ & _ & U). apply (proj2 (relSection_spec o i w U)) in Hw. assert (rs = w) by congruence. subst w. apply (proj1 (relSection_spec o i rs U)). exact Er. }
    destruct (rg_relocs o R i rs Hr) as (_ & (es & He) & ND & U). rewrite (load_relocs o i rs es R Hr He) in H. destruct (entryRels o es []) as [m0|] eqn:Em; [|discriminate]. destruct (forallb _ m0); [|discriminate]. injection H as <-.
    rewrite (entryRels_relAt _ _ _ _ Em (ND es He) (fun _ _ => eq_refl)). split.
    + intros [X|(e & H1 & H2 & H3)]; [discriminate|]. exists rs, es, e. auto.
    + intros (s' & es' & e & H1 & H2 & H3 & H4 & H5). rewrite (U s' H1) in *. pose proof (load_relocs o i rs es' R Hr H2) as L2. rewrite (load_relocs o i rs es R Hr He), Em in L2. injection L2 as L2. destruct (entryRels o es' []) as [m1|] eqn:Em1; [|discriminate]. injection L2 as <-.
      right. assert (X : relAt m0 a = Some y) by (apply (entryRels_relAt _ _ _ _ Em1 (ND es' H2) (fun _ _ => eq_refl)); right; eauto).
      apply (entryRels_relAt _ _ _ _ Em (ND es He) (fun _ _ => eq_refl)) in X as [X|X]; [discriminate|exact X].
  - injection H as <-. split; [discriminate|]. intros (s' & es & e & H1 & _). exfalso. eapply relSection_none; eassumption.
Qed.
Lemma relocations_spec : forall o i s m, regular o -> program_section o i s -> relocationsOf o i = Some (Ok m) -> forall a y, relAt m a = Some y <-> relocated o i a y.
Proof. intros o i s m R Hs. apply relocations_kind with (k := KProg); [exact R|]. apply kind_prog. eauto. Qed.
