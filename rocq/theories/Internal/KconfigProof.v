(** Proofs about kconfig (property C74). *)
From Coq Require Import Permutation.
From Verif.Base Require Import GoInt.
From Verif.Internal Require Import Kallsyms KallsymsSpec KallsymsProof Kconfig KconfigSpec.

(** ** Numbers *)
Fixpoint horner (base n : Z) (l : str) : option Z :=
  match l with
  | [] => Some n
  | c :: l' => match digitOf c with Some d => if base <=? d then None else horner base (n * base + d) l' | None => None end
  end.
Lemma lor32 : forall c, Z.lor c 32 = c \/ Z.lor c 32 = c + 32.
Proof.
  intros c. destruct (Z.testbit c 5) eqn:E.
  - left. apply Z.bits_inj'. intros n Hn. rewrite Z.lor_spec. change 32 with (2 ^ 5). rewrite Z.pow2_bits_eqb by lia. destruct (Z.eqb_spec 5 n); [subst; rewrite E; auto|]. now rewrite orb_false_r.
  - right. rewrite <- Z.lxor_lor, <- Z.add_nocarry_lxor; auto; apply Z.bits_inj'; intros n Hn; rewrite Z.land_spec, Z.bits_0; change 32 with (2 ^ 5); rewrite Z.pow2_bits_eqb by lia; destruct (Z.eqb_spec 5 n); subst; rewrite ?E, ?andb_false_r; auto.
Qed.
Lemma lower_cases : forall c, (97 <= c <= 122 -> lowerCase c = c) /\ (65 <= c <= 90 -> lowerCase c = c + 32).
Proof.
  assert (H : forallb (fun n => let c := Z.of_nat n in implb ((97 <=? c) && (c <=? 122)) (lowerCase c =? c) && implb ((65 <=? c) && (c <=? 90)) (lowerCase c =? c + 32)) (seq 0 256) = true) by (vm_compute; reflexivity).
  intros c. rewrite forallb_forall in H. specialize (H (Z.to_nat c)). cbn zeta in H. rewrite in_seq in H. 
  split; intros Hc; rewrite Z2Nat.id in H by lia; specialize (H ltac:(lia)); generalize dependent (lowerCase c); intros l H; lia.
Qed.
Lemma digitOf_spec : forall base c d, digitOf c = Some d /\ (base <=? d) = false <-> isDigit base c d.
Proof.
  intros base c d. unfold digitOf, isDigit. destruct (lower_cases c) as [L1 L2]. destruct (lor32 c) as [L|L]; fold (lowerCase c) in L; generalize dependent (lowerCase c); intros l L1 L2 L.
  - subst l. destruct ((48 <=? c) && (c <=? 57)) eqn:E1; [split; [intros [H H1]; injection H as <-; lia|intros [H H1]; split; [f_equal|]; lia]|].
    destruct ((97 <=? c) && (c <=? 122)) eqn:E2; [split; [intros [H H1]; injection H as <-; lia|intros [H H1]; split; [f_equal|]; lia]|]. split; [intros [H _]; discriminate|lia].
  - destruct ((48 <=? c) && (c <=? 57)) eqn:E1; [split; [intros [H H1]; injection H as <-; lia|intros [H H1]; split; [f_equal|]; lia]|].
    destruct ((97 <=? l) && (l <=? 122)) eqn:E2; [split; [intros [H H1]; injection H as <-; lia|intros [H H1]; split; [f_equal|]; lia]|]. split; [intros [H _]; discriminate|lia].
Qed.
Lemma digitOf_nonneg : forall c d, digitOf c = Some d -> 0 <= d < 36.
Proof. intros c d H. unfold digitOf in H. destruct (_ && _) eqn:E in H; [injection H as <-; lia|]. destruct (_ && _) eqn:E' in H; [injection H as <-; lia|discriminate]. Qed.
Lemma horner_app : forall base l m n, horner base n (l ++ m) = match horner base n l with Some v => horner base v m | None => None end.
Proof. induction l as [|c l IH]; intros m n; cbn [app horner]; auto. destruct (digitOf c); auto. destruct (_ <=? _); auto. Qed.
Lemma horner_positional : forall base l v, horner base 0 l = Some v <-> positional base l v.
Proof.
  intros base l v. split.
  - revert v. induction l as [|c l IH] using rev_ind; intros v H.
    + cbn in H. injection H as <-. constructor.
    + rewrite horner_app in H. destruct (horner base 0 l) as [w|]; [|discriminate]. cbn in H. destruct (digitOf c) as [d|] eqn:Hd; [|discriminate]. destruct (base <=? d) eqn:Hb; [discriminate|]. injection H as <-.
      constructor; auto. apply digitOf_spec. auto.
  - induction 1 as [|l c v d _ IH Hd]; auto. rewrite horner_app, IH. cbn. apply digitOf_spec in Hd. destruct Hd as [-> ->]. reflexivity.
Qed.
Lemma horner_ge : forall base l n v, 1 <= base -> 0 <= n -> horner base n l = Some v -> n <= v.
Proof.
  induction l as [|c l IH]; intros n v Hb Hn H; cbn in H; [injection H as <-; lia|]. destruct (digitOf c) as [d|] eqn:Hd; [|discriminate]. destruct (base <=? d); [discriminate|].
  apply digitOf_nonneg in Hd. apply IH in H; nia.
Qed.
Lemma parseDigits_spec : forall base maxVal l n v, 2 <= base <= 36 -> 0 <= n <= maxVal -> maxVal < 2 ^ 64 ->
  parseDigits base maxVal n l = Ok v <-> horner base n l = Some v /\ v <= maxVal.
Proof.
  intros base maxVal. induction l as [|c l IH]; intros n v Hb Hn Hm; cbn [parseDigits horner].
  - split; [intros H; injection H as <-; split; auto; lia|intros [H _]; congruence].
  - destruct (digitOf c) as [d|] eqn:Hd; [|split; [discriminate|intros [H _]; discriminate]]. apply digitOf_nonneg in Hd.
    destruct (Z.leb_spec base d); [split; [discriminate|intros [H' _]; discriminate]|].
    assert (Hdm := Z.div_mod (2 ^ 64 - 1) base ltac:(lia)). assert (Hmb := Z.mod_pos_bound (2 ^ 64 - 1) base ltac:(lia)).
    set (q := (2 ^ 64 - 1) / base) in *. set (r := (2 ^ 64 - 1) mod base) in *. 
    destruct (Z.leb_spec (q + 1) n).
    + split; [discriminate|]. intros [H' Hv]. exfalso. apply horner_ge in H'; [|lia|nia]. nia.
    + cbn zeta. assert (Hnb : 0 <= n * base <= 2 ^ 64 - 1) by nia. assert (E : u64 (n * base) = n * base) by (apply wrapu_id; unfold in_u; lia). rewrite E.
      generalize dependent (n * base). intros nb E Hnb.
      destruct (Z.leb_spec (2 ^ 64) (nb + d)).
      * assert (E1 : u64 (nb + d) = nb + d - 2 ^ 64) by (unfold u64, wrapu; symmetry; apply Z.mod_unique with (q := 1); lia). rewrite E1.
        replace (nb + d - 2 ^ 64 <? nb) with true by lia. split; [discriminate|]. intros [H' Hv]. apply horner_ge in H'; lia.
      * assert (E1 : u64 (nb + d) = nb + d) by (apply wrapu_id; unfold in_u; nia). rewrite E1.
        replace (nb + d <? nb) with false by lia. cbn [orb]. destruct (Z.ltb_spec maxVal (nb + d)).
        -- split; [discriminate|]. intros [H' Hv]. apply horner_ge in H'; lia.
        -- apply IH; auto. nia.
Qed.
Lemma positional_letter : forall base c t v, base <= 10 -> lowerCase c = 98 \/ lowerCase c = 111 \/ lowerCase c = 120 -> ~ positional base (c :: t) v.
Proof.
  intros base c t v Hb Hc H. apply horner_positional in H. cbn in H. unfold digitOf in H. destruct ((48 <=? c) && (c <=? 57)) eqn:E1.
  - assert (D : lowerCase c = c \/ lowerCase c = c + 32) by apply lor32. lia.
  - destruct ((97 <=? lowerCase c) && (lowerCase c <=? 122)); [|discriminate]. destruct (Z.leb_spec base (lowerCase c - 97 + 10)); [discriminate|lia].
Qed.
Lemma lower_letters : forall c x, In x [98; 111; 120] -> lowerCase c = x <-> c = x \/ c = x - 32.
Proof.
  intros c x Hx. destruct (lower_cases c) as [L1 L2]. assert (D : lowerCase c = c \/ lowerCase c = c + 32) by apply lor32. cbn in Hx. lia.
Qed.
Definition baseOk (s : str) : Prop := 2 <= fst (basePrefix s) <= 36.
Lemma basePrefix_spec : forall s v, s <> [] -> baseOk s /\ (positional (fst (basePrefix s)) (snd (basePrefix s)) v <-> numeral s v).
Proof.
  intros s v Hs. unfold baseOk. destruct s as [|c t]; [contradiction|]. destruct (Z.eq_dec c 48) as [->|Hc].
  - destruct t as [|c t].
    + cbn. split; [lia|]. split; [intros H; now constructor|]. intros H. inversion H; subst; [contradiction|auto].
    + destruct t as [|e t].
      * cbn [basePrefix fst snd]. split; [lia|]. split; [intros H; now constructor|]. intros H. inversion H; subst; [contradiction|auto|contradiction].
      * cbn [basePrefix tl]. pose proof (lower_letters c 98) as L1. pose proof (lower_letters c 111) as L2. pose proof (lower_letters c 120) as L3. cbn in L1, L2, L3.
        pose proof (fun v => positional_letter 8 c (e :: t) v) as PL.
        destruct (Z.eqb_spec (lowerCase c) 98) as [E|E]; [|destruct (Z.eqb_spec (lowerCase c) 111) as [E2|E2]; [|destruct (Z.eqb_spec (lowerCase c) 120) as [E3|E3]]]; cbn [fst snd]; (split; [lia|]); split; intros H.
        -- apply num_prefix with (base := 2); auto; [discriminate|]. cbn. apply L1 in E; auto. destruct E as [-> | ->]; auto.
        -- inversion H; subst; [contradiction|exfalso; eapply PL; eauto; lia|]. cbn in *. apply L1 in E; auto. intuition congruence.
        -- apply num_prefix with (base := 8); auto; [discriminate|]. cbn. apply L2 in E2; auto. destruct E2 as [-> | ->]; auto.
        -- inversion H; subst; [contradiction|exfalso; eapply PL; eauto; lia|]. cbn in *. apply L2 in E2; auto. intuition congruence.
        -- apply num_prefix with (base := 16); auto; [discriminate|]. cbn. apply L3 in E3; auto. destruct E3 as [-> | ->]; auto 10.
        -- inversion H; subst; [contradiction|exfalso; eapply PL; eauto; lia|]. cbn in *. apply L3 in E3; auto. intuition congruence.
        -- now constructor.
        -- inversion H; subst; [contradiction|auto|]. cbn in *. exfalso. rewrite L1 in E by auto. rewrite L2 in E2 by auto. rewrite L3 in E3 by auto. intuition congruence.
  - assert (E : basePrefix (c :: t) = (10, c :: t)). { unfold basePrefix. destruct c as [|p|p]; auto. do 6 (destruct p as [p|p|]; auto); try (destruct t as [|? [|? ?]]; auto); try contradiction. }
    rewrite E. cbn [fst snd]. split; [lia|]. split; [intros H; now constructor|]. intros H. inversion H; subst; auto; contradiction.
Qed.
Lemma ParseUint_spec : forall s bits v, 1 <= bits <= 64 -> ParseUint s bits = Ok v <-> numeral s v /\ v < 2 ^ bits.
Proof.
  intros s bits v Hb. unfold ParseUint. destruct s as [|c t]; [split; [discriminate|intros [H _]; inversion H]|].
  destruct (basePrefix_spec (c :: t) v ltac:(discriminate)) as [B1 B2]. unfold baseOk in B1. destruct (basePrefix (c :: t)) as [base r]. cbn [fst snd] in *.
  destruct (Z.eqb_spec bits 0); [lia|]. replace ((bits <? 0) || (64 <? bits)) with false by lia.
  assert (P : 2 ^ bits <= 2 ^ 64) by (apply Z.pow_le_mono_r; lia). assert (P0 : 0 < 2 ^ bits) by (apply Z.pow_pos_nonneg; lia).
  rewrite parseDigits_spec by lia. rewrite horner_positional, B2. intuition lia.
Qed.
Lemma numeral_nonneg : forall s v, numeral s v -> 0 <= v.
Proof.
  assert (P : forall base l v, 1 <= base -> positional base l v -> 0 <= v) by (intros base l v Hb H; apply horner_positional in H; eapply horner_ge; eauto; lia).
  intros s v H. inversion H; subst; try (eapply P; [|eauto]; lia). assert (1 <= base); [|eapply P; eauto]. cbn in H1. repeat (destruct H1 as [E|H1]; [injection E as <- <-; lia|]). contradiction.
Qed.

Lemma ParseInt_spec : forall s bits v, 1 <= bits <= 64 -> ParseInt s bits = Ok v <-> signed_numeral s v /\ - 2 ^ (bits - 1) <= v < 2 ^ (bits - 1).
Proof.
  intros s bits v Hb. unfold ParseInt. destruct s as [|c t]; [split; [discriminate|]; intros [H _]; inversion H; subst; inversion H0|].
  assert (P : 2 ^ bits = 2 * 2 ^ (bits - 1)) by (rewrite <- Z.pow_succ_r by lia; f_equal; lia). assert (P0 : 0 < 2 ^ (bits - 1)) by (apply Z.pow_pos_nonneg; lia).
  destruct (Z.eqb_spec bits 0); [lia|]. set (h := 2 ^ (bits - 1)) in *.
  assert (NS : forall x r w, x = 43 \/ x = 45 -> ~ numeral (x :: r) w).
  { intros x r w Hx H. inversion H; subst; [|lia..]. apply horner_positional in H4. cbn in H4. destruct Hx as [-> | ->]; vm_compute in H4; discriminate. }
  assert (U : forall r w, ParseUint r bits = Ok w <-> numeral r w /\ w < 2 ^ bits) by (intros; apply ParseUint_spec; lia).
  destruct (Z.eqb_spec c 45) as [->|Hm].
  - cbn [orb Z.eqb Pos.eqb negb andb]. destruct (ParseUint t bits) as [un|e] eqn:Eu.
    + apply U in Eu. destruct Eu as [Eu Eu2]. pose proof (numeral_nonneg t un Eu). destruct (Z.ltb_spec h un).
      * split; [discriminate|]. intros [Hs Hv]. inversion Hs; subst; [exfalso; eapply NS; eauto|]. assert (v0 = un); [|lia].
        assert (Q : ParseUint t 64 = Ok v0) by (apply ParseUint_spec; [lia|split; auto; assert (2 ^ bits <= 2 ^ 64) by (apply Z.pow_le_mono_r; lia); lia]).
        assert (Q' : ParseUint t 64 = Ok un) by (apply ParseUint_spec; [lia|split; auto; assert (2 ^ bits <= 2 ^ 64) by (apply Z.pow_le_mono_r; lia); lia]). congruence.
      * split; [intros Hv; injection Hv as <-; split; [now constructor|lia]|]. intros [Hs Hv]. inversion Hs; subst; [exfalso; eapply NS; eauto|]. do 2 f_equal.
        assert (Q : ParseUint t bits = Ok v0) by (apply U; split; auto; lia). assert (Q' : ParseUint t bits = Ok un) by (apply U; auto). congruence.
    + split; [discriminate|]. intros [Hs Hv]. inversion Hs; subst; [exfalso; eapply NS; eauto|]. assert (Q : ParseUint t bits = Ok v0) by (apply U; split; auto; lia). congruence.
  - cbn [negb andb]. set (r := if (c =? 43) || false then t else c :: t).
    assert (R : forall w, signed_numeral (c :: t) w <-> numeral r w).
    { intros w. unfold r. destruct (Z.eqb_spec c 43) as [->|Hp]; cbn [orb].
      - split; [intros H; inversion H; subst; auto; exfalso; apply (NS 43 t w); auto|intros; now apply sig_plus].
      - split; [intros H; inversion H; subst; auto; contradiction|intros; now constructor]. }
    rewrite R. destruct (ParseUint r bits) as [un|e] eqn:Eu.
    + apply U in Eu. destruct Eu as [Eu Eu2]. pose proof (numeral_nonneg r un Eu).
      assert (Q : forall w, numeral r w -> w < h -> w = un). { intros w Hw Hl. assert (Q1 : ParseUint r bits = Ok w) by (apply U; split; auto; lia). assert (Q' : ParseUint r bits = Ok un) by (apply U; auto). congruence. }
      destruct (Z.leb_spec h un).
      * split; [discriminate|]. intros [Hs Hv]. apply Q in Hs; lia.
      * split; [intros Hv; injection Hv as <-; split; auto; lia|]. intros [Hs Hv]. f_equal. symmetry. apply Q; auto. lia.
    + split; [discriminate|]. intros [Hs Hv]. assert (Q : ParseUint r bits = Ok v) by (apply U; split; auto; lia). congruence.
Qed.

(** ** Values *)
Lemma positional_first : forall base c t v, base <= 10 -> positional base (c :: t) v -> 48 <= c <= 57.
Proof.
  intros base c t v Hb H. apply horner_positional in H. cbn in H. destruct (digitOf c) as [d|] eqn:Hd; [|discriminate]. destruct (Z.leb_spec base d); [discriminate|].
  unfold digitOf in Hd. destruct ((48 <=? c) && (c <=? 57)) eqn:E; [lia|]. destruct (_ && _) eqn:E' in Hd; [|discriminate]. injection Hd as <-. lia.
Qed.
Lemma numeral_first : forall s v, numeral s v -> exists c t, s = c :: t /\ 48 <= c <= 57.
Proof. intros s v H. inversion H; subst; eexists _, _; (split; [reflexivity|]); try lia. eapply positional_first; [|eauto]. lia. Qed.
Lemma signed_first : forall s v, signed_numeral s v -> exists c t, s = c :: t /\ (48 <= c <= 57 \/ c = 43 \/ c = 45).
Proof. intros s v H. inversion H; subst; [|eexists _, _; split; [reflexivity|]; lia..]. destruct (numeral_first s v H0) as (c & t & -> & Hc). eexists _, _. split; [reflexivity|]. lia. Qed.

Lemma sizeof_underlying : forall t, sizeof (underlying t) = sizeof t.
Proof. induction t; cbn; auto. Qed.
Lemma overwrite_zeros : forall z b, length b = length z -> overwrite z b = b.
Proof. intros z b H. unfold overwrite. rewrite skipn_all2, app_nil_r; auto. lia. Qed.

Lemma u64_signed : forall bits v, 1 <= bits <= 64 -> - 2 ^ (bits - 1) <= v < 2 ^ (bits - 1) -> i64 (u64 v) = v /\ wrapu bits (u64 v) = v mod 2 ^ bits.
Proof.
  intros bits v Hb Hv. assert (2 ^ (bits - 1) <= 2 ^ 63) by (apply Z.pow_le_mono_r; lia). split.
  - unfold i64, u64. rewrite sext_wrapu by lia. apply sext_id; [lia|]. unfold in_s. change (64 - 1) with 63. lia.
  - unfold u64. rewrite wrapu_le by lia. reflexivity.
Qed.

Lemma put1 : forall bo x, 0 <= x < 256 -> put bo 1 x = [x].
Proof. intros bo x H. destruct bo; cbn; f_equal; now apply Z.mod_small. Qed.
Definition isInt (t : kty) : bool := match t with KInt _ _ => true | _ => false end.

Lemma put_number_spec : forall bo size enc text d, 0 <= size ->
  putValueNumber bo (repeat 0 (Z.to_nat size)) (KInt size enc) text = Ok d <->
  In size [1; 2; 4; 8] /\ ((enc <> encSigned /\ exists v, numeral text v /\ v < 2 ^ (8 * size) /\ (enc = encBool -> v <= 1) /\ d = put bo (Z.to_nat size) v)
    \/ (enc = encSigned /\ exists v, signed_numeral text v /\ - 2 ^ (8 * size - 1) <= v < 2 ^ (8 * size - 1) /\ d = put bo (Z.to_nat size) (v mod 2 ^ (8 * size)))).
Proof.
  intros bo size enc text d Hs. 
  assert (D : In size [1; 2; 4; 8] \/ ~ In size [1; 2; 4; 8]) by (destruct (in_dec Z.eq_dec size [1; 2; 4; 8]); auto).
  destruct D as [D|D].
  2:{ split; [|tauto]. unfold putValueNumber. destruct (if enc =? encSigned then _ else _) as [n|e]; [|discriminate]. unfold PutInteger. destruct (_ && _); [discriminate|]. destruct (_ <? _); [discriminate|].
      cbn in D. destruct (Z.eqb_spec size 1); [exfalso; lia|]. destruct (Z.eqb_spec size 2); [exfalso; lia|]. destruct (Z.eqb_spec size 4); [exfalso; lia|]. destruct (Z.eqb_spec size 8); [exfalso; lia|discriminate]. }
  assert (B : u32 (size * 8) = 8 * size) by (unfold u32, wrapu; rewrite Z.mod_small; [lia|]; cbn in D; change (2 ^ 32) with 4294967296; lia).
  assert (B1 : 1 <= 8 * size <= 64) by (cbn in D; lia).
  unfold putValueNumber. rewrite B. split.
  - intros H. split; auto. destruct (Z.eqb_spec enc encSigned) as [He|He].
    + right. split; auto. destruct (ParseInt text (8 * size)) as [v|e] eqn:E; [|discriminate]. apply ParseInt_spec in E; auto. destruct E as [E1 E2]. exists v. split; auto. split; auto.
      destruct (u64_signed (8 * size) v B1 E2) as [S1 S2]. unfold PutInteger in H. rewrite He, S1 in H. change (encSigned =? encBool) with false in H. cbn [andb] in H. rewrite repeat_length, Z2Nat.id, Z.ltb_irrefl in H by lia.
      change (encSigned =? encSigned) with true in H. cbn [andb] in H.
      cbn in D. destruct D as [<-|[<-|[<-|[<-|[]]]]]; cbn [Z.eqb Pos.eqb] in H; try (destruct (_ || _) in H; [discriminate|]); injection H as <-.
      * unfold u8. change (wrapu 8 (u64 v)) with (wrapu (8 * 1) (u64 v)). rewrite S2. change (Z.to_nat 1) with 1%nat. rewrite put1; [reflexivity|]. change (2 ^ (8 * 1)) with 256. apply Z.mod_pos_bound. lia.
      * unfold u16. change (wrapu 16 (u64 v)) with (wrapu (8 * 2) (u64 v)). rewrite S2. now rewrite overwrite_zeros by (rewrite put_length; reflexivity).
      * unfold u32. change (wrapu 32 (u64 v)) with (wrapu (8 * 4) (u64 v)). rewrite S2. now rewrite overwrite_zeros by (rewrite put_length; reflexivity).
      * rewrite overwrite_zeros by (rewrite put_length; reflexivity). f_equal. 
    + left. split; auto. destruct (ParseUint text (8 * size)) as [v|e] eqn:E; [|discriminate]. apply ParseUint_spec in E; auto. destruct E as [E1 E2]. pose proof (numeral_nonneg _ _ E1) as Hv.
      assert (P : 2 ^ (8 * size) <= 2 ^ 64) by (apply Z.pow_le_mono_r; lia). assert (U : u64 v = v) by (apply wrapu_id; unfold in_u; lia). rewrite U in H. exists v. split; auto. split; auto.
      unfold PutInteger in H. replace (enc =? encSigned) with false in H by lia. cbn [andb] in H. rewrite repeat_length, Z2Nat.id, Z.ltb_irrefl in H by lia.
      split; [intros ->; destruct (Z.ltb_spec 1 v); [discriminate H|lia]|]. destruct ((enc =? encBool) && (1 <? v)); [discriminate|].
      cbn in D. destruct D as [<-|[<-|[<-|[<-|[]]]]]; cbn [Z.eqb Pos.eqb] in H; injection H as <-.
      * change (2 ^ (8 * 1)) with 256 in *. unfold u8, wrapu. change (2 ^ 8) with 256. rewrite Z.mod_small by lia. change (Z.to_nat 1) with 1%nat. rewrite put1 by lia. reflexivity.
      * unfold u16. rewrite wrapu_id by (unfold in_u; lia). now rewrite overwrite_zeros by (rewrite put_length; reflexivity).
      * unfold u32. rewrite wrapu_id by (unfold in_u; lia). now rewrite overwrite_zeros by (rewrite put_length; reflexivity).
      * now rewrite overwrite_zeros by (rewrite put_length; reflexivity).
  - intros [_ [(He & v & H1 & H2 & H3 & ->)|(He & v & H1 & H2 & ->)]].
    + replace (enc =? encSigned) with false by lia. assert (E : ParseUint text (8 * size) = Ok v) by (apply ParseUint_spec; auto). rewrite E. pose proof (numeral_nonneg _ _ H1) as Hv.
      assert (P : 2 ^ (8 * size) <= 2 ^ 64) by (apply Z.pow_le_mono_r; lia). assert (U : u64 v = v) by (apply wrapu_id; unfold in_u; lia). rewrite U.
      unfold PutInteger. replace (enc =? encSigned) with false by lia. cbn [andb]. rewrite repeat_length, Z2Nat.id, Z.ltb_irrefl by lia.
      replace ((enc =? encBool) && (1 <? v)) with false by (symmetry; destruct (Z.eqb_spec enc encBool); cbn; [specialize (H3 e)|]; auto; lia).
      cbn in D. destruct D as [<-|[<-|[<-|[<-|[]]]]]; cbn [Z.eqb Pos.eqb]; f_equal.
      * change (2 ^ (8 * 1)) with 256 in *. unfold u8, wrapu. change (2 ^ 8) with 256. rewrite Z.mod_small by lia. change (Z.to_nat 1) with 1%nat. rewrite put1 by lia. reflexivity.
      * unfold u16. rewrite wrapu_id by (unfold in_u; lia). now rewrite overwrite_zeros by (rewrite put_length; reflexivity).
      * unfold u32. rewrite wrapu_id by (unfold in_u; lia). now rewrite overwrite_zeros by (rewrite put_length; reflexivity).
      * now rewrite overwrite_zeros by (rewrite put_length; reflexivity).
    + rewrite He. change (encSigned =? encSigned) with true. assert (E : ParseInt text (8 * size) = Ok v) by (apply ParseInt_spec; auto). rewrite E.
      destruct (u64_signed (8 * size) v B1 H2) as [S1 S2]. unfold PutInteger. rewrite S1. change (encSigned =? encBool) with false. cbn [andb]. rewrite repeat_length, Z2Nat.id, Z.ltb_irrefl by lia.
      change (encSigned =? encSigned) with true. cbn [andb].
      cbn in D. destruct D as [<-|[<-|[<-|[<-|[]]]]]; cbn [Z.eqb Pos.eqb].
      * replace ((2 ^ (8 - 1) - 1 <? v) || (v <? - 2 ^ (8 - 1))) with false by lia. f_equal. unfold u8. change (wrapu 8 (u64 v)) with (wrapu (8 * 1) (u64 v)). rewrite S2. change (Z.to_nat 1) with 1%nat. rewrite put1; [reflexivity|]. change (2 ^ (8 * 1)) with 256. apply Z.mod_pos_bound. lia.
      * replace ((2 ^ (16 - 1) - 1 <? v) || (v <? - 2 ^ (16 - 1))) with false by lia. f_equal. unfold u16. change (wrapu 16 (u64 v)) with (wrapu (8 * 2) (u64 v)). rewrite S2. now rewrite overwrite_zeros by (rewrite put_length; reflexivity).
      * replace ((2 ^ (32 - 1) - 1 <? v) || (v <? - 2 ^ (32 - 1))) with false by lia. f_equal. unfold u32. change (wrapu 32 (u64 v)) with (wrapu (8 * 4) (u64 v)). rewrite S2. now rewrite overwrite_zeros by (rewrite put_length; reflexivity).
      * f_equal. rewrite overwrite_zeros by (rewrite put_length; reflexivity). f_equal.
Qed.

Lemma trimQuotesLeft_id : forall s, hd 0 s <> 34 -> trimQuotesLeft s = s.
Proof. intros [|b s] H; auto. cbn in *. destruct (Z.eqb_spec b 34); [contradiction|reflexivity]. Qed.
Lemma hd_rev_last : forall (s : str) d, hd d (rev s) = last s d.
Proof. intros s d. induction s as [|x s IH] using rev_ind; [reflexivity|]. rewrite rev_app_distr, last_last. reflexivity. Qed.
Lemma hd_app_ne : forall (s t : str) d, s <> [] -> hd d (s ++ t) = hd d s.
Proof. intros [|x s] t d H; [contradiction|reflexivity]. Qed.
Lemma trimQuotes_plain : forall s, hd 0 s <> 34 -> last s 0 <> 34 -> trimQuotes (34 :: s ++ [34]) = s.
Proof.
  intros s H1 H2. unfold trimQuotes. destruct s as [|x s0]; [reflexivity|]. set (s := x :: s0) in *.
  assert (E : trimQuotesLeft (34 :: s ++ [34]) = s ++ [34]). { cbn [trimQuotesLeft]. rewrite Z.eqb_refl. apply trimQuotesLeft_id. rewrite hd_app_ne by discriminate. exact H1. }
  rewrite E, rev_app_distr. cbn [rev app]. cbn [trimQuotesLeft]. rewrite Z.eqb_refl, trimQuotesLeft_id by (rewrite hd_rev_last; exact H2). apply rev_involutive.
Qed.
Lemma quoted : forall t, hasPrefix [34] t = true -> hasPrefix [34] (rev t) = true -> t <> [34] -> exists s, t = 34 :: s ++ [34].
Proof.
  intros t H1 H2 H3. destruct t as [|a t]; [discriminate|]. cbn [hasPrefix] in H1. destruct (Z.eqb_spec 34 a) as [<-|]; [|discriminate]. destruct (list_eq_dec Z.eq_dec t []) as [->|Hne]; [now elim H3|]. destruct (exists_last Hne) as (r & b & ->).
  exists r. f_equal. cbn [rev] in H2. rewrite rev_app_distr in H2. cbn [rev app hasPrefix] in H2. destruct (Z.eqb_spec 34 b) as [<-|]; [reflexivity|discriminate].
Qed.
Lemma hasPrefix_quoted : forall s, hasPrefix [34] (34 :: s ++ [34]) = true /\ hasPrefix [34] (rev (34 :: s ++ [34])) = true.
Proof. intros s. split; [reflexivity|]. cbn [rev]. rewrite rev_app_distr. reflexivity. Qed.
Lemma copyTo_zeros : forall n s, (length s <= n)%nat -> copyTo (repeat 0 n) s = s ++ repeat 0 (n - length s).
Proof.
  intros n s H. unfold copyTo. rewrite repeat_length, Nat.min_r by lia. rewrite firstn_all. f_equal. revert s H. induction n as [|n IH]; intros [|x s] H; cbn in *; auto; try lia. apply IH. lia.
Qed.
Lemma firstn_rep : forall k n, (k <= n)%nat -> firstn k (repeat 0 n) = repeat 0 k.
Proof. induction k as [|k IH]; intros [|n] H; cbn; auto; try lia. f_equal. apply IH. lia. Qed.
Lemma firstn_pad : forall n (s : str), firstn n (s ++ repeat 0 n) = firstn n s ++ repeat 0 (n - length (firstn n s)).
Proof. intros n s. rewrite firstn_app, firstn_rep by lia. f_equal. f_equal. rewrite firstn_length. lia. Qed.

(** what a text may look like, to tell the cases apart *)
Lemma numeral_not_special : forall text v, numeral text v -> text <> Y /\ text <> N /\ text <> M /\ hasPrefix [34] text = false.
Proof. intros text v H. destruct (numeral_first _ _ H) as (c & t & -> & Hc). unfold Y, N, M. repeat split; try (intros E; injection E; lia). cbn [hasPrefix]. destruct (Z.eqb_spec 34 c); [lia|reflexivity]. Qed.
Lemma signed_not_special : forall text v, signed_numeral text v -> text <> Y /\ text <> N /\ text <> M /\ hasPrefix [34] text = false.
Proof. intros text v H. destruct (signed_first _ _ H) as (c & t & -> & Hc). unfold Y, N, M. repeat split; try (intros E; injection E; lia). cbn [hasPrefix]. destruct (Z.eqb_spec 34 c); [lia|reflexivity]. Qed.


Ltac kill_num := match goal with
  | X : numeral ?t _ |- _ => exfalso; pose proof (numeral_not_special _ _ X) as (? & ? & ? & ?); congruence
  | X : signed_numeral ?t _ |- _ => exfalso; pose proof (signed_not_special _ _ X) as (? & ? & ? & ?); congruence end.
Lemma PutValue_spec : forall bo t text d, type_ok t -> 0 < sizeof t -> Z.of_nat (length text) < 2 ^ 32 -> plain_text text ->
  PutValue bo (repeat 0 (Z.to_nat (sizeof t))) t text = Ok d <-> represents bo (underlying t) text d.
Proof.
  intros bo t text d [Ht Ha] Hpos Hl [Hq Hp]. unfold PutValue. rewrite <- sizeof_underlying in *. remember (underlying t) as u eqn:Equ. clear Equ. 
  destruct (str_eqb_spec text Y) as [E|NY]; cbn [orb].
  { subst text. unfold putValueTri. split.
    - destruct u as [size enc|name size|elem n|w|]; try discriminate.
      + destruct (Z.eqb_spec enc encBool) as [->|]; [|discriminate]. destruct (Z.eqb_spec size 1) as [->|]; [|discriminate]. cbn. intros H. injection H as <-. constructor.
      + destruct (str_eqb_spec name TRISTATE) as [->|]; [|discriminate]. cbn [negb]. rewrite repeat_length, Z2Nat.id by lia. cbn [sizeof]. destruct (Z.eqb_spec size 4) as [->|]; [|discriminate]. cbn. intros H. injection H as <-. constructor.
    - intros H. inversion H; subst; try kill_num; reflexivity. }
  destruct (str_eqb_spec text N) as [E|NN]; cbn [orb].
  { subst text. unfold putValueTri. split.
    - destruct u as [size enc|name size|elem n|w|]; try discriminate.
      + destruct (Z.eqb_spec enc encBool) as [->|]; [|discriminate]. destruct (Z.eqb_spec size 1) as [->|]; [|discriminate]. cbn. intros H. injection H as <-. constructor.
      + destruct (str_eqb_spec name TRISTATE) as [->|]; [|discriminate]. cbn [negb]. rewrite repeat_length, Z2Nat.id by lia. cbn [sizeof]. destruct (Z.eqb_spec size 4) as [->|]; [|discriminate]. cbn. intros H. injection H as <-. constructor.
    - intros H. inversion H; subst; try kill_num; reflexivity. }
  destruct (str_eqb_spec text M) as [E|NM]; cbn [orb].
  { subst text. unfold putValueTri. split.
    - destruct u as [size enc|name size|elem n|w|]; try discriminate.
      + destruct (Z.eqb_spec enc encBool) as [->|]; [|discriminate]. destruct (Z.eqb_spec size 1) as [->|]; [|discriminate]. cbn. discriminate.
      + destruct (str_eqb_spec name TRISTATE) as [->|]; [|discriminate]. cbn [negb]. rewrite repeat_length, Z2Nat.id by lia. cbn [sizeof]. destruct (Z.eqb_spec size 4) as [->|]; [|discriminate]. cbn. intros H. injection H as <-. constructor.
    - intros H. inversion H; subst; try kill_num; reflexivity. }
  destruct (hasPrefix [34] text) eqn:Eq.
  { unfold putValueString. split.
    - destruct u as [size enc|name size|elem n|w|]; try discriminate. cbn [sizeof] in *. destruct (underlying elem) as [es enc| | | |] eqn:Ee; try discriminate.
      destruct (Z.eqb_spec es 1) as [->|]; [|discriminate]. destruct (Z.eqb_spec enc encBool); [discriminate|]. rewrite Eq. cbn [negb orb].
      destruct (hasPrefix [34] (rev text)) eqn:Eq2; [|discriminate]. cbn [negb]. destruct (quoted text Eq Eq2 Hq) as (s & ->). destruct (Hp s eq_refl) as [P1 P2]. rewrite trimQuotes_plain by auto.
      assert (Es : sizeof elem = 1) by (rewrite <- sizeof_underlying, Ee; reflexivity). rewrite Es, Z.mul_1_r in *.
      cbn [length] in Hl. rewrite app_length in Hl. cbn [length] in Hl. unfold u32. rewrite wrapu_id by (unfold in_u; lia). intros H. injection H as <-.
      replace (copyTo _ _) with (firstn (Z.to_nat n) (s ++ repeat 0 (Z.to_nat n))); [now apply rep_string with (enc := enc)|].
      rewrite firstn_pad. destruct (Z.leb_spec n (Z.of_nat (length s))).
      + rewrite copyTo_zeros; [reflexivity|]. rewrite firstn_length. lia.
      + rewrite firstn_all2 by lia. rewrite copyTo_zeros; [reflexivity|lia].
    - intros H. inversion H; subst; try discriminate Eq; try kill_num.
      destruct (Hp s eq_refl) as [P1 P2]. cbn [sizeof] in *. rewrite H0 in *. destruct (Z.eqb_spec enc encBool); [contradiction|]. cbn [negb orb Z.eqb Pos.eqb]. rewrite Eq.
      destruct (hasPrefix_quoted s) as [_ ->]. cbn [negb orb]. rewrite trimQuotes_plain by auto.
      assert (Es : sizeof elem = 1) by (rewrite <- sizeof_underlying, H0; reflexivity). rewrite Es, Z.mul_1_r in *.
      cbn [length] in Hl. rewrite app_length in Hl. cbn [length] in Hl. unfold u32. rewrite wrapu_id by (unfold in_u; lia). f_equal.
      rewrite firstn_pad. destruct (Z.leb_spec n (Z.of_nat (length s))).
      + rewrite copyTo_zeros; [reflexivity|]. rewrite firstn_length. lia.
      + rewrite firstn_all2 by lia. rewrite copyTo_zeros; [reflexivity|lia]. }
  destruct u as [size enc|name size|elem n|w|]; [|split; [unfold putValueNumber; discriminate|]; clear Ht Ha Hpos Hl Hp; intros H; inversion H; subst; first [elim NY; reflexivity|elim NN; reflexivity|elim NM; reflexivity|discriminate Eq]..].
  cbn [sizeof] in *. rewrite put_number_spec by lia. split.
  - intros [Hin [(He & v & H1 & H2 & H3 & ->)|(-> & v & H1 & H2 & ->)]]; [now constructor|now constructor].
  - intros H. clear Ht Ha Hpos Hl Hp; inversion H; subst; try (elim NY; reflexivity); try (elim NN; reflexivity).
    + split; auto. left. split; auto. exists v. auto.
    + split; auto. right. split; auto. exists v. auto.
Qed.
Lemma represents_length : forall bo t text d, type_ok t -> 0 < sizeof t -> represents bo (underlying t) text d -> Z.of_nat (length d) = sizeof t.
Proof.
  intros bo t text d [Ht Ha] Hpos H. rewrite <- sizeof_underlying in *. remember (underlying t) as u eqn:Eu. clear Eu.
  destruct H; rewrite ?put_length; cbn [sizeof] in *; try reflexivity; try (rewrite Z2Nat.id; lia).
  rewrite <- (sizeof_underlying elem), H in *. cbn [sizeof] in *. rewrite firstn_length, app_length, repeat_length. lia.
Qed.
