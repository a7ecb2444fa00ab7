(** Proofs about resolveKconfig (property C74). *)
From Coq Require Import Permutation.
From Verif.Base Require Import GoInt.
From Verif.Internal Require Import Kallsyms KallsymsSpec KallsymsProof Kconfig KconfigSpec KconfigParse KconfigProof.

(** ** Writing variables *)
Lemma nth_skipn : forall n (l : list Z) i, nth i (skipn n l) 0 = nth (n + i) l 0.
Proof. induction n as [|n IH]; intros [|x l] i; cbn; auto. now destruct i. Qed.
Lemma skipn_skipn : forall a b (l : list Z), skipn a (skipn b l) = skipn (b + a) l.
Proof. intros a b. induction b as [|b IH]; intros l; [reflexivity|]. destruct l as [|x l]; [now rewrite !skipn_nil|]. cbn [skipn plus]. apply IH. Qed.
Lemma NoDup_map_filter : forall (f : kvar -> bool) (vars : list kvar), NoDup (map kv_name vars) -> NoDup (map kv_name (filter f vars)).
Proof.
  intros f vars. induction vars as [|v vars IH]; cbn [map filter]; intros H; auto. inversion H; subst. destruct (f v); auto. cbn [map]. constructor; auto.
  intros Hin. apply in_map_iff in Hin. destruct Hin as (w & E & Hw). apply filter_In in Hw. apply H2. rewrite <- E. apply List.in_map. tauto.
Qed.
Lemma nth_write : forall data off b i, 0 <= off -> off + Z.of_nat (length b) <= Z.of_nat (length data) ->
  nth i (write data off b) 0 = if (off <=? Z.of_nat i) && (Z.of_nat i <? off + Z.of_nat (length b)) then nth (i - Z.to_nat off) b 0 else nth i data 0.
Proof.
  intros data off b i Ho Hb. unfold write. assert (L : length (firstn (Z.to_nat off) data) = Z.to_nat off) by (rewrite firstn_length; lia).
  destruct (Z.leb_spec off (Z.of_nat i)); cbn [andb].
  - rewrite app_nth2 by lia. rewrite L. destruct (Z.ltb_spec (Z.of_nat i) (off + Z.of_nat (length b))).
    + rewrite app_nth1 by lia. reflexivity.
    + rewrite app_nth2 by lia. rewrite nth_skipn. f_equal. lia.
  - rewrite app_nth1 by lia. rewrite <- (firstn_skipn (Z.to_nat off) data) at 2. rewrite app_nth1 by lia. reflexivity.
Qed.
Lemma length_write : forall data off b, 0 <= off -> off + Z.of_nat (length b) <= Z.of_nat (length data) -> length (write data off b) = length data.
Proof. intros data off b Ho Hb. unfold write. rewrite !app_length, firstn_length, skipn_length. lia. Qed.
Lemma nth_firstn0 : forall n (l : list Z) i, nth i (firstn n l) 0 = if Nat.ltb i n then nth i l 0 else 0.
Proof.
  induction n as [|n IH]; intros l i; [now destruct i|]. destruct l as [|x l]; [cbn [firstn]; destruct i; destruct (Nat.ltb _ _); reflexivity|]. destruct i as [|i]; [reflexivity|].
  cbn [firstn nth]. rewrite IH. reflexivity.
Qed.
Lemma nth_part : forall d v i, 0 <= kv_off v -> nth i (part d v) 0 = if Nat.ltb i (Z.to_nat (kv_size v)) then nth (Z.to_nat (kv_off v) + i) d 0 else 0.
Proof. intros d v i H. unfold part. rewrite nth_firstn0, nth_skipn. reflexivity. Qed.
Lemma length_part : forall d v, 0 <= kv_off v -> 0 <= kv_size v -> kv_off v + kv_size v <= Z.of_nat (length d) -> length (part d v) = Z.to_nat (kv_size v).
Proof. intros d v H1 H2 H3. unfold part. rewrite firstn_length, skipn_length. lia. Qed.
Lemma nth_repeat0 : forall n i, nth i (repeat 0 n) 0 = 0.
Proof. induction n as [|n IH]; intros [|i]; cbn; auto. Qed.

Definition fits (size : Z) (v : kvar) : Prop := 0 <= kv_off v /\ kv_off v + kv_size v <= size /\ 0 < kv_size v.

Section inv.
  Variables (bo : byteorder) (version : option Z) (wrapper : option bool) (ls : option (list str)) (size : Z).
  Local Notation value := (has_value bo version wrapper ls).
  Local Notation cont := (contents bo version wrapper ls size).

  Lemma part_ext : forall d d' v, (forall i, inside v i -> nth i d 0 = nth i d' 0) -> fits size v -> Z.of_nat (length d) = size -> Z.of_nat (length d') = size -> part d v = part d' v.
  Proof.
    intros d d' v H (F1 & F2 & F3) L L'. apply nth_ext with (d := 0) (d' := 0); [rewrite !length_part by lia; reflexivity|]. intros i Hi. rewrite length_part in Hi by lia. rewrite !nth_part by lia.
    destruct (Nat.ltb_spec i (Z.to_nat (kv_size v))); [|lia]. apply H. unfold inside. lia.
  Qed.
  Lemma part_write : forall d v b, fits size v -> Z.of_nat (length d) = size -> Z.of_nat (length b) = kv_size v -> part (write d (kv_off v) b) v = b.
  Proof.
    intros d v b (F1 & F2 & F3) L Lb. apply nth_ext with (d := 0) (d' := 0); [rewrite length_part; rewrite ?length_write; lia|]. intros i Hi. rewrite length_part in Hi by (rewrite ?length_write; lia).
    rewrite nth_part by lia. destruct (Nat.ltb_spec i (Z.to_nat (kv_size v))); [|lia]. rewrite nth_write by lia.
    replace ((kv_off v <=? _) && _) with true by lia. f_equal. lia.
  Qed.
  Lemma part_zero : forall done d v, cont done d -> fits size v -> (forall w, In w done -> disjoint v w) -> part d v = repeat 0 (Z.to_nat (kv_size v)).
  Proof.
    intros done d v [C1 C2 C3] (F1 & F2 & F3) Hd. apply nth_ext with (d := 0) (d' := 0); [rewrite length_part, repeat_length by lia; reflexivity|]. intros i Hi. rewrite length_part in Hi by lia.
    rewrite nth_part by lia. destruct (Nat.ltb_spec i (Z.to_nat (kv_size v))); [|lia]. rewrite nth_repeat0. apply C3. intros w Hw [I1 I2]. destruct (Hd w Hw); lia.
  Qed.
  Lemma write_contents : forall done d v b, cont done d -> fits size v -> (forall w, In w done -> fits size w /\ disjoint v w) -> Z.of_nat (length b) = kv_size v -> value v b ->
    cont (v :: done) (write d (kv_off v) b).
  Proof.
    intros done d v b [C1 C2 C3] F Hd Lb Hb. pose proof F as (F1 & F2 & F3). assert (L : Z.of_nat (length (write d (kv_off v) b)) = size) by (rewrite length_write; lia). constructor; auto.
    - intros w [<-|Hw]; [now rewrite part_write|]. destruct (Hd w Hw) as [Fw Dw]. replace (part (write d (kv_off v) b) w) with (part d w); [now apply C2|].
      apply part_ext; auto. intros i [I1 I2]. rewrite nth_write by lia. destruct ((kv_off v <=? Z.of_nat i) && (Z.of_nat i <? kv_off v + Z.of_nat (length b))) eqn:E; auto. exfalso. destruct Dw; lia.
    - intros i Hi. rewrite nth_write by lia. destruct ((kv_off v <=? Z.of_nat i) && (Z.of_nat i <? kv_off v + Z.of_nat (length b))) eqn:E.
      + exfalso. apply (Hi v); [now left|]. unfold inside. lia.
      + apply C3. intros w Hw. apply Hi. now right.
  Qed.
  Lemma contents_nil : 0 <= size -> cont [] (repeat 0 (Z.to_nat size)).
  Proof. intros H. constructor; [rewrite repeat_length; lia|intros v []|]. intros i _. apply nth_repeat0. Qed.
  Lemma contents_incl : forall a b d, (forall v, In v a <-> In v b) -> cont a d -> cont b d.
  Proof. intros a b d H [C1 C2 C3]. constructor; auto; [intros v Hv; apply C2; now apply H|]. intros i Hi. apply C3. intros v Hv. apply Hi. now apply H. Qed.

  (** ** The value of the wrapper *)
  Lemma PutInteger_bit : forall data sz enc (w : bool), 0 < sz <= Z.of_nat (length data) ->
    match PutInteger bo data sz enc (if w then 1 else 0) with
    | Ok d => In sz [1; 2; 4; 8] /\ d = put bo (Z.to_nat sz) (if w then 1 else 0) ++ skipn (Z.to_nat sz) data
    | Err e => ~ In sz [1; 2; 4; 8] /\ e <> VPanic
    end.
  Proof.
    intros data sz enc w H. unfold PutInteger. replace (1 <? (if w then 1 else 0)) with false by (destruct w; reflexivity). rewrite andb_false_r. destruct (Z.ltb_spec (Z.of_nat (length data)) sz); [lia|].
    assert (S : forall k, (enc =? encSigned) && ((2 ^ (k - 1) - 1 <? i64 (if w then 1 else 0)) || (i64 (if w then 1 else 0) <? - 2 ^ (k - 1))) = true -> k < 2 \/ False).
    { intros k Hk. left. apply andb_true_iff in Hk. destruct Hk as [_ Hk]. replace (i64 (if w then 1 else 0)) with (if w then 1 else 0) in Hk by (destruct w; reflexivity).
      destruct (Z_lt_le_dec k 2); auto. assert (2 ^ 1 <= 2 ^ (k - 1)) by (apply Z.pow_le_mono_r; lia). change (2 ^ 1) with 2 in H1. destruct w; lia. }
    destruct (Z.eqb_spec sz 1) as [->|]. { destruct (_ && _) eqn:E; [destruct (S 8 E); [lia|contradiction]|]. split; [now left|]. destruct w, bo; reflexivity. }
    destruct (Z.eqb_spec sz 2) as [->|]. { destruct (_ && _) eqn:E; [destruct (S 16 E); [lia|contradiction]|]. split; [cbn; tauto|]. destruct w, bo; reflexivity. }
    destruct (Z.eqb_spec sz 4) as [->|]. { destruct (_ && _) eqn:E; [destruct (S 32 E); [lia|contradiction]|]. split; [cbn; tauto|]. destruct w, bo; reflexivity. }
    destruct (Z.eqb_spec sz 8) as [->|]; [split; [cbn; tauto|]; destruct w, bo; reflexivity|]. split; [cbn; lia|discriminate].
  Qed.
  Lemma write_tail : forall (data b : list Z) off, 0 <= off -> off + Z.of_nat (length b) <= Z.of_nat (length data) -> write data off (b ++ skipn (length b) (skipn (Z.to_nat off) data)) = write data off b.
  Proof.
    intros data b off Ho Hb. unfold write. f_equal. rewrite <- app_assoc. f_equal. rewrite skipn_skipn. set (t := skipn (Z.to_nat off + length b) data).
    assert (Lt : length t = (length data - (Z.to_nat off + length b))%nat) by (unfold t; apply skipn_length).
    rewrite (skipn_all2 data (n := (Z.to_nat off + length (b ++ t))%nat)) by (rewrite app_length; lia). apply app_nil_r.
  Qed.

  (** ** The loop over the variables *)
  Variable all : list kvar.
  Hypothesis all_fits : forall v, In v all -> fits size v /\ kv_size v = sizeof (kv_type v) /\ type_ok (kv_type v).
  Hypothesis all_disjoint : forall v w, In v all -> In w all -> v <> w -> disjoint v w.

  Definition isSpecial (v : kvar) : bool := str_eqb (kv_name v) KVERSION || str_eqb (kv_name v) KWRAPPER.
  Lemma isSpecial_spec : forall v, isSpecial v = true <-> special v.
  Proof. intros v. unfold isSpecial, special. destruct (str_eqb_spec (kv_name v) KVERSION), (str_eqb_spec (kv_name v) KWRAPPER); cbn [orb]; split; auto; try discriminate; tauto. Qed.
  Definition panic (e : cerr) : Prop := match e with CPanic _ => True | CPut _ VPanic => True | _ => False end.

  Lemma specials_spec : forall vars done data, incl vars all -> incl done all -> NoDup vars -> (forall v, In v vars -> ~ In v done) -> cont done data ->
    match specials bo version wrapper data vars with
    | Ok (data', cs) => cs = filter (fun v => negb (isSpecial v)) vars /\ cont (filter isSpecial vars ++ done) data'
    | Err e => ~ panic e /\ exists v, In v vars /\ special v /\ forall b, ~ value v b
    end.
  Proof.
    induction vars as [|v vars IH]; intros done data Hv Hd Hn Hnin C; cbn [specials].
    { split; auto. } 
    inversion Hn as [|? ? Hn1 Hn2]; subst.
    assert (Hva : In v all) by (apply Hv; now left). destruct (all_fits v Hva) as (F & Fs & Ft). pose proof F as (F1 & F2 & F3). pose proof (con_size _ _ _ _ _ _ _ C) as L.
    assert (Hdis : forall w, In w done -> fits size w /\ disjoint v w). { intros w Hw. split; [apply all_fits; auto|]. apply all_disjoint; auto. intros ->. apply (Hnin w); auto. now left. }
    assert (NSp : KVERSION <> KWRAPPER) by discriminate.
    assert (Step : forall b, Z.of_nat (length b) = kv_size v -> value v b -> special v ->
      match specials bo version wrapper (write data (kv_off v) b) vars with
      | Ok (data', cs) => cs = filter (fun v => negb (isSpecial v)) (v :: vars) /\ cont (filter isSpecial (v :: vars) ++ done) data'
      | Err e => ~ panic e /\ exists v0, In v0 (v :: vars) /\ special v0 /\ forall b, ~ value v0 b
      end).
    { intros b Lb Hb Sv. assert (Sv' : isSpecial v = true) by now apply isSpecial_spec. specialize (IH (v :: done) (write data (kv_off v) b)).
      assert (Pre : incl vars all /\ incl (v :: done) all /\ NoDup vars /\ (forall w, In w vars -> ~ In w (v :: done))).
      { split; [intros w Hw; apply Hv; now right|]. split; [intros w [<-|Hw]; auto|]. split; auto. intros w Hw [<-|Hw2]; [contradiction|]. apply (Hnin w); auto. now right. }
      destruct Pre as (P1 & P2 & P3 & P4). specialize (IH P1 P2 P3 P4 (write_contents done data v b C F Hdis Lb Hb)). destruct (specials bo version wrapper (write data (kv_off v) b) vars) as [[data' cs]|e].
      - destruct IH as [-> IH]. cbn [filter]. rewrite Sv'. cbn [negb]. split; auto. revert IH. apply contents_incl. intros w. rewrite !in_app_iff. cbn [In]. tauto.
      - destruct IH as [N1 (w & W1 & W2 & W3)]. split; auto. exists w. split; [now right|]. auto. }
    assert (Fail : forall e, ~ panic e -> special v -> (forall b, ~ value v b) -> ~ panic e /\ exists v0, In v0 (v :: vars) /\ special v0 /\ forall b, ~ value v0 b) by (intros e N1 N2 N3; split; auto; exists v; split; [now left|]; auto).
    destruct (str_eqb_spec (kv_name v) KVERSION) as [Ev|Ev].
    - assert (Sv : special v) by (now left).
      assert (NV : forall b, value v b -> exists enc n, kv_type v = KInt 4 enc /\ version = Some n). { intros b Hb. inversion Hb; subst; [eauto|congruence|contradiction]. }
      destruct (kv_type v) as [sz enc|? ?|? ?|?|] eqn:Et; try (apply Fail; auto; intros b Hb; destruct (NV b Hb) as (? & ? & ? & ?); discriminate).
      destruct (Z.eq_dec sz 4) as [->|Hsz].
      2:{ replace (match sz with 4 => _ | _ => _ end) with (@Err cerr (list Z * list kvar) (CType (kv_name v))); [apply Fail; auto; intros b Hb; destruct (NV b Hb) as (? & ? & ? & ?); congruence|].
          destruct sz as [|p|p]; auto. destruct p as [p|p|]; auto. destruct p as [p|p|]; auto. destruct p as [p|p|]; auto. now elim Hsz. }
      destruct version as [n|]; [|apply Fail; auto; intros b Hb; destruct (NV b Hb) as (? & ? & ? & ?); discriminate].
      unfold sliceFrom. destruct (Z.leb_spec (kv_off v) (Z.of_nat (length data))); [|lia]. cbn [sizeof] in Fs. assert (L4 : (4 <= length (skipn (Z.to_nat (kv_off v)) data))%nat) by (rewrite skipn_length; lia).
      destruct (skipn (Z.to_nat (kv_off v)) data) as [|x1 [|x2 [|x3 [|x4 r]]]]; cbn [length] in L4; try lia. apply Step; auto; [rewrite put_length; lia|]. now apply hv_version with enc.
    - destruct (str_eqb_spec (kv_name v) KWRAPPER) as [Ew|Ew].
      + assert (Sv : special v) by (now right).
        assert (NV : forall b, value v b -> exists sz enc w, kv_type v = KInt sz enc /\ In sz [1; 2; 4; 8] /\ wrapper = Some w). { intros b Hb. inversion Hb; subst; [congruence|eauto 10|contradiction]. }
        destruct (kv_type v) as [sz enc|? ?|? ?|?|] eqn:Et; try (apply Fail; auto; intros b Hb; destruct (NV b Hb) as (? & ? & ? & ? & ?); discriminate).
        destruct wrapper as [w|] eqn:Ewr; [|apply Fail; auto; intros b Hb; destruct (NV b Hb) as (? & ? & ? & ? & ? & ?); discriminate].
        unfold sliceFrom. destruct (Z.leb_spec (kv_off v) (Z.of_nat (length data))); [|lia]. cbn [sizeof] in Fs.
        pose proof (PutInteger_bit (skipn (Z.to_nat (kv_off v)) data) sz enc w) as P. rewrite skipn_length in P. specialize (P ltac:(lia)).
        destruct (PutInteger bo (skipn (Z.to_nat (kv_off v)) data) sz enc (if w then 1 else 0)) as [d|e].
        * destruct P as [P ->]. assert (Lp : Z.of_nat (length (put bo (Z.to_nat sz) (if w then 1 else 0))) = sz) by (rewrite put_length; lia).
          assert (Hb : has_value bo version (Some w) ls v (put bo (Z.to_nat sz) (if w then 1 else 0))) by (apply hv_wrapper with enc; auto). remember (put bo (Z.to_nat sz) (if w then 1 else 0)) as p eqn:Ep. clear Ep.
          replace (Z.to_nat sz) with (length p) by lia. rewrite write_tail by lia. apply Step; auto. lia.
        * destruct P as [P Pe]. apply Fail; auto; [destruct e; cbn; auto; contradiction|]. intros b Hb. destruct (NV b Hb) as (? & ? & ? & E & ? & ?). injection E as -> ->. contradiction.
      + assert (Sv : ~ special v) by (intros [?|?]; contradiction). assert (Sv' : isSpecial v = false) by (apply not_true_iff_false; now rewrite isSpecial_spec).
        specialize (IH done data). destruct (specials bo version wrapper data vars) as [[data' cs]|e].
        * cbn [filter]. rewrite Sv'. cbn [negb]. destruct IH as [-> IH]; auto; [intros w Hw; apply Hv; now right|intros w Hw; apply Hnin; now right].
        * destruct IH as [N1 (w & W1 & W2 & W3)]; auto; [intros w Hw; apply Hv; now right|intros w Hw; apply Hnin; now right|]. split; auto. exists w. split; [now right|]. auto.
  Qed.

  Lemma no_panic : forall data t text, data <> [] -> PutValue bo data t text <> Err VPanic.
  Proof.
    intros data t text Hd. unfold PutValue, putValueTri, putValueString, putValueNumber, PutInteger.
    destruct (_ || _). { destruct (underlying t); try discriminate. - destruct (negb _); [discriminate|]. destruct (negb _); [discriminate|]. destruct data; [contradiction|]. destruct (str_eqb _ _); [discriminate|]. destruct (str_eqb _ _); discriminate.
      - destruct (negb _); [discriminate|]. destruct (negb _); [discriminate|]. repeat (destruct (str_eqb _ _); [discriminate|]). discriminate. }
    destruct (hasPrefix _ _). { destruct (underlying t) as [| |elem ?| |]; try discriminate. destruct (underlying elem); try discriminate. repeat (destruct (_ || _); [discriminate|]). discriminate. }
    destruct (underlying t) as [sz enc| | | |]; try discriminate. destruct (if enc =? encSigned then _ else _); [|discriminate].
    destruct (_ && _); [discriminate|]. destruct (_ <? _); [discriminate|]. destruct (sz =? 1); [destruct (_ && _); discriminate|]. destruct (sz =? 2); [destruct (_ && _); discriminate|]. destruct (sz =? 4); [destruct (_ && _); discriminate|]. destruct (sz =? 8); discriminate.
  Qed.
  Lemma putAll_spec : forall kernel vars done data, size < 2 ^ 32 ->
    (forall v text, In v vars -> cget kernel (kv_name v) = Some text -> Z.of_nat (length text) < 2 ^ 32 /\ plain_text text) ->
    (forall v text, In v vars -> cget kernel (kv_name v) = Some text <-> exists f, ls = Some f /\ first_value f (kv_name v) text) ->
    (forall v, In v vars -> ~ special v) ->
    incl vars all -> incl done all -> NoDup vars -> (forall v, In v vars -> ~ In v done) -> cont done data ->
    match putAll bo data kernel vars with
    | Ok data' => cont (vars ++ done) data'
    | Err e => ~ panic e /\ exists v, In v vars /\ forall b, ~ value v b
    end.
  Proof.
    intros kernel. induction vars as [|v vars IH]; intros done data Hs Ht Hk Hsp Hv Hd Hn Hnin C; cbn [putAll]; [exact C|].
    inversion Hn as [|? ? Hn1 Hn2]; subst.
    assert (Hva : In v all) by (apply Hv; now left). destruct (all_fits v Hva) as (F & Fs & Ft). pose proof F as (F1 & F2 & F3). pose proof (con_size _ _ _ _ _ _ _ C) as L.
    assert (Hdis : forall w, In w done -> fits size w /\ disjoint v w). { intros w Hw. split; [apply all_fits; auto|]. apply all_disjoint; auto. intros ->. apply (Hnin w); auto. now left. }
    assert (Sv : ~ special v) by (apply Hsp; now left).
    assert (Fail : forall e, ~ panic e -> (forall b, ~ value v b) -> ~ panic e /\ exists v0, In v0 (v :: vars) /\ forall b, ~ value v0 b) by (intros e N1 N2; split; auto; exists v; split; [now left|]; auto).
    assert (NV : forall b, value v b -> exists text, cget kernel (kv_name v) = Some text /\ represents bo (underlying (kv_type v)) text b).
    { intros b Hb. inversion Hb; subst; [exfalso; apply Sv; now left|exfalso; apply Sv; now right|]. exists text. split; auto. apply Hk; [now left|]. eauto. }
    destruct (cget kernel (kv_name v)) as [text|] eqn:Eg.
    2:{ apply Fail; auto. intros b Hb. destruct (NV b Hb) as (? & ? & _). discriminate. }
    destruct (Ht v text (or_introl eq_refl) Eg) as [Hlen Hplain].
    unfold slice. assert (U : u32 (kv_off v + kv_size v) = kv_off v + kv_size v) by (apply wrapu_id; unfold in_u; lia). rewrite U.
    replace ((kv_off v <=? kv_off v + kv_size v) && (kv_off v + kv_size v <=? Z.of_nat (length data))) with true by lia. replace (kv_off v + kv_size v - kv_off v) with (kv_size v) by lia.
    fold (part data v). rewrite (part_zero done data v C F) by (intros w Hw; apply Hdis; auto). rewrite Fs.
    destruct (PutValue bo (repeat 0 (Z.to_nat (sizeof (kv_type v)))) (kv_type v) text) as [b|e] eqn:Ep.
    - apply PutValue_spec in Ep; auto; [|lia]. pose proof (represents_length _ _ _ _ Ft ltac:(lia) Ep) as Lb.
      assert (Hb : value v b). { destruct (proj1 (Hk v text (or_introl eq_refl)) Eg) as (f & Ef & Hf). now apply hv_option with f text. }
      specialize (IH (v :: done) (write data (kv_off v) b) Hs). assert (C' : cont (v :: done) (write data (kv_off v) b)) by (apply write_contents; auto; lia).
      assert (IH' := IH (fun w t Hw => Ht w t (or_intror Hw)) (fun w t Hw => Hk w t (or_intror Hw)) (fun w Hw => Hsp w (or_intror Hw)) (fun w Hw => Hv w (or_intror Hw))). clear IH.
      specialize (IH' ltac:(intros w [<-|Hw]; auto) Hn2 ltac:(intros w Hw [<-|Hw2]; [contradiction|apply (Hnin w); auto; now right]) C').
      destruct (putAll bo (write data (kv_off v) b) kernel vars).
      + revert IH'. apply contents_incl. intros w. cbn [app In]. rewrite !in_app_iff. cbn [In]. tauto.
      + destruct IH' as [N1 (w & W1 & W2)]. split; auto. exists w. split; [now right|]. auto.
    - apply Fail.
      + cbn [panic]. destruct e; auto. exfalso. revert Ep. apply no_panic. destruct (Z.to_nat (sizeof (kv_type v))) eqn:E; [lia|discriminate].
      + intros b Hb. destruct (NV b Hb) as (text' & E1 & E2). injection E1 as <-. apply PutValue_spec in E2; auto; [|lia]. congruence.
  Qed.
End inv.

(** ** The main theorem *)
Lemma layout_facts : forall size vars, layout size vars ->
  NoDup vars /\ (forall v, In v vars -> fits size v /\ kv_size v = sizeof (kv_type v) /\ type_ok (kv_type v)) /\ (forall v w, In v vars -> In w vars -> v <> w -> disjoint v w).
Proof.
  intros size vars [L1 L2 L3 L4]. split; [now apply NoDup_map_inv in L2|]. split.
  - intros v Hv. rewrite Forall_forall in L3. destruct (L3 v Hv) as (A & B & C & D & E). unfold fits. auto.
  - intros v w Hv Hw Hne. destruct (ForallOrdPairs_In L4 v w Hv Hw) as [E|[E|E]]; [contradiction|auto|]. destruct E; [right|left]; auto.
Qed.
(** the file as given to the code *)
Definition file_of (ls : option (list str)) (rerr : bool) : option (str * bool) := match ls with Some f => Some (unlines f, rerr) | None => None end.

Definition good_file (ls : option (list str)) : Prop := match ls with None => True | Some f => Forall line_ok f /\ forall k t, first_value f k t -> plain_text t end.

Theorem resolve_spec : forall bo version wrapper ls rerr order size vars, layout size vars -> good_file ls -> (forall l, Permutation (order l) l) ->
  match resolveKconfig bo version wrapper (file_of ls rerr) order size vars with
  | Ok d => contents bo version wrapper ls size vars d /\ readable vars ls rerr
  | Err e => ~ panic e /\ ~ (readable vars ls rerr /\ exists d, contents bo version wrapper ls size vars d)
  end.
Proof.
  intros bo version wrapper ls rerr order size vars Lay Good Perm. destruct (layout_facts _ _ Lay) as (Nd & Fit & Dis). pose proof (lay_size _ _ Lay) as Hsize. unfold resolveKconfig.
  pose proof (specials_spec bo version wrapper ls size vars Fit Dis vars [] (repeat 0 (Z.to_nat size)) (incl_refl _) (incl_nil_l _) Nd (fun v _ H => H) (contents_nil bo version wrapper ls size ltac:(lia))) as P.
  destruct (specials bo version wrapper (repeat 0 (Z.to_nat size)) vars) as [[data cs]|e].
  2:{ destruct P as [P (v & V1 & V2 & V3)]. split; auto. intros [_ (d & C)]. apply (V3 (part d v)). apply C. exact V1. }
  destruct P as [Ecs P]. rewrite app_nil_r in P. 
  assert (Hcs : forall v, In v cs <-> In v vars /\ ~ special v). { intros v. rewrite Ecs, filter_In, negb_true_iff, <- not_true_iff_false, isSpecial_spec. tauto. }
  assert (Hspec : forall v, In v (filter isSpecial vars) <-> In v vars /\ special v) by (intros v; now rewrite filter_In, isSpecial_spec).
  destruct cs as [|c cs0].
  { assert (A : forall v, In v vars -> special v). { intros v Hv. destruct (isSpecial v) eqn:E; [now apply isSpecial_spec|]. exfalso. apply (Hcs v). split; auto. intros H. apply isSpecial_spec in H. congruence. }
    split; [|now left]. revert P. apply contents_incl. intros v. rewrite Hspec. split; [tauto|auto]. }
  set (cs := c :: cs0) in *.
  assert (NA : ~ forall v, In v vars -> special v). { intros A. assert (Hc : In c cs) by now left. apply Hcs in Hc. destruct Hc as [H1 H2]. apply H2. auto. }
  assert (Val : forall v b, In v cs -> has_value bo version wrapper ls v b -> exists f text, ls = Some f /\ first_value f (kv_name v) text).
  { intros v b Hv Hb. apply Hcs in Hv. destruct Hv as [_ Hv]. inversion Hb; subst; [exfalso; apply Hv; now left|exfalso; apply Hv; now right|eauto]. }
  destruct ls as [f|]; cbn [file_of].
  2:{ split; auto. intros [_ (d & C)]. assert (Hc : In c cs) by now left. assert (Hcv := Hc). apply Hcs in Hcv. destruct (Val c (part d c) Hc) as (? & ? & ? & ?); [apply C; tauto|discriminate]. }
  destruct Good as [G1 G2].
  assert (Nn : NoDup (map kv_name cs)). { rewrite Ecs. apply NoDup_map_filter. apply Lay. }
  pose proof (Parse_spec f rerr (Some (map kv_name cs)) G1 Nn) as Q. destruct (Parse (unlines f) rerr (Some (map kv_name cs))) as [kernel|e].
  2:{ destruct Q as [Q1 Q2]. split; auto. intros [[R|(f' & E & [R|(ks & K1 & K2)])] _]; [now apply NA|injection E as <-; now apply Q1|]. injection E as <-. apply Q2.
      destruct K2 as (pre & post & A & B & D & E). exists pre, post. repeat split; auto. cbn [complete app]. intros k Hk. apply E. apply K1. apply in_map_iff in Hk. destruct Hk as (v & <- & Hv). apply Hcs in Hv. exists v. tauto. }
  destruct Q as [Q1 Q2].
  assert (Hin : forall v, In v (order cs) <-> In v cs). { intros v. split; apply Permutation_in; [apply Perm|apply Permutation_sym, Perm]. }
  assert (Hwant : forall v, In v cs -> wanted (Some (map kv_name cs)) (kv_name v) = true) by (intros v Hv; cbn [wanted]; apply mem_spec; now apply List.in_map).
  assert (Hget : forall v text, In v (order cs) -> cget kernel (kv_name v) = Some text <-> exists f0, Some f = Some f0 /\ first_value f0 (kv_name v) text).
  { intros v text Hv. apply Hin in Hv. rewrite Q2. split; [intros [_ H]; eauto|]. intros (f0 & E & H). injection E as <-. auto. }
  assert (R : readable vars (Some f) rerr).
  { right. exists f. split; auto. destruct Q1 as [Q1|(pre & post & A & B & D & E)]; [now left|]. right. exists (map kv_name cs). split.
    - intros k. rewrite in_map_iff. split; [intros (v & <- & Hv); apply Hcs in Hv; exists v; tauto|]. intros (v & V1 & V2 & <-). exists v. split; auto. apply Hcs. auto.
    - exists pre, post. auto. }
  pose proof (putAll_spec bo version wrapper (Some f) size vars Fit Dis kernel (order cs) (filter isSpecial vars) data ltac:(lia)) as Z1.
  assert (H1 : forall v text, In v (order cs) -> cget kernel (kv_name v) = Some text -> Z.of_nat (length text) < 2 ^ 32 /\ plain_text text).
  { intros v text Hv Hg. apply (Hget v text Hv) in Hg. destruct Hg as (f0 & E & Hg). injection E as <-. split; [|now apply (G2 (kv_name v))]. destruct Hg as (_ & _ & pre & post & -> & _). apply Forall_app in G1. destruct G1 as [_ G1]. inversion G1 as [|? ? (_ & _ & LL) _]; subst. rewrite app_length in LL. cbn [length] in LL. change (2 ^ 32) with 4294967296. lia. }
  specialize (Z1 H1 Hget ltac:(intros v Hv; apply Hin, Hcs in Hv; tauto) ltac:(intros v Hv; apply Hin, Hcs in Hv; tauto) ltac:(intros v Hv; apply Hspec in Hv; tauto)).
  specialize (Z1 ltac:(apply (Permutation_NoDup (Permutation_sym (Perm cs))); rewrite Ecs; now apply NoDup_filter) ltac:(intros v Hv Hs; apply Hin, Hcs in Hv; apply Hspec in Hs; tauto) P).
  destruct (putAll bo data kernel (order cs)) as [d|e].
  - split; auto. revert Z1. apply contents_incl. intros v. rewrite in_app_iff, Hin, Hcs, Hspec. destruct (isSpecial v) eqn:E; [apply isSpecial_spec in E|assert (~ special v) by (intros H; apply isSpecial_spec in H; congruence)]; tauto.
  - destruct Z1 as [Z1 (v & V1 & V2)]. split; auto. intros [_ (d & C)]. apply (V2 (part d v)). apply C. apply Hin, Hcs in V1. tauto.
Qed.

(** the contents are unique *)
Lemma represents_functional : forall bo t text b b', type_ok t -> 0 < sizeof t -> Z.of_nat (length text) < 2 ^ 32 -> plain_text text -> represents bo (underlying t) text b -> represents bo (underlying t) text b' -> b = b'.
Proof. intros bo t text b b' T S L P H H'. apply PutValue_spec in H; auto. apply PutValue_spec in H'; auto. congruence. Qed.
Lemma first_value_functional : forall ls k v v', first_value ls k v -> first_value ls k v' -> v = v'.
Proof.
  intros ls k v v' ((_ & Hk) & _ & a & b & E1 & A1) (_ & _ & a' & b' & E2 & A2).
  assert (F : forall x w y, (forall v', ~ In (k ++ 61 :: v') x) -> findFirst (x ++ (k ++ 61 :: w) :: y) k = Some w).
  { intros x w y H. rewrite findFirst_app, (proj2 (findFirst_none x k Hk) H). cbn [findFirst]. now rewrite cut_first, str_eqb_refl. }
  pose proof (F a v b A1) as F1. pose proof (F a' v' b' A2) as F2. rewrite <- E1 in F1. rewrite <- E2 in F2. congruence.
Qed.
Theorem contents_unique : forall bo version wrapper ls size vars d d', layout size vars -> good_file ls ->
  contents bo version wrapper ls size vars d -> contents bo version wrapper ls size vars d' -> d = d'.
Proof.
  intros bo version wrapper ls size vars d d' Lay Good [C1 C2 C3] [C1' C2' C3']. destruct (layout_facts _ _ Lay) as (_ & Fit & _).
  apply nth_ext with (d := 0) (d' := 0); [lia|]. intros i Hi.
  assert (D : (exists v, In v vars /\ inside v i) \/ forall v, In v vars -> ~ inside v i).
  { clear. induction vars as [|v vars IH]; [right; intros v []|]. destruct IH as [(w & W1 & W2)|IH]; [left; exists w; split; [now right|auto]|].
    destruct (Z_le_dec (kv_off v) (Z.of_nat i)), (Z_lt_dec (Z.of_nat i) (kv_off v + kv_size v)); [left; exists v; split; [now left|unfold inside; lia]|right; intros w [<-|Hw]; auto; unfold inside; lia..]. }
  destruct D as [(v & Hv & I1 & I2)|D]; [|now rewrite C3, C3']. destruct (Fit v Hv) as ((F1 & F2 & F3) & Fs & Ft).
  assert (E : part d v = part d' v).
  { specialize (C2 v Hv). specialize (C2' v Hv). remember (part d v) as b eqn:Eb. remember (part d' v) as b' eqn:Eb'. clear Eb Eb'.
    destruct C2 as [enc n A1 A2 A3|sz enc w A1 A2 A3 A4|f text b A1 A2 A3 A4]; destruct C2' as [enc' n' B1 B2 B3|sz' enc' w' B1 B2 B3 B4|f' text' b' B1 B2 B3 B4].
    - congruence.
    - rewrite A1 in B1. discriminate.
    - elim B1. now left.
    - rewrite A1 in B1. discriminate.
    - rewrite A2 in B2. injection B2 as <- <-. rewrite A4 in B4. now injection B4 as <-.
    - elim B1. now right.
    - elim A1. now left.
    - elim A1. now right.
    - rewrite A2 in B2. injection B2 as <-. pose proof (first_value_functional _ _ _ _ A3 B3). subst text'. subst ls. destruct Good as [G1 G2].
      apply (represents_functional bo (kv_type v) text); auto; [lia| |now apply (G2 (kv_name v))].
      destruct A3 as (_ & _ & pre & post & -> & _). apply Forall_app in G1. destruct G1 as [_ G1]. inversion G1 as [|? ? (_ & _ & LL) _]; subst. rewrite app_length in LL. cbn [length] in LL. change (2 ^ 32) with 4294967296. lia. }
  assert (N1 : nth (i - Z.to_nat (kv_off v)) (part d v) 0 = nth (i - Z.to_nat (kv_off v)) (part d' v) 0) by now rewrite E.
  rewrite !nth_part in N1 by lia. destruct (Nat.ltb_spec (i - Z.to_nat (kv_off v)) (Z.to_nat (kv_size v))); [|lia]. replace (Z.to_nat (kv_off v) + (i - Z.to_nat (kv_off v)))%nat with i in N1 by lia. exact N1.
Qed.
