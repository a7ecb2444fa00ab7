From Coq Require Import ZArith List Lia Bool.
From Verif.Base Require Import GoInt ListExtra.
From Verif.Btf Require Import Strings Wire WireSpec.
Import ListNotations.
Open Scope Z_scope.

(** ** Bits *)
Lemma mask_eq n : 0 <= n <= 32 -> mask n = 2 ^ n - 1.
Proof.
  intros H. unfold mask, u32, wrapu. rewrite Z.shiftl_1_l.
  destruct (Z.eq_dec n 32) as [->|N]; [reflexivity|].
  assert (L : 2 ^ n <= 2 ^ 31) by (apply Z.pow_le_mono_r; lia). pose proof (pow2_pos n ltac:(lia)).
  change (2 ^ 31) with 2147483648 in L. change (2 ^ 32) with 4294967296.
  rewrite (Z.mod_small (2 ^ n)) by lia. apply Z.mod_small. lia.
Qed.
Lemma mask_bit n i : 0 <= n <= 32 -> 0 <= i -> Z.testbit (mask n) i = (i <? n).
Proof. intros H Hi. rewrite mask_eq by assumption. rewrite Z.sub_1_r, <- Z.ones_equiv. apply Z.testbit_ones_nonneg; lia. Qed.
Lemma u32_bit x i : 0 <= i -> Z.testbit (u32 x) i = (i <? 32) && Z.testbit x i.
Proof.
  intros Hi. unfold u32, wrapu. destruct (Z.ltb_spec i 32).
  - rewrite Z.mod_pow2_bits_low by lia. reflexivity.
  - rewrite Z.mod_pow2_bits_high by lia. reflexivity.
Qed.
Lemma writeBits_bit v l s n i : 0 <= l -> 0 <= s -> l + s <= 32 -> 0 <= i ->
  Z.testbit (writeBits v l s n) i = if (s <=? i) && (i <? s + l) then Z.testbit n (i - s) else Z.testbit v i.
Proof.
  intros Hl Hs Hls Hi. unfold writeBits. rewrite Z.lor_spec, Z.ldiff_spec, !u32_bit, !Z.shiftl_spec by assumption.
  destruct (Z.leb_spec s i); cbn [andb].
  - rewrite Z.land_spec, mask_bit by lia. destruct (Z.ltb_spec (i - s) l), (Z.ltb_spec i (s + l)), (Z.ltb_spec i 32); try lia; cbn.
    + rewrite andb_false_r, andb_true_r. reflexivity.
    + rewrite andb_false_r, andb_true_r, orb_false_r. reflexivity.
    + rewrite andb_true_r, orb_false_r. reflexivity.
  - rewrite !(Z.testbit_neg_r _ (i - s)) by lia. rewrite andb_false_r. cbn. rewrite andb_true_r, orb_false_r. reflexivity.
Qed.
Lemma readBits_field v l s : 0 <= l <= 32 -> 0 <= s -> readBits v l s = field v s l.
Proof. intros H Hs. unfold readBits, field. rewrite mask_eq, land_mask_mod, Z.shiftr_div_pow2 by lia. reflexivity. Qed.
Lemma field_bit v s l i : 0 <= l -> 0 <= s -> 0 <= i -> Z.testbit (field v s l) i = (i <? l) && Z.testbit v (i + s).
Proof.
  intros Hl Hs Hi. unfold field. destruct (Z.ltb_spec i l); cbn [andb].
  - rewrite Z.mod_pow2_bits_low, Z.div_pow2_bits by lia. reflexivity.
  - apply Z.mod_pow2_bits_high. lia.
Qed.
Lemma write_field v l s n : 0 <= l -> 0 <= s -> l + s <= 32 -> field (writeBits v l s n) s l = n mod 2 ^ l.
Proof.
  intros Hl Hs Hls. apply Z.bits_inj'. intros i Hi. rewrite field_bit, writeBits_bit by lia.
  destruct (Z.ltb_spec i l); cbn [andb].
  - destruct (Z.leb_spec s (i + s)), (Z.ltb_spec (i + s) (s + l)); try lia. cbn. rewrite Z.mod_pow2_bits_low by lia. f_equal. lia.
  - rewrite Z.mod_pow2_bits_high by lia. reflexivity.
Qed.
Lemma write_same v l s n : 0 <= l -> 0 <= s -> l + s <= 32 -> same_outside v (writeBits v l s n) s l.
Proof.
  intros Hl Hs Hls i Hi N. rewrite writeBits_bit by assumption.
  destruct (Z.leb_spec s i), (Z.ltb_spec i (s + l)); try reflexivity. lia.
Qed.
Lemma write_other v l s n l' s' : 0 <= l -> 0 <= s -> l + s <= 32 -> 0 <= l' -> 0 <= s' ->
  s' + l' <= s \/ s + l <= s' -> field (writeBits v l s n) s' l' = field v s' l'.
Proof.
  intros Hl Hs Hls Hl' Hs' D. apply Z.bits_inj'. intros i Hi. rewrite !field_bit by lia.
  destruct (Z.ltb_spec i l'); cbn [andb]; [|reflexivity]. apply (write_same v l s n); lia.
Qed.
Lemma bits_range v w : 0 <= w -> (0 <= v < 2 ^ w) <-> (0 <= v /\ forall i, w <= i -> Z.testbit v i = false).
Proof.
  intros Hw. split.
  - intros H. split; [lia|]. intros i Hi. apply (testbit_high v w i); lia.
  - intros [H0 H]. split; [assumption|]. destruct (Z_lt_ge_dec v (2 ^ w)) as [|G]; [assumption|]. exfalso.
    assert (P : 0 < v) by (pose proof (pow2_pos w Hw); lia).
    assert (L : w <= Z.log2 v) by (apply Z.log2_le_pow2; lia).
    specialize (H (Z.log2 v) L). rewrite Z.bit_log2 in H by assumption. discriminate.
Qed.
Lemma write_range v l s n : 0 <= l -> 0 <= s -> l + s <= 32 -> in_u 32 v -> in_u 32 (writeBits v l s n).
Proof.
  intros Hl Hs Hls Hv. unfold in_u in *. apply bits_range; [lia|]. apply bits_range in Hv; [|lia]. destruct Hv as [H0 H]. split.
  - unfold writeBits. apply Z.lor_nonneg. split; [apply Z.ldiff_nonneg; left; assumption|apply wrapu_range; lia].
  - intros i Hi. rewrite writeBits_bit by lia. destruct (Z.leb_spec s i), (Z.ltb_spec i (s + l)); cbn; try (apply H; lia). lia.
Qed.
Lemma field_range v s l : 0 <= l -> 0 <= field v s l < 2 ^ l.
Proof. intros. unfold field. apply Z.mod_pos_bound, pow2_pos. assumption. Qed.
Lemma write_write v l s n m : 0 <= l -> 0 <= s -> l + s <= 32 -> writeBits (writeBits v l s n) l s m = writeBits v l s m.
Proof.
  intros. apply Z.bits_inj'. intros i Hi. rewrite !writeBits_bit by lia. destruct ((s <=? i) && (i <? s + l)); reflexivity.
Qed.

Lemma Kind_field bt : Kind bt = field (Info bt) 24 5.
Proof.
  unfold Kind, info, btfTypeKindLen, btfTypeKindShift. rewrite readBits_field by lia. apply wrapu_id.
  pose proof (field_range (Info bt) 24 5 ltac:(lia)). unfold in_u. change (2 ^ 5) with 32 in *. change (2 ^ 8) with 256. lia.
Qed.
Lemma Vlen_field bt : Vlen bt = field (Info bt) 0 16.
Proof. apply readBits_field; unfold btfTypeVlenMask, btfTypeVlenShift; lia. Qed.

(** ** Slices *)
Lemma at_length buf o n : (o + n <= length buf)%nat -> length (at_ buf o n) = n.
Proof. intros H. unfold at_. rewrite firstn_length, skipn_length. lia. Qed.
Lemma at_bytes buf o n : bytes_ok buf -> bytes_ok (at_ buf o n).
Proof.
  intros H. unfold at_, bytes_ok in *. rewrite Forall_forall in *. intros x Hx. apply H.
  rewrite <- (firstn_skipn o buf). apply in_or_app. right. rewrite <- (firstn_skipn n (skipn o buf)). apply in_or_app. left. exact Hx.
Qed.
Lemma at_split buf o n : skipn o buf = at_ buf o n ++ skipn (o + n) buf.
Proof.
  unfold at_. rewrite <- (firstn_skipn n (skipn o buf)) at 1. f_equal. revert buf; induction o as [|o IH]; intros buf; [reflexivity|].
  destruct buf; cbn; [destruct n; reflexivity|apply IH].
Qed.
Lemma at_skipn buf k o n : at_ (skipn k buf) o n = at_ buf (k + o) n.
Proof. unfold at_. f_equal. revert buf; induction k as [|k IH]; intros buf; [reflexivity|]. destruct buf; cbn; [destruct o; reflexivity|apply IH]. Qed.
Lemma skipn_skipn' {A} (l : list A) a b : skipn a (skipn b l) = skipn (b + a) l.
Proof. revert l; induction b as [|b IH]; intros l; [reflexivity|]. destruct l; cbn; [destruct a; reflexivity|apply IH]. Qed.
Lemma get_at_put bo p x q n : at_ (p ++ put bo n x ++ q) (length p) n = put bo n x.
Proof.
  unfold at_. rewrite skipn_app, skipn_all, Nat.sub_diag. cbn. rewrite firstn_app, put_length, Nat.sub_diag. cbn. rewrite app_nil_r.
  apply firstn_all2. rewrite put_length. lia.
Qed.
Lemma get32_put bo x : in_u 32 x -> get bo (put bo 4 x) = x.
Proof. intros H. rewrite get_put, pow256_4. apply Z.mod_small. exact H. Qed.
Lemma get32_at bo p x q k : in_u 32 x -> k = length p -> get bo (at_ (p ++ put bo 4 x ++ q) k 4) = x.
Proof. intros H ->. rewrite get_at_put. apply get32_put. exact H. Qed.
Lemma get32_at0 bo x q : in_u 32 x -> get bo (at_ (put bo 4 x ++ q) 0 4) = x.
Proof. intros H. apply (get32_at bo [] x q 0 H eq_refl). Qed.
Lemma get32_range bo l : bytes_ok l -> length l = 4%nat -> in_u 32 (get bo l).
Proof. intros H E. pose proof (get_range bo l H) as R. rewrite E in R. exact R. Qed.
Lemma put_get' bo n l : bytes_ok l -> length l = n -> put bo n (get bo l) = l.
Proof. intros H <-. apply put_get. assumption. Qed.
Lemma get_one bo b : get bo [b] = b.
Proof. destruct bo; cbn; lia. Qed.
Lemma one_byte bo (l : list Z) : length l = 1%nat -> l = [get bo l].
Proof. destruct l as [|b [|? ?]]; try discriminate. rewrite get_one. reflexivity. Qed.

(** ** Header *)
Lemma header_split bo buf : bytes_ok buf -> (24 <= length buf)%nat ->
  buf = header_bytes bo (decodeHeader bo buf) ++ skipn 24 buf.
Proof.
  intros B L. unfold header_bytes, decodeHeader. cbn [Magic Version Flags HdrLen TypeOff TypeLen StringOff StringLen].
  rewrite !(put_get' bo 4), (put_get' bo 2) by (try apply at_bytes; try assumption; apply at_length; lia).
  change [get bo (at_ buf 2 1); get bo (at_ buf 3 1)] with ([get bo (at_ buf 2 1)] ++ [get bo (at_ buf 3 1)]).
  rewrite <- !(one_byte bo) by (apply at_length; lia).
  change buf with (skipn 0 buf) at 1. rewrite (at_split buf 0 2). rewrite <- !app_assoc. f_equal.
  rewrite (at_split buf (0 + 2) 1). cbn [Nat.add]. f_equal. rewrite (at_split buf 3 1). f_equal. cbn [Nat.add].
  rewrite (at_split buf 4 4). f_equal. cbn [Nat.add]. rewrite (at_split buf 8 4). f_equal. cbn [Nat.add].
  rewrite (at_split buf 12 4). f_equal. cbn [Nat.add]. rewrite (at_split buf 16 4). f_equal. cbn [Nat.add].
  rewrite (at_split buf 20 4). reflexivity.
Qed.
Lemma decode_ranges bo buf : bytes_ok buf -> (24 <= length buf)%nat -> header_ranges (decodeHeader bo buf).
Proof.
  intros B L. unfold header_ranges, decodeHeader. cbn [Magic Version Flags HdrLen TypeOff TypeLen StringOff StringLen].
  assert (G : forall o n w, 256 ^ Z.of_nat n = 2 ^ w -> (o + n <= 24)%nat -> in_u w (get bo (at_ buf o n))).
  { intros o n w E H. pose proof (get_range bo (at_ buf o n) (at_bytes buf o n B)) as R. rewrite at_length in R by lia. rewrite E in R. exact R. }
  repeat split; try (apply (G _ 4%nat 32); [reflexivity|lia]); try (apply (G _ 1%nat 8); [reflexivity|lia]); apply (G _ 2%nat 16); [reflexivity|lia| reflexivity | lia].
Qed.
Lemma app_eq_len {A} (a b c d : list A) : length a = length c -> a ++ b = c ++ d -> a = c /\ b = d.
Proof.
  revert c; induction a as [|x a IH]; intros [|y c] L E; try discriminate; [auto|]. cbn in *. inversion E; subst.
  destruct (IH c ltac:(lia) H1); subst; auto.
Qed.
Lemma header_length bo h : length (header_bytes bo h) = 24%nat.
Proof. unfold header_bytes. rewrite !app_length, !put_length. reflexivity. Qed.
Lemma decode_header bo h rest : header_ranges h -> decodeHeader bo (header_bytes bo h ++ rest) = h.
Proof.
  intros (R1 & R2 & R3 & R4 & R5 & R6 & R7 & R8). unfold decodeHeader, header_bytes.
  destruct h as [m v f hl t tl so sl]; cbn [Magic Version Flags HdrLen TypeOff TypeLen StringOff StringLen] in *.
  rewrite <- !app_assoc.
  assert (W : forall p n x q w, (n <= 4)%nat -> 256 ^ Z.of_nat n = 2 ^ w -> in_u w x -> forall k, k = length p -> get bo (at_ (p ++ put bo n x ++ q) k n) = x).
  { intros p n x q w Hn E Hx k ->. rewrite get_at_put, get_put, E. apply Z.mod_small. exact Hx. }
  assert (P1 : forall x, in_u 8 x -> [x] = put bo 1 x).
  { intros x Hx. assert (E : x mod 256 = x) by (apply Z.mod_small; exact Hx). destruct bo; cbn; rewrite E; reflexivity. }
  change [v; f] with ([v] ++ [f]). rewrite (P1 v), (P1 f) by assumption. rewrite <- !app_assoc.
  f_equal.
  - apply (W [] 2%nat m _ 16); auto; reflexivity.
  - apply (W (put bo 2 m) 1%nat v _ 8); auto; rewrite ?put_length; reflexivity || lia.
  - change (put bo 2 m ++ put bo 1 v ++ put bo 1 f ++ ?q) with (put bo 2 m ++ put bo 1 v ++ put bo 1 f ++ q).
    rewrite (app_assoc (put bo 2 m)). apply (W (put bo 2 m ++ put bo 1 v) 1%nat f _ 8); auto; rewrite ?app_length, ?put_length; reflexivity || lia.
  - rewrite (app_assoc (put bo 2 m)), (app_assoc (put bo 2 m ++ _)).
    apply (W _ 4%nat hl _ 32); auto; rewrite ?app_length, ?put_length; reflexivity || lia.
  - rewrite (app_assoc (put bo 2 m)), (app_assoc (put bo 2 m ++ _)), (app_assoc ((put bo 2 m ++ _) ++ _)).
    apply (W _ 4%nat t _ 32); auto; rewrite ?app_length, ?put_length; reflexivity || lia.
  - rewrite (app_assoc (put bo 2 m)), (app_assoc (put bo 2 m ++ _)), (app_assoc ((put bo 2 m ++ _) ++ _)), (app_assoc (((put bo 2 m ++ _) ++ _) ++ _)).
    apply (W _ 4%nat tl _ 32); auto; rewrite ?app_length, ?put_length; reflexivity || lia.
  - rewrite (app_assoc (put bo 2 m)), (app_assoc (put bo 2 m ++ _)), (app_assoc ((put bo 2 m ++ _) ++ _)), (app_assoc (((put bo 2 m ++ _) ++ _) ++ _)), (app_assoc ((((put bo 2 m ++ _) ++ _) ++ _) ++ _)).
    apply (W _ 4%nat so _ 32); auto; rewrite ?app_length, ?put_length; reflexivity || lia.
  - rewrite (app_assoc (put bo 2 m)), (app_assoc (put bo 2 m ++ _)), (app_assoc ((put bo 2 m ++ _) ++ _)), (app_assoc (((put bo 2 m ++ _) ++ _) ++ _)), (app_assoc ((((put bo 2 m ++ _) ++ _) ++ _) ++ _)), (app_assoc (((((put bo 2 m ++ _) ++ _) ++ _) ++ _) ++ _)).
    apply (W _ 4%nat sl _ 32); auto; rewrite ?app_length, ?put_length; reflexivity || lia.
Qed.

Lemma forallb_zero l : forallb (fun b => b =? 0) l = true <-> l = repeat 0 (length l).
Proof.
  induction l as [|x l IH]; [split; reflexivity|]. cbn. rewrite andb_true_iff, IH, Z.eqb_eq. split.
  - intros [-> E]. rewrite <- E. reflexivity.
  - intros E. inversion E as [E1]. rewrite repeat_length. auto.
Qed.
Lemma firstn_repeat_eq {A} (x : A) n l : firstn n l = repeat x (length (firstn n l)) -> (n <= length l)%nat ->
  l = repeat x n ++ skipn n l.
Proof. intros E L. rewrite firstn_length, Nat.min_l in E by assumption. rewrite <- E. symmetry. apply firstn_skipn. Qed.

(** the magic number in the other byte order is not the magic number *)
Lemma magic_order bo buf : bytes_ok buf -> (24 <= length buf)%nat -> Magic (decodeHeader bo buf) = btfMagic ->
  (if Magic (decodeHeader LE buf) =? btfMagic then Some LE else if Magic (decodeHeader BE buf) =? btfMagic then Some BE else None) = Some bo.
Proof.
  intros B L E. destruct bo; [rewrite E, Z.eqb_refl; reflexivity|].
  rewrite E, Z.eqb_refl. destruct (Z.eqb_spec (Magic (decodeHeader LE buf)) btfMagic) as [E2|]; [|reflexivity]. exfalso.
  unfold decodeHeader in E, E2. cbn [Magic] in E, E2. unfold at_ in E, E2. cbn [skipn] in *.
  destruct buf as [|a [|b buf]]; cbn in L; try lia. cbn [get firstn le_val rev app] in E, E2. unfold btfMagic in *.
  inversion B as [|? ? Ha B']; subst. inversion B' as [|? ? Hb _]; subst. unfold is_byte in *. lia.
Qed.

Lemma parse_sound buf h l bo : bytes_ok buf -> parseBTFHeader buf = Ok (h, l, bo) -> valid_header buf h l bo.
Proof.
  intros B. unfold parseBTFHeader. destruct (Nat.ltb_spec (length buf) btfHeaderLen) as [|L]; [discriminate|]. unfold btfHeaderLen in L.
  destruct (if Magic (decodeHeader LE buf) =? btfMagic then Some LE else if Magic (decodeHeader BE buf) =? btfMagic then Some BE else None) as [bo'|] eqn:Eb; [|discriminate].
  assert (Em : Magic (decodeHeader bo' buf) = btfMagic).
  { destruct (Z.eqb_spec (Magic (decodeHeader LE buf)) btfMagic) as [e|]; [inversion Eb; subst; exact e|].
    destruct (Z.eqb_spec (Magic (decodeHeader BE buf)) btfMagic) as [e|]; [inversion Eb; subst; exact e|discriminate]. }
  clear Eb. pose proof (decode_ranges bo' buf B L) as R. pose proof (header_split bo' buf B L) as S.
  set (h0 := decodeHeader bo' buf) in *. clearbody h0.
  change (skipn btfHeaderLen buf) with (skipn 24 buf).
  destruct (Z.eqb_spec (Version h0) 1) as [Ev|]; cbn [negb]; [|discriminate].
  destruct (Z.eqb_spec (Flags h0) 0) as [Ef|]; cbn [negb]; [|discriminate].
  destruct (Z.ltb_spec (HdrLen h0 - 24) 0) as [|Hr]; [discriminate|].
  destruct (Z.ltb_spec (Z.of_nat (length (skipn 24 buf))) (HdrLen h0 - 24)) as [|Hl]; [discriminate|].
  set (rest := skipn 24 buf) in *. assert (Br : bytes_ok rest). { rewrite S in B. apply bytes_ok_app in B. tauto. }
  clearbody rest. 
  destruct (Z.leb_spec 8 (HdrLen h0 - 24)) as [H8|H8].
  - destruct (forallb _ _) eqn:Ft; [|discriminate]. intros E; inversion E; subst h l bo; clear E.
    apply forallb_zero in Ft. apply firstn_repeat_eq in Ft; [|rewrite skipn_length; lia].
    split; [exact R|]. split; [exact Em|]. split; [exact Ev|]. split; [exact Ef|]. split; [lia|]. right.
    split; [lia|]. cbn [LOff LLen].
    split; [apply get32_range; [apply at_bytes; assumption|apply at_length; lia]|].
    split; [apply get32_range; [apply at_bytes; assumption|apply at_length; lia]|].
    eexists. rewrite S at 1. f_equal. unfold layout_bytes. cbn [LOff LLen].
    rewrite !(put_get' bo' 4) by (try apply at_bytes; try assumption; apply at_length; lia).
    replace (HdrLen h0 - 32) with (HdrLen h0 - 24 - 8) by lia. rewrite <- Ft.
    change rest with (skipn 0 rest) at 1. rewrite (at_split rest 0 4), (at_split rest (0 + 4) 4). rewrite <- app_assoc. reflexivity.
  - destruct (forallb _ _) eqn:Ft; [|discriminate]. intros E; inversion E; subst h l bo; clear E.
    apply forallb_zero in Ft. apply firstn_repeat_eq in Ft; [|lia].
    split; [exact R|]. split; [exact Em|]. split; [exact Ev|]. split; [exact Ef|]. split; [lia|]. left.
    split; [lia|]. split; [reflexivity|]. eexists. rewrite S at 1. f_equal. exact Ft.
Qed.

Lemma parse_complete buf h l bo : bytes_ok buf -> valid_header buf h l bo -> parseBTFHeader buf = Ok (h, l, bo).
Proof.
  intros B (R & Em & Ev & Ef & Hh & Hc).
  assert (Eh : exists rest, buf = header_bytes bo h ++ rest /\ HdrLen h - 24 <= Z.of_nat (length rest) /\
     (if 8 <=? HdrLen h - 24 then l = mkLayout (get bo (at_ rest 0 4)) (get bo (at_ rest 4 4)) /\
          forallb (fun b => b =? 0) (firstn (Z.to_nat (HdrLen h - 24 - 8)) (skipn 8 rest)) = true
      else l = mkLayout 0 0 /\ forallb (fun b => b =? 0) (firstn (Z.to_nat (HdrLen h - 24)) rest) = true)).
  { destruct Hc as [(H1 & -> & r & ->)|(H1 & H2 & H3 & r & ->)].
    - eexists. split; [reflexivity|]. split; [rewrite app_length, repeat_length; lia|].
      destruct (Z.leb_spec 8 (HdrLen h - 24)); [lia|]. split; [reflexivity|].
      apply forallb_zero. rewrite firstn_app, repeat_length, Nat.sub_diag. cbn. rewrite app_nil_r.
      rewrite firstn_all2 by (rewrite repeat_length; lia). rewrite repeat_length. reflexivity.
    - eexists. split; [reflexivity|]. split; [unfold layout_bytes; rewrite !app_length, !put_length, repeat_length; lia|].
      destruct (Z.leb_spec 8 (HdrLen h - 24)); [|lia]. split.
      + destruct l as [lo ll]. cbn [LOff LLen] in *. unfold layout_bytes. cbn [LOff LLen]. rewrite <- !app_assoc. f_equal.
        * symmetry. apply get32_at0. assumption.
        * symmetry. apply get32_at; [assumption|rewrite put_length; reflexivity].
      + apply forallb_zero. replace (HdrLen h - 24 - 8) with (HdrLen h - 32) by lia.
        rewrite skipn_app. unfold layout_bytes. rewrite app_length, !put_length. cbn [Nat.add Nat.sub].
        rewrite skipn_all2 by (rewrite app_length, !put_length; lia). cbn [app skipn].
        rewrite firstn_app, repeat_length, Nat.sub_diag. cbn [firstn]. rewrite app_nil_r, firstn_all2 by (rewrite repeat_length; lia).
        rewrite repeat_length. reflexivity. }
  destruct Eh as (rest & Eb & Hl & Hrest). unfold parseBTFHeader.
  assert (L : (24 <= length buf)%nat) by (rewrite Eb, app_length, header_length; lia).
  destruct (Nat.ltb_spec (length buf) btfHeaderLen) as [X|_]; [unfold btfHeaderLen in X; lia|].
  assert (Ed : decodeHeader bo buf = h) by (rewrite Eb; apply decode_header; assumption).
  rewrite (magic_order bo buf B L) by (rewrite Ed; exact Em). rewrite Ed, Ev, Ef. cbn [Z.eqb negb Pos.eqb].
  assert (Es : skipn btfHeaderLen buf = rest).
  { rewrite Eb. unfold btfHeaderLen. rewrite skipn_app, header_length, Nat.sub_diag. rewrite skipn_all2 by (rewrite header_length; lia). reflexivity. }
  rewrite Es. destruct (Z.ltb_spec (HdrLen h - 24) 0); [lia|]. destruct (Z.ltb_spec (Z.of_nat (length rest)) (HdrLen h - 24)); [lia|].
  destruct (8 <=? HdrLen h - 24); destruct Hrest as [-> ->]; reflexivity.
Qed.

(** ** Records *)
Lemma some_inj {A} (a b : A) : Some a = Some b -> a = b.
Proof. intros E. injection E. auto. Qed.
Lemma DataLen_aux bt n : DataLen bt = Some n <-> aux_len bt n.
Proof.
  unfold DataLen, aux_len. rewrite Kind_field, Vlen_field. set (k := field (Info bt) 24 5). set (v := field (Info bt) 0 16).
  assert (Hk : 0 <= k < 32) by apply (field_range _ 24 5 ltac:(lia)). clearbody k v.
  unfold aux_table, kindInt, kindPointer, kindArray, kindStruct, kindUnion, kindEnum, kindForward, kindTypedef, kindVolatile,
    kindConst, kindRestrict, kindFunc, kindFuncProto, kindVar, kindDatasec, kindFloat, kindDeclTag, kindTypeTag, kindEnum64.
  assert (C : k = 0 \/ k = 1 \/ k = 2 \/ k = 3 \/ k = 4 \/ k = 5 \/ k = 6 \/ k = 7 \/ k = 8 \/ k = 9 \/ k = 10 \/ k = 11 \/ k = 12 \/
              k = 13 \/ k = 14 \/ k = 15 \/ k = 16 \/ k = 17 \/ k = 18 \/ k = 19 \/ 20 <= k) by lia.
  repeat match goal with C : k = _ \/ _ |- _ => destruct C as [C|C]; [subst k; cbn [Z.eqb Pos.eqb orb]; split;
    [let E := fresh in intros E; first [discriminate E | apply some_inj in E; subst n; do 2 eexists; split; [cbn [In]; repeat (first [left; reflexivity | right])|lia]] |
     let I := fresh in intros (? & ? & I & ->); cbn [In] in I; repeat match goal with X : _ \/ _ |- _ => destruct X as [X|X] end;
       try contradiction; first [discriminate I | injection I as <- <-; f_equal; lia]] |] end.
  repeat (match goal with |- context [k =? ?c] => destruct (Z.eqb_spec k c); [lia|] end). cbn [orb]. split; [discriminate|].
  intros (c & w & I & _). exfalso. cbn [In] in I. repeat match goal with X : _ \/ _ |- _ => destruct X as [X|X] end; try contradiction; inversion I; lia.
Qed.
Lemma aux_len_nonneg bt n : aux_len bt n -> 0 <= n /\ n mod 4 = 0.
Proof.
  intros (c & v & I & ->). pose proof (field_range (Info bt) 0 16 ltac:(lia)). set (f := field (Info bt) 0 16) in *. clearbody f.
  unfold aux_table in I. cbn [In] in I.
  repeat match goal with X : _ \/ _ |- _ => destruct X as [X|X] end; try contradiction; inversion I; subst; clear I; (split; [lia|]); rewrite ?Z.mul_0_l, ?Z.add_0_r, ?Z.add_0_l; try reflexivity.
  all: try (replace (12 * f) with (3 * f * 4) by lia; apply Z_mod_mult); try (replace (8 * f) with (2 * f * 4) by lia; apply Z_mod_mult).
Qed.
Lemma aux_len_fun bt n m : aux_len bt n -> aux_len bt m -> n = m.
Proof. rewrite <- !DataLen_aux. congruence. Qed.

Lemma type_bytes_length bo bt : length (type_bytes bo bt) = 12%nat.
Proof. unfold type_bytes. rewrite !app_length, !put_length. reflexivity. Qed.
Lemma unmarshal_split bo buf h : bytes_ok buf -> unmarshalBtfType bo buf = Some h ->
  type_ranges h /\ (12 <= length buf)%nat /\ buf = type_bytes bo h ++ skipn 12 buf.
Proof.
  intros B. unfold unmarshalBtfType. destruct (Nat.ltb_spec (length buf) 12) as [|L]; [discriminate|]. intros E; inversion E; subst h; clear E.
  unfold type_ranges, type_bytes. cbn [NameOff Info SizeType].
  split. { repeat split; apply get32_range; try (apply at_bytes; assumption); apply at_length; lia. }
  split; [lia|]. rewrite !(put_get' bo 4) by (try (apply at_bytes; assumption); apply at_length; lia).
  rewrite <- !app_assoc. change buf with (skipn 0 buf) at 1. rewrite (at_split buf 0 4). f_equal. cbn [Nat.add].
  rewrite (at_split buf 4 4). f_equal. cbn [Nat.add]. apply (at_split buf 8 4).
Qed.
Lemma unmarshal_bytes bo h rest : type_ranges h -> unmarshalBtfType bo (type_bytes bo h ++ rest) = Some h.
Proof.
  intros (R1 & R2 & R3). unfold unmarshalBtfType. rewrite app_length, type_bytes_length.
  destruct (Nat.ltb_spec (12 + length rest) 12); [lia|]. f_equal. unfold type_bytes. destruct h as [a b c]; cbn [NameOff Info SizeType] in *.
  rewrite <- !app_assoc. f_equal.
  - apply get32_at0. assumption.
  - apply get32_at; [assumption|rewrite put_length; reflexivity].
  - rewrite (app_assoc (put bo 4 a)). apply get32_at; [assumption|rewrite app_length, !put_length; reflexivity].
Qed.

Lemma skipn_bytes n l : bytes_ok l -> bytes_ok (skipn n l).
Proof. intros H. rewrite <- (firstn_skipn n l) in H. apply bytes_ok_app in H. tauto. Qed.

Lemma scan_sound bo buf : bytes_ok buf -> forall fuel off l, 0 <= off -> Z.of_nat (length buf) - off < Z.of_nat fuel ->
  scan fuel bo buf off = Ok l -> records bo off (skipn (Z.to_nat off) buf) l.
Proof.
  intros B. induction fuel as [|fuel IH]; intros off l Ho Hf; cbn [scan].
  - intros E; inversion E; subst. rewrite skipn_all2 by lia. constructor.
  - destruct (Z.ltb_spec off (Z.of_nat (length buf))) as [Lo|Lo].
    2:{ intros E; inversion E; subst. rewrite skipn_all2 by lia. constructor. }
    destruct (unmarshalBtfType bo (skipn (Z.to_nat off) buf)) as [h|] eqn:Eh; [|discriminate].
    destruct (DataLen h) as [n|] eqn:En; [|discriminate]. apply DataLen_aux in En.
    destruct (Z.gtb_spec (off + 12 + n) (Z.of_nat (length buf))) as [|Hn]; [discriminate|].
    destruct (scan fuel bo buf (off + 12 + n)) as [l'|] eqn:Es; [|discriminate]. intros E; inversion E; subst; clear E.
    destruct (aux_len_nonneg h n En) as [N0 _].
    apply IH in Es; [|lia|lia]. destruct (unmarshal_split bo _ h (skipn_bytes _ _ B) Eh) as (R & L12 & S).
    rewrite S, skipn_skipn'. rewrite (at_split buf (Z.to_nat off + 12) (Z.to_nat n)).
    assert (La : length (at_ buf (Z.to_nat off + 12) (Z.to_nat n)) = Z.to_nat n) by (apply at_length; lia).
    constructor; [exact R| |].
    + rewrite La, Z2Nat.id by lia. exact En.
    + rewrite La, Z2Nat.id by lia. replace (Z.to_nat off + 12 + Z.to_nat n)%nat with (Z.to_nat (off + 12 + n)) by lia. exact Es.
Qed.

Lemma records_inv bo off sb l : records bo off sb l ->
  (sb = [] /\ l = []) \/ exists h data rest l', sb = type_bytes bo h ++ data ++ rest /\ l = (off, h) :: l' /\
     type_ranges h /\ aux_len h (Z.of_nat (length data)) /\ records bo (off + 12 + Z.of_nat (length data)) rest l'.
Proof. intros R. destruct R; [left; auto|right]. do 4 eexists. repeat split; eauto; apply H. Qed.
Lemma scan_complete bo buf : forall fuel off l, 0 <= off -> (Z.to_nat off <= length buf)%nat -> Z.of_nat (length buf) - off < Z.of_nat fuel ->
  records bo off (skipn (Z.to_nat off) buf) l -> scan fuel bo buf off = Ok l.
Proof.
  induction fuel as [|fuel IH]; intros off l Ho Hle Hf R; [lia|]. cbn [scan].
  assert (Ls : length (skipn (Z.to_nat off) buf) = (length buf - Z.to_nat off)%nat) by apply skipn_length.
  apply records_inv in R. destruct R as [[E1 ->]|(h & data & rest & l' & E1 & -> & Rh & A & Rr)].
  - rewrite E1 in Ls. cbn in Ls. destruct (Z.ltb_spec off (Z.of_nat (length buf))); [lia|reflexivity].
  - assert (Lc : length (type_bytes bo h ++ data ++ rest) = (12 + length data + length rest)%nat) by (rewrite !app_length, type_bytes_length; lia).
    rewrite <- E1 in Lc. destruct (Z.ltb_spec off (Z.of_nat (length buf))); [|lia].
    rewrite E1, unmarshal_bytes by assumption. rewrite (proj2 (DataLen_aux h _) A).
    destruct (Z.gtb_spec (off + 12 + Z.of_nat (length data)) (Z.of_nat (length buf))); [lia|].
    rewrite (IH (off + 12 + Z.of_nat (length data)) l'); [reflexivity|lia|lia|lia|].
    replace (Z.to_nat (off + 12 + Z.of_nat (length data))) with (Z.to_nat off + (12 + length data))%nat by lia.
    rewrite <- skipn_skipn', E1. rewrite app_assoc, skipn_app.
    rewrite skipn_all2 by (rewrite app_length, type_bytes_length; lia).
    rewrite app_length, type_bytes_length, Nat.sub_diag. exact Rr.
Qed.

Lemma words_length bo ws : length (concat (map (put bo 4) ws)) = (4 * length ws)%nat.
Proof. induction ws as [|w ws IH]; [reflexivity|]. cbn [map concat length]. rewrite app_length, put_length, IH. lia. Qed.
Lemma encodeRec_length bo r : length (encodeRec bo r) = (12 + 4 * length (aux r))%nat.
Proof. unfold encodeRec, encodeBtfType. rewrite !app_length, !put_length, words_length. lia. Qed.
Lemma encodeRec_ok bo r : bytes_ok (encodeRec bo r).
Proof.
  unfold encodeRec, encodeBtfType. rewrite !bytes_ok_app. repeat split; try apply put_ok.
  induction (aux r) as [|w ws IH]; [constructor|]. cbn. apply bytes_ok_app. split; [apply put_ok|exact IH].
Qed.

(** positions of records *)
Fixpoint rec_offsets (off : Z) (rs : list wrec) : list (Z * btfType) :=
  match rs with [] => [] | r :: rs' => (off, hdr r) :: rec_offsets (off + 12 + 4 * Z.of_nat (length (aux r))) rs' end.

Lemma records_encode bo rs : Forall rec_ok rs -> forall off, records bo off (concat (map (encodeRec bo) rs)) (rec_offsets off rs).
Proof.
  induction 1 as [|r rs (R1 & R2 & R3) _ IH]; intros off; cbn [map concat rec_offsets]; [constructor|].
  unfold encodeRec at 1. rewrite <- app_assoc.
  replace (4 * Z.of_nat (length (aux r))) with (Z.of_nat (length (concat (map (put bo 4) (aux r))))) by (rewrite words_length; lia).
  constructor; [exact R1| |apply IH]. rewrite words_length. replace (Z.of_nat (4 * length (aux r))) with (4 * Z.of_nat (length (aux r))) by lia. exact R2.
Qed.

Lemma word_at bo pre h ws post n w : nth_error ws n = Some w -> in_u 32 w ->
  word bo (pre ++ (encodeBtfType bo h ++ concat (map (put bo 4) ws)) ++ post) (Z.of_nat (length pre)) n = w.
Proof.
  intros E Hw. destruct (nth_error_split ws n E) as (a & b & -> & <-). unfold word.
  rewrite map_app, concat_app. cbn [map concat]. rewrite Nat2Z.id.
  replace (pre ++ (encodeBtfType bo h ++ concat (map (put bo 4) a) ++ put bo 4 w ++ concat (map (put bo 4) b)) ++ post)
    with ((pre ++ encodeBtfType bo h ++ concat (map (put bo 4) a)) ++ put bo 4 w ++ (concat (map (put bo 4) b) ++ post)) by (rewrite <- !app_assoc; reflexivity).
  replace (length pre + 12 + 4 * length a)%nat with (length (pre ++ encodeBtfType bo h ++ concat (map (put bo 4) a))).
  - rewrite get_at_put. apply get32_put. exact Hw.
  - unfold encodeBtfType. rewrite !app_length, !put_length, words_length. lia.
Qed.

Lemma readRec_encode bo pre r post : rec_ok r ->
  readRec bo (pre ++ encodeRec bo r ++ post) (Z.of_nat (length pre), hdr r) = r.
Proof.
  intros (R1 & R2 & R3). destruct r as [h ws]. cbn [hdr aux] in *. unfold readRec. cbn [fst snd].
  rewrite (proj2 (DataLen_aux h _) R2). rewrite Z.mul_comm, Z.div_mul by lia. rewrite Nat2Z.id. f_equal.
  apply nth_error_ext. intros i. rewrite nth_error_map'.
  destruct (Nat.lt_ge_cases i (length ws)) as [L|L].
  - destruct (nth_error ws i) as [w|] eqn:Ew; [|apply nth_error_None in Ew; lia].
    rewrite (nth_error_nth' _ 0%nat) by (rewrite seq_length; exact L). rewrite seq_nth by exact L. cbn [Nat.add option_map]. f_equal.
    unfold encodeRec. cbn [hdr aux]. apply word_at; [exact Ew|]. rewrite Forall_forall in R3. apply R3. apply (nth_error_In _ i). exact Ew.
  - rewrite (proj2 (nth_error_None (seq 0 (length ws)) i)) by (rewrite seq_length; exact L).
    rewrite (proj2 (nth_error_None ws i)) by exact L. reflexivity.
Qed.

Lemma readRecs_encode_aux bo rs : Forall rec_ok rs -> forall pre,
  map (readRec bo (pre ++ concat (map (encodeRec bo) rs))) (rec_offsets (Z.of_nat (length pre)) rs) = rs.
Proof.
  induction 1 as [|r rs R _ IH]; intros pre; [reflexivity|]. cbn [map concat rec_offsets]. f_equal.
  - apply readRec_encode. exact R.
  - specialize (IH (pre ++ encodeRec bo r)). rewrite <- app_assoc in IH. rewrite app_length, encodeRec_length in IH.
    replace (Z.of_nat (length pre) + 12 + 4 * Z.of_nat (length (aux r))) with (Z.of_nat (length pre + (12 + 4 * length (aux r)))) by lia. exact IH.
Qed.

Lemma concat_encode_ok bo rs : bytes_ok (concat (map (encodeRec bo) rs)).
Proof. induction rs; [constructor|]. cbn. apply bytes_ok_app. split; [apply encodeRec_ok|assumption]. Qed.

Lemma readRecs_encode bo rs : Forall rec_ok rs -> readRecs bo (concat (map (encodeRec bo) rs)) = Ok rs.
Proof.
  intros H. unfold readRecs, allBtfTypeOffsets.
  rewrite (scan_complete bo _ _ 0 (rec_offsets 0 rs)); [|lia|cbn; lia|lia|apply records_encode; assumption].
  f_equal. apply (readRecs_encode_aux bo rs H []).
Qed.

(** bytes of a record's data as words *)
Lemma data_words bo data n : bytes_ok data -> length data = (4 * n)%nat ->
  exists ws, length ws = n /\ Forall (in_u 32) ws /\ data = concat (map (put bo 4) ws).
Proof.
  revert data; induction n as [|n IH]; intros data B L.
  - exists []. destruct data; [|cbn in L; lia]. repeat split. constructor.
  - destruct (IH (skipn 4 data)) as (ws & L1 & F & E); [apply skipn_bytes; assumption|rewrite skipn_length; lia|].
    exists (get bo (at_ data 0 4) :: ws). split; [cbn; lia|]. split.
    + constructor; [|exact F]. apply get32_range; [apply at_bytes; assumption|apply at_length; lia].
    + cbn [map concat]. rewrite (put_get' bo 4) by (try (apply at_bytes; assumption); apply at_length; lia). rewrite <- E.
      apply (at_split data 0 4).
Qed.
Lemma records_words bo off buf l : records bo off buf l -> bytes_ok buf ->
  exists rs, Forall rec_ok rs /\ buf = concat (map (encodeRec bo) rs) /\ l = rec_offsets off rs.
Proof.
  induction 1 as [|off h data rest l R A _ IH]; intros B; [exists []; repeat split; constructor|].
  apply bytes_ok_app in B. destruct B as [_ B]. apply bytes_ok_app in B. destruct B as [Bd Br].
  destruct (IH Br) as (rs & F & E & ->). destruct (aux_len_nonneg _ _ A) as [N0 N4].
  destruct (data_words bo data (length data / 4)) as (ws & L1 & Fw & Ew); [exact Bd| |].
  { pose proof (Z.div_mod (Z.of_nat (length data)) 4 ltac:(lia)) as D. rewrite N4 in D.
    apply Nat2Z.inj. rewrite Nat2Z.inj_mul, Nat2Z.inj_div. cbn [Z.of_nat Pos.of_succ_nat Pos.succ] in *. lia. }
  assert (Ld : length data = (4 * length ws)%nat) by (rewrite Ew, words_length; reflexivity).
  exists (mkRec h ws :: rs). split; [|split].
  - constructor; [|exact F]. split; [exact R|]. split; [|exact Fw]. cbn [hdr aux].
    replace (4 * Z.of_nat (length ws)) with (Z.of_nat (length data)) by lia. exact A.
  - cbn [map concat]. unfold encodeRec at 1. cbn [hdr aux]. rewrite <- Ew, <- app_assoc, E. reflexivity.
  - cbn [rec_offsets hdr aux]. do 2 f_equal. lia.
Qed.
Lemma readRecs_sound bo buf rs : bytes_ok buf -> readRecs bo buf = Ok rs -> Forall rec_ok rs /\ buf = concat (map (encodeRec bo) rs).
Proof.
  intros B. unfold readRecs. destruct (allBtfTypeOffsets bo buf) as [l|] eqn:E; [|discriminate]. intros X; inversion X; subst rs; clear X.
  unfold allBtfTypeOffsets in E. apply scan_sound in E; [|assumption|lia|lia]. cbn [Z.to_nat skipn] in E.
  destruct (records_words _ _ _ _ E B) as (rs & F & Eb & ->). pose proof (readRecs_encode_aux bo rs F []) as X. cbn [app length Z.of_nat] in X. rewrite Eb, X. auto.
Qed.
