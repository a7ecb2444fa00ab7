From Coq Require Import ZArith List Lia Bool.
From Verif.Base Require Import GoInt.
From Verif.Ringbuf Require Import Spec Model.
Import ListNotations.
Open Scope Z_scope.

(** * Bits of the length word *)
Lemma land_pow2 x n : 0 <= n -> Z.land x (2 ^ n) = if Z.testbit x n then 2 ^ n else 0.
Proof.
  intros Hn. apply Z.bits_inj'. intros k Hk. rewrite Z.land_spec.
  rewrite Z.pow2_bits_eqb by lia.
  destruct (Z.eqb_spec n k) as [->|H].
  - rewrite andb_true_r. destruct (Z.testbit x k); [rewrite Z.pow2_bits_eqb, Z.eqb_refl by lia|rewrite Z.bits_0]; reflexivity.
  - rewrite andb_false_r. destruct (Z.testbit x n); [rewrite Z.pow2_bits_eqb by lia; symmetry; apply Z.eqb_neq; lia|rewrite Z.bits_0]; reflexivity.
Qed.

Lemma isBusy_testbit w : isBusy w = Z.testbit w 31.
Proof.
  unfold isBusy. change BUSY_BIT with (2 ^ 31). rewrite land_pow2 by lia.
  destruct (Z.testbit w 31); reflexivity.
Qed.
Lemma isDiscard_testbit w : isDiscard w = Z.testbit w 30.
Proof.
  unfold isDiscard. change DISCARD_BIT with (2 ^ 30). rewrite land_pow2 by lia.
  destruct (Z.testbit w 30); reflexivity.
Qed.

Lemma dataLen_mod w : in_u 32 w -> dataLen w = w mod 2 ^ 30.
Proof.
  intros H. unfold dataLen.
  rewrite <- Z.land_ones by lia.
  apply Z.bits_inj'. intros k Hk. rewrite Z.ldiff_spec, Z.land_spec.
  rewrite Z.testbit_ones_nonneg by lia.
  change (Z.lor BUSY_BIT DISCARD_BIT) with (Z.shiftl 3 30).
  rewrite Z.shiftl_spec by lia.
  destruct (Z.ltb_spec k 30).
  - rewrite (Z.testbit_neg_r 3) by lia. reflexivity.
  - destruct (Z.ltb_spec k 32).
    + assert (k = 30 \/ k = 31) as [-> | ->] by lia; cbn; rewrite ?andb_false_r; reflexivity.
    + rewrite (testbit_high w 32 k) by (unfold in_u in H; lia). reflexivity.
Qed.

Lemma dataLen_range w : in_u 32 w -> 0 <= dataLen w < 2 ^ 30.
Proof. intros H. rewrite dataLen_mod by assumption. apply Z.mod_pos_bound. lia. Qed.

Lemma align_round8 n : 0 <= n -> align_int n 8 = round8 n.
Proof.
  intros H. unfold align_int, round8. rewrite Z.quot_div_nonneg by lia.
  replace (n + 8 - 1) with (n + 7) by lia. lia.
Qed.

Lemma round8_bounds n : n <= round8 n < n + 8.
Proof. unfold round8. lia. Qed.
Lemma round8_nonneg n : 0 <= n -> 0 <= round8 n.
Proof. unfold round8. lia. Qed.

Lemma rec_bytes_pos r : valid_len r -> 8 <= rec_bytes r.
Proof. intros [H _]. unfold rec_bytes. pose proof (round8_nonneg (k_len r) (proj1 H)). lia. Qed.

Lemma total_nonneg l : Forall valid_len l -> 0 <= total_bytes l.
Proof.
  induction 1 as [|r l H Hl IH]; [cbn; lia|].
  change (total_bytes (r :: l)) with (rec_bytes r + total_bytes l). pose proof (rec_bytes_pos r H). lia.
Qed.

Lemma len_word_range r : valid_len r -> in_u 32 (len_word r).
Proof. intros [H _]. unfold in_u, len_word. destruct (k_status r); lia. Qed.

Lemma len_word_facts r : valid_len r ->
  dataLen (len_word r) = k_len r /\
  isBusy (len_word r) = match k_status r with KBusy => true | _ => false end /\
  isDiscard (len_word r) = match k_status r with KDiscarded => true | _ => false end.
Proof.
  intros Hv. pose proof (len_word_range r Hv) as Hr. destruct Hv as [H _].
  rewrite dataLen_mod, isBusy_testbit, isDiscard_testbit by assumption.
  assert (Ht : forall k, 0 <= k -> Z.testbit (len_word r) k = Z.odd (len_word r / 2 ^ k)).
  { intros k Hk. rewrite Z.testbit_odd, Z.shiftr_div_pow2 by lia. reflexivity. }
  rewrite !Ht by lia. unfold len_word in *.
  change (2 ^ 32) with 4294967296 in *. change (2 ^ 31) with 2147483648 in *.
  change (2 ^ 30) with 1073741824 in *.
  destruct (k_status r).
  - replace ((k_len r + 2147483648) / 2147483648) with 1 by lia.
    replace ((k_len r + 2147483648) / 1073741824) with 2 by lia.
    split; [|split]; [lia|reflexivity|reflexivity].
  - replace ((k_len r + 0) / 2147483648) with 0 by lia.
    replace ((k_len r + 0) / 1073741824) with 0 by lia.
    split; [|split]; [lia|reflexivity|reflexivity].
  - replace ((k_len r + 1073741824) / 2147483648) with 0 by lia.
    replace ((k_len r + 1073741824) / 1073741824) with 1 by lia.
    split; [|split]; [lia|reflexivity|reflexivity].
Qed.

(** * Positions *)
Lemma mask_pos k p : 0 <= k <= 63 -> Z.land (u64 p) (rmask (2 ^ k)) = p mod 2 ^ k.
Proof.
  intros Hk. unfold rmask. rewrite land_mask_mod by lia. unfold u64, wrapu.
  assert (E : 2 ^ 64 = 2 ^ (64 - k) * 2 ^ k) by (rewrite <- Z.pow_add_r by lia; f_equal; lia).
  assert (0 < 2 ^ k) by (apply pow2_pos; lia).
  assert (0 < 2 ^ (64 - k)) by (apply pow2_pos; lia).
  rewrite E, (Z.mul_comm (2 ^ (64 - k))), Z.rem_mul_r by lia.
  rewrite Z.add_mod, Z.mul_comm, Z.mod_mul by lia.
  rewrite Z.add_0_r, Z.mod_mod, Z.mod_mod by lia. reflexivity.
Qed.

Lemma u64_small x : 0 <= x < 2 ^ 64 -> u64 x = x.
Proof. intros H. apply wrapu_id. exact H. Qed.

Lemma u64_sub a b : u64 (u64 a - u64 b) = u64 (a - b).
Proof. unfold u64, wrapu. rewrite <- Zminus_mod. reflexivity. Qed.
Lemma u64_add_l a b : u64 (u64 a + b) = u64 (a + b).
Proof. unfold u64, wrapu. rewrite Zplus_mod_idemp_l. reflexivity. Qed.
Lemma u64_sub_l a b : u64 (u64 a - b) = u64 (a - b).
Proof. unfold u64, wrapu. rewrite Zminus_mod_idemp_l. reflexivity. Qed.
Lemma u64_sub_r a b : u64 (a - u64 b) = u64 (a - b).
Proof. unfold u64, wrapu. rewrite Zminus_mod_idemp_r. reflexivity. Qed.

Lemma i64_small x : 0 <= x < 2 ^ 63 -> i64 x = x.
Proof. intros H. apply sext_id; [lia|]. unfold in_s. cbn in *. lia. Qed.

Lemma slice_stream sz mem pos n : 0 < sz ->
  slice_bytes sz mem (pos mod sz) n = stream_at sz mem pos n.
Proof.
  intros H. unfold slice_bytes, stream_at. apply map_ext. intros i.
  rewrite Zplus_mod_idemp_l. reflexivity.
Qed.

Lemma stream_length sz mem pos n : length (stream_at sz mem pos n) = Z.to_nat n.
Proof. unfold stream_at. rewrite map_length, seq_length. reflexivity. Qed.

(** * One record *)
Lemma rs_finish_ok k prod pos r :
  3 <= k <= 61 -> valid_len r -> k_status r <> KBusy ->
  rec_bytes r <= prod - pos <= 2 ^ k ->
  rs_finish (2 ^ k) (u64 prod) (u64 pos) (len_word r) =
  RSOk (match k_status r with
        | KDiscarded => None
        | _ => Some ((pos + 8) mod 2 ^ k, k_len r) end)
       (prod - (pos + rec_bytes r)) (u64 (pos + rec_bytes r)).
Proof.
  intros Hk Hv Hs Hp. pose proof Hv as Hv'. destruct Hv' as [Hl _].
  destruct (len_word_facts r Hv) as (E1 & E2 & E3).
  assert (B : 2 ^ k <= 2 ^ 61) by (apply Z.pow_le_mono_r; lia).
  assert (B3 : 2 ^ 3 <= 2 ^ k) by (apply Z.pow_le_mono_r; lia).
  unfold rs_finish, dataLenAligned. rewrite E1, E3. unfold HDR_SZ.
  rewrite align_round8 by lia.
  pose proof (round8_bounds (k_len r)) as Hr8. pose proof (round8_nonneg (k_len r) ltac:(lia)) as Hr0.
  unfold rec_bytes in *.
  change (2 ^ 61) with 2305843009213693952 in B. change (2 ^ 30) with 1073741824 in *.
  change (2 ^ 3) with 8 in B3.
  rewrite (u64_small (round8 _)) by (change (2 ^ 64) with 18446744073709551616; lia).
  rewrite (u64_small (k_len r)) by (change (2 ^ 64) with 18446744073709551616; lia).
  rewrite u64_add_l.
  rewrite u64_sub, (u64_small (prod - (pos + 8))) by (change (2 ^ 64) with 18446744073709551616; lia).
  destruct (Z.ltb_spec (prod - (pos + 8)) (round8 (k_len r))); [lia|].
  rewrite mask_pos by lia.
  pose proof (Z.mod_pos_bound (pos + 8) (2 ^ k) ltac:(lia)) as Hm.
  rewrite (u64_small ((pos + 8) mod 2 ^ k + k_len r))
    by (change (2 ^ 64) with 18446744073709551616; lia).
  destruct (Z.ltb_spec ((pos + 8) mod 2 ^ k + k_len r) ((pos + 8) mod 2 ^ k)); [lia|].
  destruct (Z.ltb_spec (2 * 2 ^ k) ((pos + 8) mod 2 ^ k + k_len r)); [lia|].
  cbn [orb].
  rewrite u64_add_l, u64_sub.
  rewrite (u64_small (prod - _)) by (change (2 ^ 64) with 18446744073709551616; lia).
  rewrite i64_small by (change (2 ^ 63) with 9223372036854775808; lia).
  replace (pos + 8 + round8 (k_len r)) with (pos + (8 + round8 (k_len r))) by lia.
  destruct (k_status r); [contradiction|reflexivity|reflexivity].
Qed.

Lemma load_len_ok bo k mem pos r :
  3 <= k <= 61 -> valid_len r ->
  stream_at (2 ^ k) mem pos 4 = put bo 4 (len_word r) ->
  load_len bo (2 ^ k) mem (u64 pos) = len_word r.
Proof.
  intros Hk Hv H. unfold load_len, hdr_index. rewrite mask_pos by lia.
  rewrite slice_stream by (apply pow2_pos; lia). rewrite H, get_put, pow256_4.
  apply Z.mod_small. exact (len_word_range r Hv).
Qed.

Lemma rs_check_ok prod pos : 8 <= prod - pos < 2 ^ 64 -> rs_check (u64 prod) (u64 pos) = None.
Proof.
  intros H. unfold rs_check. rewrite u64_sub, u64_small by lia.
  destruct (Z.eqb_spec (prod - pos) 0); [lia|]. unfold HDR_SZ.
  destruct (Z.ltb_spec (prod - pos) 8); [lia|reflexivity].
Qed.

Lemma rs_check_eor pos : rs_check (u64 pos) (u64 pos) = Some EOR.
Proof. unfold rs_check. rewrite Z.sub_diag. reflexivity. Qed.

Lemma readSample_ok bo k mem prod cons pos r :
  3 <= k <= 61 -> valid_len r -> k_status r <> KBusy ->
  laid_out bo (2 ^ k) mem pos r ->
  rec_bytes r <= prod - pos <= 2 ^ k ->
  readSample bo (mkRing (2 ^ k) mem (u64 prod) cons (u64 pos)) =
  (RdOk (match k_status r with KDiscarded => None | _ => Some ((pos + 8) mod 2 ^ k, k_len r) end)
        (prod - (pos + rec_bytes r)),
   mkRing (2 ^ k) mem (u64 prod) cons (u64 (pos + rec_bytes r))).
Proof.
  intros Hk Hv Hs [Hh _] Hp. unfold readSample. cbn [rprod rlocal rsize rmem rcons].
  pose proof (rec_bytes_pos r Hv).
  assert (B : 2 ^ k <= 2 ^ 61) by (apply Z.pow_le_mono_r; lia).
  rewrite rs_check_ok by (change (2 ^ 61) with 2305843009213693952 in B; change (2 ^ 64) with 18446744073709551616; lia).
  rewrite (load_len_ok bo k mem pos r) by assumption.
  destruct (len_word_facts r Hv) as (_ & E2 & _). rewrite E2.
  destruct (k_status r) eqn:Es; [contradiction| |]; rewrite rs_finish_ok by (rewrite ?Es; try assumption; congruence); rewrite Es; reflexivity.
Qed.

Lemma go_copy_same dst src : length dst = length src -> go_copy dst src = src.
Proof.
  intros H. unfold go_copy. rewrite H, Nat.min_id, firstn_all, <- H, skipn_all. apply app_nil_r.
Qed.

Lemma readInto_ok bo k mem old : 3 <= k <= 61 -> forall recs fuel prod cons pos,
  Forall valid_len recs -> Forall settled recs ->
  ring_holds bo (2 ^ k) mem pos recs ->
  prod = pos + total_bytes recs -> total_bytes recs <= 2 ^ k ->
  (length recs < fuel)%nat ->
  (exists n rec, readInto fuel bo old (mkRing (2 ^ k) mem (u64 prod) cons (u64 pos)) =
     (RiOk rec, mkRing (2 ^ k) mem (u64 prod) (u64 n) (u64 n)) /\
     exists pre r post p, recs = pre ++ r :: post /\ k_status r = KSubmitted p /\
       expected pre = [] /\ rec = mkRecord p (total_bytes post) /\
       n = pos + total_bytes (pre ++ [r]) /\ ring_holds bo (2 ^ k) mem n post)
  \/ (expected recs = [] /\
     readInto fuel bo old (mkRing (2 ^ k) mem (u64 prod) cons (u64 pos)) =
     (RiErr EOR, mkRing (2 ^ k) mem (u64 prod) (match recs with [] => cons | _ => u64 prod end) (u64 prod))).
Proof.
  intros Hk. induction recs as [|r recs IH]; intros fuel prod cons pos Hv Hs Hh Hprod Ht Hf.
  - right. split; [reflexivity|]. destruct fuel as [|f]; [cbn in Hf; lia|].
    cbn [readInto]. unfold readSample. cbn [rprod rlocal]. cbn in Hprod.
    rewrite Z.add_0_r in Hprod. subst prod. rewrite rs_check_eor. reflexivity.
  - inversion Hv as [|? ? Hvr Hvs]; subst. inversion Hs as [|? ? Hsr Hss]; subst.
    destruct Hh as [Hl Hh].
    pose proof (total_nonneg recs Hvs) as Hn. pose proof (rec_bytes_pos r Hvr) as Hb.
    cbn [total_bytes fold_right] in *. fold (total_bytes recs) in *.
    destruct fuel as [|f]; [cbn in Hf; lia|]. cbn [readInto].
    rewrite (readSample_ok bo k mem _ cons pos r) by (try assumption; lia).
    destruct (k_status r) as [|p|] eqn:Es.
    + exfalso. apply Hsr. assumption.
    + left. exists (pos + rec_bytes r). eexists. split; [reflexivity|].
      exists [], r, recs, p. split; [reflexivity|]. split; [assumption|].
      split; [reflexivity|]. split.
      * cbn [rsize rmem]. rewrite slice_stream by (apply pow2_pos; lia).
        destruct Hl as [_ Hp]. rewrite (Hp p Es).
        rewrite go_copy_same.
        -- f_equal. lia.
        -- destruct (Nat.ltb_spec (length old) (length p)); [apply repeat_length|].
           rewrite firstn_length. lia.
      * split; [cbn; lia|]. exact Hh.
    + unfold r_commit. cbn [rsize rmem rprod rlocal].
      destruct (IH f (pos + (rec_bytes r + total_bytes recs)) (u64 (pos + rec_bytes r)) (pos + rec_bytes r)
                   Hvs Hss Hh ltac:(lia) ltac:(lia) ltac:(cbn in Hf; lia))
        as [(n & rec & E & pre & r0 & post & p & E1 & E2 & E3 & E4 & E5 & E6)|(E0 & E)].
      * left. exists n, rec. split; [exact E|]. exists (r :: pre), r0, post, p.
        split; [cbn; congruence|]. split; [assumption|]. split; [cbn; rewrite Es; assumption|].
        split; [assumption|]. split; [cbn [app total_bytes fold_right]; fold (total_bytes (pre ++ [r0])); lia|assumption].
      * right. split; [cbn; rewrite Es; assumption|]. rewrite E.
        destruct recs as [|r1 recs]; [|reflexivity].
        cbn. rewrite Z.add_0_r. reflexivity.
Qed.

Lemma total_app a b : total_bytes (a ++ b) = total_bytes a + total_bytes b.
Proof.
  induction a as [|x a IH]; [reflexivity|].
  change (total_bytes ((x :: a) ++ b)) with (rec_bytes x + total_bytes (a ++ b)).
  change (total_bytes (x :: a)) with (rec_bytes x + total_bytes a). lia.
Qed.

Lemma expected_app_nil pre post : expected pre = [] -> expected (pre ++ post) = expected post.
Proof.
  induction pre as [|x pre IH]; cbn; [reflexivity|]. destruct (k_status x); [exact IH|discriminate|exact IH].
Qed.

Lemma drain_ok bo k mem olds : 3 <= k <= 61 -> forall m recs fuel prod cons pos,
  (length recs <= m)%nat ->
  Forall valid_len recs -> Forall settled recs ->
  ring_holds bo (2 ^ k) mem pos recs ->
  prod = pos + total_bytes recs -> total_bytes recs <= 2 ^ k ->
  (length recs < fuel)%nat ->
  cons = u64 pos ->
  drain fuel bo olds (mkRing (2 ^ k) mem (u64 prod) cons (u64 pos)) =
  (map (fun '(p, rem) => mkRecord p rem) (expected recs), RiErr EOR,
   mkRing (2 ^ k) mem (u64 prod) (u64 prod) (u64 prod)).
Proof.
  intros Hk. induction m as [|m IH]; intros recs fuel prod cons pos Hm Hv Hs Hh Hprod Ht Hf Hc.
  - destruct recs; [|cbn in Hm; lia]. destruct fuel as [|f]; [lia|]. cbn [drain].
    destruct (readInto_ok bo k mem (olds (S f)) Hk [] (S f) prod cons pos Hv Hs Hh Hprod Ht Hf)
      as [(n & rec & _ & pre & r0 & post & p & E1 & _)|(_ & E)].
    + destruct pre; discriminate.
    + rewrite E. cbn in Hprod. cbn. replace prod with pos by lia. subst cons. reflexivity.
  - destruct fuel as [|f]; [lia|]. cbn [drain].
    destruct (readInto_ok bo k mem (olds (S f)) Hk recs (S f) prod cons pos Hv Hs Hh Hprod Ht Hf)
      as [(n & rec & E & pre & r0 & post & p & E1 & E2 & E3 & E4 & E5 & E6)|(E0 & E)].
    + rewrite E. subst recs.
      assert (Hv0 : Forall valid_len (pre ++ [r0])).
      { apply Forall_app in Hv. destruct Hv as [Ha Hb]. inversion Hb; subst.
        apply Forall_app. split; [assumption|]. constructor; [assumption|constructor]. }
      apply Forall_app in Hv. destruct Hv as [_ Hv]. inversion Hv as [|? ? Hv1 Hv2]; subst.
      apply Forall_app in Hs. destruct Hs as [_ Hs]. inversion Hs as [|? ? Hs1 Hs2]; subst.
      rewrite app_length in Hm, Hf. cbn in Hm, Hf.
      pose proof (total_nonneg _ Hv0) as Hn0.
      rewrite !total_app in *. cbn [total_bytes fold_right] in *. fold (total_bytes post) in *.
      rewrite (IH post) with (cons := u64 (pos + (total_bytes pre + (rec_bytes r0 + 0))))
                             (pos := pos + (total_bytes pre + (rec_bytes r0 + 0)));
        try assumption; try lia; try reflexivity.
      rewrite (expected_app_nil pre) by assumption. cbn [expected]. rewrite E2. reflexivity.
    + rewrite E, E0. cbn [map]. destruct recs; [|reflexivity].
      cbn in Hprod. replace prod with pos by lia. subst cons. reflexivity.
Qed.

(** * Arbitrary ring contents (C16) *)
Lemma align_bounds n : 0 <= n -> n <= align_int n 8 < n + 8.
Proof. intros H. rewrite align_round8 by lia. apply round8_bounds. Qed.

Lemma load_len_range bo sz mem local :
  (forall i, is_byte (mem i)) -> in_u 32 (load_len bo sz mem local).
Proof.
  intros H. unfold load_len, in_u.
  set (l := slice_bytes sz mem (hdr_index sz local) 4).
  assert (Hl : length l = 4%nat) by (unfold l, slice_bytes; rewrite map_length, seq_length; reflexivity).
  pose proof (get_range bo l) as G. rewrite Hl, pow256_4 in G. apply G.
  unfold l, slice_bytes. apply Forall_map, Forall_forall. intros; apply H.
Qed.

Lemma readSample_safe bo r out r' :
  valid_size (rsize r) -> (forall i, is_byte (rmem r i)) ->
  in_u 64 (rprod r) -> in_u 64 (rlocal r) ->
  readSample bo r = (out, r') ->
  rsize r' = rsize r /\ rmem r' = rmem r /\ rprod r' = rprod r /\ rcons r' = rcons r /\ in_u 64 (rlocal r') /\
  match out with
  | RdOk d remain =>
      exists n adv, 0 <= n < 2 ^ 30 /\ adv = 8 + round8 n /\
        adv <= (rprod r - rlocal r) mod 2 ^ 64 /\
        rlocal r' = (rlocal r + adv) mod 2 ^ 64 /\
        (rprod r' - rlocal r') mod 2 ^ 64 = (rprod r - rlocal r) mod 2 ^ 64 - adv /\
        (forall start len, d = Some (start, len) ->
           len = n /\ 0 <= start < rsize r /\ start + len <= 2 * rsize r)
  | RdPanic => rsize r < dataLen (load_len bo (rsize r) (rmem r) (rlocal r)) /\ r' = r
  | _ => r' = r
  end.
Proof.
  intros (k & Hk & Hsz) Hmem Hp Hl H. unfold readSample in H.
  destruct (rs_check (rprod r) (rlocal r)) eqn:Ec.
  { inversion H; subst. repeat (split; [reflexivity|]). split; [assumption|reflexivity]. }
  assert (H8 : 8 <= u64 (rprod r - rlocal r)).
  { unfold rs_check, HDR_SZ in Ec. destruct (_ =? 0); [discriminate|].
    destruct (Z.ltb_spec (u64 (rprod r - rlocal r)) 8); [discriminate|lia]. }
  clear Ec. pose proof (load_len_range bo (rsize r) (rmem r) (rlocal r) Hmem) as Hw.
  set (w := load_len bo (rsize r) (rmem r) (rlocal r)) in *.
  destruct (isBusy w).
  { inversion H; subst. repeat (split; [reflexivity|]). split; [assumption|reflexivity]. }
  pose proof (dataLen_range w Hw) as Hd.
  assert (B : 2 ^ k <= 2 ^ 61) by (apply Z.pow_le_mono_r; lia).
  assert (B3 : 0 < 2 ^ k) by (apply pow2_pos; lia).
  unfold rs_finish in H. unfold dataLenAligned in H. rewrite align_round8 in H by lia.
  unfold HDR_SZ in H.
  pose proof (round8_bounds (dataLen w)) as R. pose proof (round8_nonneg (dataLen w) ltac:(lia)) as R0.
  rewrite (u64_small (round8 _)) in H by (change (2 ^ 30) with 1073741824 in *; change (2 ^ 64) with 18446744073709551616; lia).
  rewrite (u64_small (dataLen w)) in H by (change (2 ^ 30) with 1073741824 in *; change (2 ^ 64) with 18446744073709551616; lia).
  rewrite u64_sub_r, u64_add_l, u64_sub_r in H.
  replace (rprod r - (rlocal r + 8)) with (rprod r - rlocal r - 8) in H by lia.
  assert (E8 : u64 (rprod r - rlocal r - 8) = u64 (rprod r - rlocal r) - 8).
  { rewrite <- u64_sub_l. apply u64_small. pose proof (wrapu_range 64 (rprod r - rlocal r) ltac:(lia)) as W.
    unfold in_u in W. fold u64 in W. lia. }
  rewrite E8 in H.
  destruct (Z.ltb_spec (u64 (rprod r - rlocal r) - 8) (round8 (dataLen w))) as [Hlt|Hge].
  { inversion H; subst. repeat (split; [reflexivity|]). split; [assumption|reflexivity]. }
  rewrite Hsz in H. rewrite mask_pos in H by lia. rewrite <- Hsz in H.
  pose proof (Z.mod_pos_bound (rlocal r + 8) (2 ^ k) B3) as Hm. rewrite <- Hsz in Hm.
  rewrite <- Hsz in B, B3.
  set (start := (rlocal r + 8) mod rsize r) in *.
  change (2 ^ 61) with 2305843009213693952 in B. change (2 ^ 30) with 1073741824 in *.
  rewrite (u64_small (start + dataLen w)) in H by (change (2 ^ 64) with 18446744073709551616; lia).
  destruct (Z.ltb_spec (start + dataLen w) start); [lia|]. cbn [orb] in H.
  destruct (Z.ltb_spec (2 * rsize r) (start + dataLen w)) as [Hpan|Hno].
  { inversion H; subst. repeat (split; [reflexivity|]). split; [assumption|]. split; [lia|reflexivity]. }
  assert (W : in_u 64 (u64 (rprod r - rlocal r))) by (apply wrapu_range; lia). unfold in_u in W.
  assert (K : exists d, out = RdOk d (i64 (u64 (rprod r - (rlocal r + 8 + round8 (dataLen w))))) /\
      r' = mkRing (rsize r) (rmem r) (rprod r) (rcons r) (u64 (rlocal r + 8 + round8 (dataLen w))) /\
      (d = None \/ d = Some (start, dataLen w))).
  { destruct (isDiscard w); inversion H; subst; eexists; (split; [reflexivity|]); (split; [reflexivity|]); auto. }
  destruct K as (d & -> & -> & Hd').
  cbn [rsize rmem rprod rcons rlocal].
  repeat (split; [reflexivity|]). split; [apply wrapu_range; lia|].
  exists (dataLen w), (8 + round8 (dataLen w)).
  split; [lia|]. split; [reflexivity|]. change ((rprod r - rlocal r) mod 2 ^ 64) with (u64 (rprod r - rlocal r)).
  split; [lia|]. split; [unfold u64, wrapu; f_equal; lia|]. split.
  - change ((rprod r - u64 (rlocal r + 8 + round8 (dataLen w))) mod 2 ^ 64)
      with (u64 (rprod r - u64 (rlocal r + 8 + round8 (dataLen w)))).
    rewrite u64_sub_r.
    replace (rprod r - (rlocal r + 8 + round8 (dataLen w)))
      with (rprod r - rlocal r - (8 + round8 (dataLen w))) by lia.
    rewrite <- u64_sub_l. apply u64_small. lia.
  - intros st len ->. destruct Hd' as [?|E]; [discriminate|]. inversion E; subst. lia.
Qed.
