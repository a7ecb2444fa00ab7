From Coq Require Import ZArith List Lia Bool.
From Verif.Base Require Import GoInt.
From Verif.Internal Require Import Math.
Open Scope Z_scope.

Lemma width_pos t : go_int t -> 0 < width t.
Proof. unfold go_int. lia. Qed.
Lemma wrap_id t x : go_int t -> in_ity t x -> wrap t x = x.
Proof.
  intros Hg. pose proof (width_pos t Hg). unfold wrap, in_ity. destruct (signed t); intros H0; [apply sext_id|apply wrapu_id]; lia || assumption.
Qed.
Lemma in_ity_between t x y z : in_ity t x -> in_ity t z -> x <= y <= z -> in_ity t y.
Proof. unfold in_ity, in_s, in_u. destruct (signed t); lia. Qed.
Lemma in_ity_0 t : go_int t -> in_ity t 0.
Proof.
  intros Hg. pose proof (width_pos t Hg). unfold in_ity, in_s, in_u.
  pose proof (pow2_pos (width t - 1) ltac:(lia)). pose proof (pow2_pos (width t) ltac:(lia)). destruct (signed t); lia.
Qed.

Lemma align_ok t n a : go_int t -> 0 <= n -> 0 < a -> in_ity t (n + a) ->
  (a | Align t n a) /\ n <= Align t n a /\ forall m, (a | m) -> n <= m -> Align t n a <= m.
Proof.
  intros Hg Hn Ha Hr. pose proof (in_ity_0 t Hg) as H0.
  assert (E : Align t n a = (n + a - 1) / a * a).
  { unfold Align. rewrite (wrap_id t (n + a)) by assumption.
    rewrite (wrap_id t (n + a - 1)) by (try assumption; apply (in_ity_between t 0 _ (n + a)); try assumption; lia).
    rewrite Z.quot_div_nonneg by lia. apply wrap_id; [assumption|].
    pose proof (Z.div_mod (n + a - 1) a ltac:(lia)). pose proof (Z.mod_pos_bound (n + a - 1) a ltac:(lia)).
    apply (in_ity_between t 0 _ (n + a)); try assumption. nia. }
  rewrite E. pose proof (Z.div_mod (n + a - 1) a ltac:(lia)). pose proof (Z.mod_pos_bound (n + a - 1) a ltac:(lia)).
  split; [exists ((n + a - 1) / a); reflexivity|]. split; [nia|].
  intros m [q ->] Hm. set (d := (n + a - 1) / a) in *. destruct (Z_le_gt_dec d q); nia.
Qed.

Lemma pow2_land k : 0 <= k -> Z.land (2 ^ k) (2 ^ k - 1) = 0.
Proof.
  intros Hk. rewrite Z.sub_1_r, <- Z.ones_equiv. rewrite Z.land_ones by assumption. apply Z_mod_same_full.
Qed.
Lemma land_pred_pow2 n : 0 < n -> Z.land n (n - 1) = 0 -> n = 2 ^ Z.log2 n.
Proof.
  intros Hn E. set (k := Z.log2 n). pose proof (Z.log2_spec n Hn) as [L1 L2]. fold k in L1, L2.
  assert (Hk : 0 <= k) by apply Z.log2_nonneg.
  destruct (Z.eq_dec n (2 ^ k)) as [|N]; [assumption|]. exfalso.
  assert (T1 : Z.testbit n k = true) by (apply Z.bit_log2; assumption).
  assert (T2 : Z.testbit (n - 1) k = true).
  { rewrite Z.testbit_true by assumption. rewrite Z.pow_succ_r in L2 by assumption.
    assert (Q : (n - 1) / 2 ^ k = 1) by (symmetry; apply (Z.div_unique _ _ _ (n - 1 - 2 ^ k)); lia). rewrite Q. reflexivity. }
  assert (T : Z.testbit (Z.land n (n - 1)) k = true) by (rewrite Z.land_spec, T1, T2; reflexivity).
  rewrite E, Z.bits_0 in T. discriminate.
Qed.

Lemma ispow_ok t n : go_int t -> 0 <= n -> in_ity t n ->
  IsPow t n = true <-> exists k, 0 <= k /\ n = 2 ^ k.
Proof.
  intros Hg Hn Hr. unfold IsPow. destruct (Z.eqb_spec n 0) as [->|Nz]; cbn [negb andb].
  - split; [discriminate|]. intros (k & Hk & E). pose proof (pow2_pos k Hk). lia.
  - rewrite wrap_id; [|assumption|apply (in_ity_between t 0 _ n); [apply in_ity_0|assumption|lia]; assumption].
    rewrite Z.eqb_eq. split.
    + intros E. exists (Z.log2 n). split; [apply Z.log2_nonneg|]. apply land_pred_pow2; [lia|assumption].
    + intros (k & Hk & ->). apply pow2_land. assumption.
Qed.
