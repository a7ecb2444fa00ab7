From Coq Require Import ZArith List Lia Bool.
From Verif.Base Require Import GoInt ListExtra.
From Verif.Internal Require Import Deque.
Import ListNotations.
Open Scope Z_scope.

Section P.
Context {A : Type} (zero : A).

Definition rep (d : deque A) (l : list A) : Prop :=
  exists r, dread d = u64 r /\ dwrite d = u64 (r + Z.of_nat (length l)) /\
    ((elems d = [] /\ mask d = 0 /\ l = []) \/
     exists k, 0 <= k <= 61 /\ Z.of_nat (length (elems d)) = 2 ^ k /\ mask d = 2 ^ k - 1 /\
       Z.of_nat (length l) <= 2 ^ k /\
       forall i, (i < length l)%nat -> nth_error (elems d) (Z.to_nat ((r + Z.of_nat i) mod 2 ^ k)) = nth_error l i).

Lemma mask_pos k p : 0 <= k <= 63 -> Z.land (u64 p) (2 ^ k - 1) = p mod 2 ^ k.
Proof.
  intros Hk. rewrite land_mask_mod by lia. pose proof (wrapu_le k 64 p ltac:(lia)) as W. exact W.
Qed.
Lemma u64_small x : 0 <= x < 2 ^ 64 -> u64 x = x.
Proof. intros H. apply wrapu_id. exact H. Qed.
Lemma u64_sub a b : u64 (u64 a - u64 b) = u64 (a - b).
Proof. unfold u64, wrapu. symmetry. apply Zminus_mod. Qed.
Lemma u64_add_l a b : u64 (u64 a + b) = u64 (a + b).
Proof. unfold u64, wrapu. apply Zplus_mod_idemp_l. Qed.
Lemma u64_sub_l a b : u64 (u64 a - b) = u64 (a - b).
Proof. unfold u64, wrapu. apply Zminus_mod_idemp_l. Qed.

Lemma set_nat_length (l : list A) : forall i x, length (set_nat l i x) = length l.
Proof. induction l; intros [|i] x; cbn; congruence. Qed.
Lemma set_nat_same (l : list A) : forall i x, (i < length l)%nat -> nth_error (set_nat l i x) i = Some x.
Proof. induction l; intros [|i] x; cbn; try lia; [reflexivity|]. intros. apply IHl. lia. Qed.
Lemma set_nat_other (l : list A) : forall i j x, i <> j -> nth_error (set_nat l i x) j = nth_error l j.
Proof. induction l; intros [|i] [|j] x; cbn; try congruence; auto. Qed.

Lemma mod_inj sz a i j : 0 < sz -> 0 <= i < sz -> 0 <= j < sz -> (a + i) mod sz = (a + j) mod sz -> i = j.
Proof.
  intros Hs Hi Hj E. assert (D : (i - j) mod sz = 0).
  { replace (i - j) with ((a + i) - (a + j)) by lia. rewrite Zminus_mod, E, Z.sub_diag. reflexivity. }
  apply Z.mod_divide in D; [|lia]. destruct D as [q D].
  assert (Q : q = 0) by (destruct (Z_lt_ge_dec q 0); [|destruct (Z_lt_ge_dec 0 q); [|lia]]; nia). subst q. lia.
Qed.

Lemma pow_bound k : 0 <= k <= 61 -> 0 < 2 ^ k <= 2305843009213693952.
Proof.
  intros Hk. split; [apply pow2_pos; lia|]. change 2305843009213693952 with (2 ^ 61). apply Z.pow_le_mono_r; lia.
Qed.

Lemma have_ok r (l : list A) k : 0 <= k <= 61 -> Z.of_nat (length l) <= 2 ^ k ->
  u64 (u64 (r + Z.of_nat (length l)) - u64 r) = Z.of_nat (length l).
Proof.
  intros Hk H. pose proof (pow_bound k Hk). rewrite u64_sub. replace (r + Z.of_nat (length l) - r) with (Z.of_nat (length l)) by lia.
  apply u64_small. change (2 ^ 64) with 18446744073709551616. lia.
Qed.

Lemma empty_ok d l : rep d l -> Empty d = match l with [] => true | _ => false end.
Proof.
  intros (r & Hr & Hw & H). unfold Empty. rewrite Hr, Hw. destruct l as [|x l]; [rewrite Z.add_0_r; apply Z.eqb_refl|].
  destruct H as [(_ & _ & ?)|(k & Hk & _ & _ & Hl & _)]; [discriminate|].
  apply Z.eqb_neq. intros E. pose proof (have_ok r (x :: l) k Hk Hl) as Hh. rewrite <- E, Z.sub_diag in Hh.
  change (u64 0) with 0 in Hh. cbn [length] in Hh. lia.
Qed.

Lemma bitlen_ok x : 0 <= x < 2 ^ 60 -> 0 <= bitlen x <= 60 /\ x < 2 ^ bitlen x.
Proof.
  intros H. unfold bitlen. destruct (Z.eqb_spec x 0) as [->|N]; [cbn; lia|].
  pose proof (Z.log2_spec x ltac:(lia)) as [L1 L2]. pose proof (Z.log2_nonneg x).
  assert (Z.log2 x < 60) by (apply Z.log2_lt_pow2; lia). replace (Z.log2 x + 1) with (Z.succ (Z.log2 x)) by lia. lia.
Qed.

Lemma rot_ok (e l : list A) r sz : (0 < length e)%nat -> Z.of_nat (length e) = sz -> (length l <= length e)%nat ->
  (forall i, (i < length l)%nat -> nth_error e (Z.to_nat ((r + Z.of_nat i) mod sz)) = nth_error l i) ->
  let pivot := Z.to_nat (r mod sz) in
  let f := firstn (length l) (skipn pivot e) in
  f ++ firstn (length l - length f) (firstn pivot e) = l.
Proof.
  intros He Hsz Hl Hi pivot f.
  assert (Hp : 0 <= r mod sz < sz) by (apply Z.mod_pos_bound; lia).
  assert (Lf : length f = Nat.min (length l) (length e - pivot)) by (unfold f; rewrite firstn_length, skipn_length; reflexivity).
  apply nth_error_ext. intros i.
  assert (Hmod : forall j, r mod sz + Z.of_nat j < sz -> (r + Z.of_nat j) mod sz = r mod sz + Z.of_nat j).
  { intros j Hj. rewrite <- Zplus_mod_idemp_l. apply Z.mod_small. lia. }
  assert (Hmod2 : forall j, sz <= r mod sz + Z.of_nat j < 2 * sz -> (r + Z.of_nat j) mod sz = r mod sz + Z.of_nat j - sz).
  { intros j Hj. rewrite <- Zplus_mod_idemp_l. symmetry. apply (Z.mod_unique_pos _ _ 1); lia. }
  destruct (Nat.lt_ge_cases i (length f)) as [L|L].
  - rewrite nth_error_app1 by assumption. rewrite <- Hi by lia. rewrite Hmod by (unfold pivot in *; lia).
    unfold f. rewrite nth_error_firstn_lt by lia. rewrite nth_error_skipn. f_equal. unfold pivot. lia.
  - rewrite nth_error_app2 by assumption.
    destruct (Nat.lt_ge_cases i (length l)) as [L2|L2].
    + rewrite <- Hi by assumption. rewrite Hmod2 by (unfold pivot in *; lia).
      rewrite nth_error_firstn_lt by lia. rewrite nth_error_firstn_lt by (unfold pivot in *; lia).
      f_equal. unfold pivot in *. lia.
    + rewrite (proj2 (nth_error_None l i)) by assumption. apply nth_error_None. rewrite !firstn_length. lia.
Qed.

Lemma pow_succ_max need : 1 <= need <= 2 ^ 60 ->
  exists k, 3 <= k <= 61 /\ Z.max (2 ^ bitlen (need - 1)) 8 = 2 ^ k /\ need <= 2 ^ k.
Proof.
  intros H. destruct (bitlen_ok (need - 1) ltac:(lia)) as [B1 B2].
  destruct (Z_le_gt_dec (bitlen (need - 1)) 3) as [L|L].
  - exists 3. assert (2 ^ bitlen (need - 1) <= 2 ^ 3) by (apply Z.pow_le_mono_r; lia). change (2 ^ 3) with 8 in *. lia.
  - exists (bitlen (need - 1)). assert (2 ^ 3 <= 2 ^ bitlen (need - 1)) by (apply Z.pow_le_mono_r; lia).
    change (2 ^ 3) with 8 in *. lia.
Qed.

Lemma grow_ok d l n : rep d l -> 0 <= n -> Z.of_nat (length l) + n <= 2 ^ 60 ->
  exists d', Grow zero d n = Some d' /\ rep d' l /\ Z.of_nat (length l) + n <= Z.of_nat (length (elems d')).
Proof.
  intros R Hn Hb. pose proof R as (r & Hr & Hw & H). unfold Grow. change (2 ^ 60) with 1152921504606846976 in Hb.
  assert (Hh : u64 (dwrite d - dread d) = Z.of_nat (length l)).
  { rewrite Hr, Hw, u64_sub. replace (r + Z.of_nat (length l) - r) with (Z.of_nat (length l)) by lia.
    apply u64_small. change (2 ^ 64) with 18446744073709551616. lia. }
  rewrite Hh. rewrite (u64_small n) by (change (2 ^ 64) with 18446744073709551616; lia).
  rewrite (u64_small (Z.of_nat (length l) + n)) by (change (2 ^ 64) with 18446744073709551616; lia).
  destruct (Z.ltb_spec (Z.of_nat (length l) + n) (Z.of_nat (length l))); [lia|].
  destruct (Z.geb_spec (Z.of_nat (length (elems d))) (Z.of_nat (length l) + n)).
  { exists d. split; [reflexivity|]. split; [assumption|lia]. }
  destruct (pow_succ_max (Z.of_nat (length l) + n)) as (k & Hk & Ek & Hneed); [change (2 ^ 60) with 1152921504606846976; lia|].
  rewrite (u64_small (Z.of_nat (length l) + n - 1)) by (change (2 ^ 64) with 18446744073709551616; lia).
  rewrite Ek. pose proof (pow_bound k ltac:(lia)) as Pk.
  rewrite (u64_small (2 ^ k - 1)) by (change (2 ^ 64) with 18446744073709551616; lia).
  set (pivot := Z.to_nat (Z.land (dread d) (mask d))). rewrite Nat2Z.id.
  assert (G : (pivot <= length (elems d))%nat /\
    firstn (length l) (skipn pivot (elems d)) ++
      firstn (length l - length (firstn (length l) (skipn pivot (elems d)))) (firstn pivot (elems d)) = l).
  { destruct H as [(E1 & E2 & ->)|(k0 & Hk0 & E1 & E2 & E3 & E4)].
    - unfold pivot. rewrite E1, E2, Z.land_0_r. split; reflexivity.
    - unfold pivot. rewrite Hr, E2, mask_pos by lia.
      pose proof (pow2_pos k0 ltac:(lia)) as P0. pose proof (Z.mod_pos_bound r (2 ^ k0) P0).
      split; [lia|]. apply rot_ok; [lia|exact E1|lia|exact E4]. }
  destruct G as [G1 G2]. destruct (Nat.ltb_spec (length (elems d)) pivot); [lia|].
  rewrite G2. eexists. split; [reflexivity|]. cbn [elems].
  assert (Le : length (l ++ repeat zero (Z.to_nat (2 ^ k) - length l)) = Z.to_nat (2 ^ k)) by (rewrite app_length, repeat_length; lia).
  split; [|rewrite Le; lia].
  exists 0. cbn [dread dwrite elems mask]. split; [reflexivity|].
  split; [rewrite u64_small; [reflexivity|change (2 ^ 64) with 18446744073709551616; lia]|].
  right. exists k. split; [lia|]. split; [rewrite Le; lia|]. split; [reflexivity|]. split; [lia|].
  intros i Hi. rewrite Z.mod_small by lia. rewrite Z.add_0_l, Nat2Z.id. apply nth_error_app1. assumption.
Qed.

Lemma push_ok d l x : rep d l -> Z.of_nat (length l) + 1 <= 2 ^ 60 ->
  exists d', Push zero d x = Some d' /\ rep d' (l ++ [x]).
Proof.
  intros R Hb. destruct (grow_ok d l 1 R ltac:(lia) Hb) as (d1 & E1 & R1 & L1). unfold Push. rewrite E1.
  destruct R1 as (r & Hr & Hw & [(E2 & _ & _)|(k & Hk & E2 & E3 & E4 & E5)]); [rewrite E2 in L1; cbn in L1; lia|].
  rewrite Hw, E3, mask_pos by lia. pose proof (pow_bound k Hk) as Pk.
  pose proof (Z.mod_pos_bound (r + Z.of_nat (length l)) (2 ^ k) ltac:(lia)) as Pm.
  unfold set_idx. destruct (Nat.ltb_spec (Z.to_nat ((r + Z.of_nat (length l)) mod 2 ^ k)) (length (elems d1))); [|lia].
  eexists. split; [reflexivity|]. exists r. cbn [dread dwrite elems mask].
  split; [assumption|]. split; [rewrite u64_add_l, app_length; f_equal; cbn; lia|].
  right. exists k. rewrite set_nat_length, app_length. cbn [length].
  split; [assumption|]. split; [assumption|]. split; [first [assumption | reflexivity]|]. split; [lia|].
  intros i Hi. destruct (Nat.eq_dec i (length l)) as [->|Ne].
  - rewrite set_nat_same by assumption. rewrite nth_error_app2, Nat.sub_diag by lia. reflexivity.
  - rewrite nth_error_app1 by lia. rewrite set_nat_other; [apply E5; lia|].
    intros Eq. apply Ne. apply Z2Nat.inj in Eq; [|lia|apply Z.mod_pos_bound; lia].
    apply mod_inj in Eq; lia.
Qed.

Lemma shift_ok d l : rep d l -> exists d', Shift zero d = Some (hd zero l, d') /\ rep d' (tl l).
Proof.
  intros R. unfold Shift. rewrite (empty_ok d l R). destruct l as [|x l]; [exists d; auto|].
  destruct R as (r & Hr & Hw & [(_ & _ & ?)|(k & Hk & E2 & E3 & E4 & E5)]); [discriminate|].
  rewrite Hr, E3, mask_pos by lia. pose proof (pow_bound k Hk) as Pk.
  pose proof (Z.mod_pos_bound r (2 ^ k) ltac:(lia)) as Pm.
  pose proof (E5 O ltac:(cbn; lia)) as E0. cbn [Z.of_nat nth_error] in E0. rewrite Z.add_0_r in E0.
  unfold idx, set_idx. rewrite E0. destruct (Nat.ltb_spec (Z.to_nat (r mod 2 ^ k)) (length (elems d))); [|lia].
  eexists. split; [reflexivity|]. exists (r + 1). cbn [dread dwrite elems mask hd tl]. cbn [length] in *.
  split; [apply u64_add_l|]. split; [rewrite Hw; f_equal; lia|].
  right. exists k. rewrite set_nat_length. split; [assumption|]. split; [assumption|]. split; [first [assumption | reflexivity]|]. split; [lia|].
  intros i Hi. rewrite set_nat_other.
  - pose proof (E5 (S i) ltac:(lia)) as E. cbn [nth_error] in E. rewrite <- E. do 2 f_equal. f_equal. lia.
  - intros Eq. apply Z2Nat.inj in Eq; [|lia|apply Z.mod_pos_bound; lia].
    replace (r + 1 + Z.of_nat i) with (r + (1 + Z.of_nat i)) in Eq by lia. replace r with (r + 0) in Eq at 1 by lia.
    apply mod_inj in Eq; lia.
Qed.

Lemma pop_ok d l : rep d l -> exists d', Pop zero d = Some (last l zero, d') /\ rep d' (removelast l).
Proof.
  intros R. unfold Pop. rewrite (empty_ok d l R). destruct l as [|x l0]; [exists d; auto|].
  set (l := x :: l0) in *. assert (Nl : l <> []) by discriminate. assert (Ll : (0 < length l)%nat) by (unfold l; cbn; lia).
  clearbody l. clear x l0.
  destruct R as (r & Hr & Hw & [(_ & _ & ?)|(k & Hk & E2 & E3 & E4 & E5)]); [contradiction|].
  rewrite Hw, u64_sub_l, E3, mask_pos by lia. pose proof (pow_bound k Hk) as Pk.
  pose proof (Z.mod_pos_bound (r + Z.of_nat (length l) - 1) (2 ^ k) ltac:(lia)) as Pm.
  pose proof (E5 (pred (length l)) ltac:(lia)) as E0.
  replace (r + Z.of_nat (pred (length l))) with (r + Z.of_nat (length l) - 1) in E0 by lia.
  rewrite (nth_error_last l zero Nl) in E0.
  unfold idx, set_idx. rewrite E0.
  destruct (Nat.ltb_spec (Z.to_nat ((r + Z.of_nat (length l) - 1) mod 2 ^ k)) (length (elems d))); [|lia].
  eexists. split; [reflexivity|]. exists r. cbn [dread dwrite elems mask]. rewrite removelast_length.
  split; [assumption|]. split; [f_equal; lia|].
  right. exists k. rewrite set_nat_length. split; [assumption|]. split; [assumption|]. split; [first [assumption | reflexivity]|]. split; [lia|].
  intros i Hi. rewrite nth_error_removelast by lia. rewrite set_nat_other; [apply E5; lia|].
  intros Eq. apply Z2Nat.inj in Eq; [|lia|apply Z.mod_pos_bound; lia].
  replace (r + Z.of_nat (length l) - 1) with (r + (Z.of_nat (length l) - 1)) in Eq by lia.
  apply mod_inj in Eq; lia.
Qed.

Lemma clear_ok m : forall n (e : list A) i, (forall j, (Z.to_nat (Z.land j m) < length e)%nat) ->
  exists e', clear zero e i m n = Some e' /\ length e' = length e.
Proof.
  induction n as [|n IH]; intros e i Hm; [exists e; auto|]. cbn [clear]. unfold set_idx.
  destruct (Nat.ltb_spec (Z.to_nat (Z.land i m)) (length e)); [|specialize (Hm i); lia].
  destruct (IH (set_nat e (Z.to_nat (Z.land i m)) zero) (u64 (i + 1))) as (e' & E & L).
  - intros j. rewrite set_nat_length. apply Hm.
  - exists e'. rewrite set_nat_length in L. auto.
Qed.

Lemma reset_ok d l : rep d l -> exists d', Reset zero d = Some d' /\ rep d' [].
Proof.
  intros (r & Hr & Hw & [(E1 & E2 & ->)|(k & Hk & E2 & E3 & E4 & E5)]); unfold Reset.
  - cbn [length Z.of_nat] in Hw. rewrite Z.add_0_r in Hw. rewrite Hr, Hw, Z.sub_diag. cbn [Z.to_nat clear].
    eexists. split; [reflexivity|]. exists 0. cbn [dread dwrite elems mask]. repeat split. left. auto.
  - pose proof (pow_bound k Hk) as Pk.
    destruct (clear_ok (mask d) (Z.to_nat (dwrite d - dread d)) (elems d) (dread d)) as (e' & E & L).
    + intros j. rewrite E3, land_mask_mod by lia. pose proof (Z.mod_pos_bound j (2 ^ k) ltac:(lia)). lia.
    + rewrite E. eexists. split; [reflexivity|]. exists 0. cbn [dread dwrite elems mask]. split; [reflexivity|]. split; [reflexivity|].
      right. exists k. split; [assumption|]. split; [lia|]. split; [assumption|]. split; [cbn; lia|]. cbn. intros; lia.
Qed.

Lemma op_ok o d l : rep d l ->
  (match o with OGrow n => 0 <= n /\ Z.of_nat (length l) + n <= 2 ^ 60 | OPush _ => Z.of_nat (length l) + 1 <= 2 ^ 60 | _ => True end) ->
  exists d', deque_op zero o d = Some (fst (list_op zero o l), d') /\ rep d' (snd (list_op zero o l)).
Proof.
  intros R H. destruct o as [x| | |n|]; cbn [deque_op list_op fst snd].
  - destruct (push_ok d l x R H) as (d' & -> & R'). exists d'. auto.
  - destruct (pop_ok d l R) as (d' & -> & R'). exists d'. auto.
  - destruct (shift_ok d l R) as (d' & -> & R'). exists d'. auto.
  - destruct H as [H1 H2]. destruct (grow_ok d l n R H1 H2) as (d' & -> & R' & _). exists d'. auto.
  - destruct (reset_ok d l R) as (d' & -> & R'). exists d'. auto.
Qed.

Lemma run_ok ops : forall d l, rep d l -> sizes_ok zero l ops -> deque_run zero d ops = Some (list_run zero l ops).
Proof.
  induction ops as [|o ops IH]; intros d l R H; [reflexivity|]. destruct H as [H1 H2]. cbn [deque_run list_run].
  destruct (op_ok o d l R H1) as (d' & E & R'). rewrite E. destruct (list_op zero o l) as [r l'] eqn:El. cbn [fst snd] in *.
  rewrite (IH d' l' R' H2). reflexivity.
Qed.
End P.

Lemma rep_start {A} r : rep (mkDeque ([] : list A) (u64 r) (u64 r) 0) [].
Proof. exists r. cbn. rewrite Z.add_0_r. repeat split. left. auto. Qed.

Lemma final_ok {A} (zero : A) ops : forall d l, rep d l -> sizes_ok zero l ops ->
  exists d', deque_final zero d ops = Some d' /\ rep d' (list_final zero l ops).
Proof.
  induction ops as [|o ops IH]; intros d l R H; [exists d; auto|]. destruct H as [H1 H2]. cbn [deque_final list_final].
  destruct (op_ok zero o d l R H1) as (d' & E & R'). rewrite E. apply IH; assumption.
Qed.
