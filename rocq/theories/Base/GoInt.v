(** Fixed width Go integers, bytes and byte orders.

    Go's sized integers are modelled as [Z] with explicit wrap-around:
    - [wrapu w x]  : conversion to a [w]-bit unsigned integer,
    - [sext w x]   : conversion to a [w]-bit signed integer (two's complement).
    Byte slices are [list Z] with every element in [0,256). *)
From Coq Require Export ZArith List Lia Bool.
From Coq Require Export ZifyBool.
Export ListNotations.
Open Scope Z_scope.
Ltac Zify.zify_post_hook ::= Z.div_mod_to_equations.

(** Go conversion to uintW. *)
Definition wrapu (w x : Z) : Z := x mod 2 ^ w.
(** Go conversion to intW. *)
Definition sext (w x : Z) : Z :=
  let y := x mod 2 ^ w in if y <? 2 ^ (w - 1) then y else y - 2 ^ w.

Definition u8 := wrapu 8.
Definition u16 := wrapu 16.
Definition u32 := wrapu 32.
Definition u64 := wrapu 64.
Definition i16 := sext 16.
Definition i32 := sext 32.
Definition i64 := sext 64.

Definition in_u (w x : Z) : Prop := 0 <= x < 2 ^ w.
Definition in_s (w x : Z) : Prop := - 2 ^ (w - 1) <= x < 2 ^ (w - 1).

Definition is_byte (b : Z) : Prop := 0 <= b < 256.
Definition bytes_ok (l : list Z) : Prop := Forall is_byte l.

(** encoding/binary byte orders. Go also allows user defined orders; the library only
    ever passes LittleEndian, BigEndian or NativeEndian (one of the two). *)
Inductive byteorder := LE | BE.

(** little endian bytes of x, n bytes *)
Fixpoint le_bytes (n : nat) (x : Z) : list Z :=
  match n with
  | O => []
  | S n' => (x mod 256) :: le_bytes n' (x / 256)
  end.

Fixpoint le_val (l : list Z) : Z :=
  match l with
  | [] => 0
  | b :: l' => b + 256 * le_val l'
  end.

(** bo.PutUintN / bo.UintN *)
Definition put (bo : byteorder) (n : nat) (x : Z) : list Z :=
  match bo with LE => le_bytes n x | BE => rev (le_bytes n x) end.
Definition get (bo : byteorder) (l : list Z) : Z :=
  match bo with LE => le_val l | BE => le_val (rev l) end.

(** ** Error values *)
Inductive res (E A : Type) := Ok (a : A) | Err (e : E).
Arguments Ok {E A}. Arguments Err {E A}.
Definition is_ok {E A} (r : res E A) : bool := match r with Ok _ => true | Err _ => false end.

(** ** Lemmas *)

Lemma pow2_pos w : 0 <= w -> 0 < 2 ^ w.
Proof. intros; apply Z.pow_pos_nonneg; lia. Qed.

Lemma wrapu_range w x : 0 <= w -> in_u w (wrapu w x).
Proof. intros; unfold in_u, wrapu. apply Z.mod_pos_bound, pow2_pos; lia. Qed.

Lemma wrapu_id w x : in_u w x -> wrapu w x = x.
Proof. unfold in_u, wrapu; intros; apply Z.mod_small; lia. Qed.

Lemma pow2_half w : 0 < w -> 2 ^ w = 2 * 2 ^ (w - 1).
Proof. intros. replace w with (Z.succ (w - 1)) at 1 by lia. rewrite Z.pow_succ_r; lia. Qed.

Lemma sext_range w x : 0 < w -> in_s w (sext w x).
Proof.
  intros Hw; unfold in_s, sext.
  pose proof (pow2_half w Hw) as H2.
  pose proof (pow2_pos (w - 1) ltac:(lia)).
  pose proof (Z.mod_pos_bound x (2 ^ w) ltac:(lia)).
  destruct (Z.ltb_spec (x mod 2 ^ w) (2 ^ (w - 1))); lia.
Qed.

Lemma mod_unique x m y q : 0 <= y < m -> x = q * m + y -> x mod m = y.
Proof. intros H ->. rewrite Z.add_comm, Z.mod_add by lia. apply Z.mod_small; lia. Qed.

Lemma sext_id w x : 0 < w -> in_s w x -> sext w x = x.
Proof.
  intros Hw; unfold in_s, sext; intros Hx.
  pose proof (pow2_half w Hw) as H2.
  pose proof (pow2_pos (w - 1) ltac:(lia)).
  destruct (Z_lt_dec x 0).
  - rewrite (mod_unique x (2 ^ w) (x + 2 ^ w) (-1)) by lia.
    destruct (Z.ltb_spec (x + 2 ^ w) (2 ^ (w - 1))); lia.
  - rewrite Z.mod_small by lia.
    destruct (Z.ltb_spec x (2 ^ (w - 1))); lia.
Qed.

Lemma sext_mod w x : 0 < w -> (sext w x) mod 2 ^ w = x mod 2 ^ w.
Proof.
  intros Hw; unfold sext.
  pose proof (pow2_pos w ltac:(lia)).
  destruct (_ <? _).
  - apply Z.mod_mod; lia.
  - rewrite <- (Z.mod_add _ 1) by lia.
    replace (x mod 2 ^ w - 2 ^ w + 1 * 2 ^ w) with (x mod 2 ^ w) by lia.
    apply Z.mod_mod; lia.
Qed.

Lemma sext_wrapu w x : 0 < w -> sext w (wrapu w x) = sext w x.
Proof.
  intros; unfold sext, wrapu. rewrite Z.mod_mod; [reflexivity|].
  pose proof (pow2_pos w ltac:(lia)); lia.
Qed.

Lemma wrapu_sext w x : 0 < w -> wrapu w (sext w x) = wrapu w x.
Proof. intros; unfold wrapu; apply sext_mod; lia. Qed.

Lemma wrapu_wrapu w x : 0 <= w -> wrapu w (wrapu w x) = wrapu w x.
Proof. intros; unfold wrapu; apply Z.mod_mod. pose proof (pow2_pos w ltac:(lia)); lia. Qed.

Lemma sext_sext w x : 0 < w -> sext w (sext w x) = sext w x.
Proof. intros; apply sext_id; [lia | apply sext_range; lia]. Qed.

Lemma wrapu_inj_sext w x y :
  0 < w -> in_s w x -> in_s w y -> wrapu w x = wrapu w y -> x = y.
Proof.
  intros Hw Hx Hy H.
  rewrite <- (sext_id w x Hw Hx), <- (sext_id w y Hw Hy).
  rewrite <- (sext_wrapu w x), <- (sext_wrapu w y) by lia. now rewrite H.
Qed.

Lemma wrapu_le w1 w2 x : 0 <= w1 <= w2 -> wrapu w1 (wrapu w2 x) = wrapu w1 x.
Proof.
  intros H; unfold wrapu.
  replace (2 ^ w2) with (2 ^ w1 * 2 ^ (w2 - w1)).
  2:{ rewrite <- Z.pow_add_r by lia. f_equal; lia. }
  pose proof (pow2_pos w1 ltac:(lia)). pose proof (pow2_pos (w2 - w1) ltac:(lia)).
  rewrite Z.rem_mul_r by lia.
  rewrite Z.mul_comm, Z.mod_add by lia. apply Z.mod_mod; lia.
Qed.

(** *** bytes *)
Lemma le_bytes_length n x : length (le_bytes n x) = n.
Proof. revert x; induction n; simpl; intros; auto. Qed.

Lemma le_bytes_ok n x : bytes_ok (le_bytes n x).
Proof.
  revert x; induction n as [|n IH]; intros x; cbn [le_bytes]; constructor; [|apply IH].
  unfold is_byte. pose proof (Z.mod_pos_bound x 256 ltac:(lia)); lia.
Qed.

Lemma le_val_bytes n x : le_val (le_bytes n x) = x mod 256 ^ Z.of_nat n.
Proof.
  revert x; induction n as [|n IH]; intros x.
  - simpl. now rewrite Z.mod_1_r.
  - cbn [le_bytes le_val]. rewrite IH.
    rewrite Nat2Z.inj_succ, Z.pow_succ_r by lia.
    rewrite Z.rem_mul_r; [lia | lia | apply Z.pow_pos_nonneg; lia].
Qed.

Lemma le_val_range l : bytes_ok l -> 0 <= le_val l < 256 ^ Z.of_nat (length l).
Proof.
  induction 1 as [|b l Hb Hl IH]; [simpl; lia|].
  cbn [le_val length]. rewrite Nat2Z.inj_succ, Z.pow_succ_r by lia.
  unfold is_byte in Hb; lia.
Qed.

Lemma le_bytes_val l : bytes_ok l -> le_bytes (length l) (le_val l) = l.
Proof.
  induction 1 as [|b l Hb Hl IH]; [reflexivity|].
  cbn [le_val length le_bytes]. unfold is_byte in Hb.
  rewrite (Z.mul_comm 256), Z.mod_add, Z.div_add by lia.
  rewrite Z.mod_small, Z.div_small by lia. cbn [Z.add]. now rewrite IH.
Qed.

Lemma bytes_ok_rev l : bytes_ok l -> bytes_ok (rev l).
Proof. intros H; apply Forall_rev; exact H. Qed.

Lemma bytes_ok_app l m : bytes_ok (l ++ m) <-> bytes_ok l /\ bytes_ok m.
Proof. apply Forall_app. Qed.

Lemma put_length bo n x : length (put bo n x) = n.
Proof. destruct bo; cbn [put]; rewrite ?rev_length; apply le_bytes_length. Qed.

Lemma put_ok bo n x : bytes_ok (put bo n x).
Proof. destruct bo; cbn [put]; [|apply bytes_ok_rev]; apply le_bytes_ok. Qed.

Lemma get_put bo n x : get bo (put bo n x) = x mod 256 ^ Z.of_nat n.
Proof. destruct bo; cbn [put get]; rewrite ?rev_involutive; apply le_val_bytes. Qed.

Lemma get_range bo l : bytes_ok l -> 0 <= get bo l < 256 ^ Z.of_nat (length l).
Proof.
  destruct bo; cbn [get]; intros H; [now apply le_val_range|].
  rewrite <- rev_length. now apply le_val_range, bytes_ok_rev.
Qed.

Lemma put_get bo l : bytes_ok l -> put bo (length l) (get bo l) = l.
Proof.
  destruct bo; cbn [get put]; intros H; [now apply le_bytes_val|].
  rewrite <- rev_length, le_bytes_val by now apply bytes_ok_rev. apply rev_involutive.
Qed.

Lemma le_bytes_mod n x : le_bytes n (x mod 256 ^ Z.of_nat n) = le_bytes n x.
Proof.
  rewrite <- le_val_bytes.
  rewrite <- (le_bytes_length n x) at 1. apply le_bytes_val, le_bytes_ok.
Qed.

Lemma put_mod bo n x : put bo n (x mod 256 ^ Z.of_nat n) = put bo n x.
Proof. destruct bo; cbn [put]; now rewrite le_bytes_mod. Qed.

Lemma pow256_2 : 256 ^ Z.of_nat 2 = 2 ^ 16. Proof. reflexivity. Qed.
Lemma pow256_4 : 256 ^ Z.of_nat 4 = 2 ^ 32. Proof. reflexivity. Qed.
Lemma pow256_8 : 256 ^ Z.of_nat 8 = 2 ^ 64. Proof. reflexivity. Qed.

(** *** bit tricks *)
Lemma land_mask_mod x n : 0 <= n -> Z.land x (2 ^ n - 1) = x mod 2 ^ n.
Proof. intros. rewrite <- Z.land_ones by lia. now rewrite Z.ones_equiv, Z.sub_1_r. Qed.

Lemma testbit_high a n k : 0 <= a < 2 ^ n -> 0 <= n <= k -> Z.testbit a k = false.
Proof.
  intros. rewrite <- (Z.mod_small a (2 ^ n)) by lia. apply Z.mod_pow2_bits_high; lia.
Qed.

Lemma land_disjoint a b n :
  0 <= n -> 0 <= a < 2 ^ n -> Z.land (b * 2 ^ n) a = 0.
Proof.
  intros Hn Ha. apply Z.bits_inj'; intros k Hk.
  rewrite Z.land_spec, Z.bits_0, <- Z.shiftl_mul_pow2 by lia.
  destruct (Z_lt_dec k n).
  - now rewrite Z.shiftl_spec_low by lia.
  - rewrite (testbit_high a n k) by lia. apply andb_false_r.
Qed.

Lemma lor_disjoint_add a b n :
  0 <= n -> 0 <= a < 2 ^ n -> Z.lor (b * 2 ^ n) a = b * 2 ^ n + a.
Proof.
  intros Hn Ha. pose proof (land_disjoint a b n Hn Ha) as H.
  rewrite Z.add_nocarry_lxor by exact H. now rewrite Z.lxor_lor.
Qed.

(** a field of [w] bits at position [s] *)
Lemma land_field x s w :
  0 <= s -> 0 <= w -> Z.land x (Z.shiftl (2 ^ w - 1) s) = (x / 2 ^ s) mod 2 ^ w * 2 ^ s.
Proof.
  intros Hs Hw. rewrite <- Z.shiftl_mul_pow2, <- Z.shiftr_div_pow2 by lia.
  rewrite <- Z.land_ones by lia. rewrite Z.ones_equiv, <- Z.sub_1_r.
  apply Z.bits_inj'; intros k Hk. rewrite Z.land_spec.
  destruct (Z_lt_dec k s).
  - rewrite !Z.shiftl_spec_low by lia. apply andb_false_r.
  - rewrite !Z.shiftl_spec by lia. rewrite Z.land_spec, Z.shiftr_spec by lia.
    now replace (k - s + s) with k by lia.
Qed.

(** Go: v & ^m == 0 *)
Lemma ldiff_0_bits v m k : Z.ldiff v m = 0 -> Z.testbit v k = true -> Z.testbit m k = true.
Proof.
  intros H Hv. assert (Hk : Z.testbit (Z.ldiff v m) k = false) by now rewrite H, Z.bits_0.
  rewrite Z.ldiff_spec, Hv in Hk. now destruct (Z.testbit m k).
Qed.

(** writing a masked field: read back *)
Lemma set_get_same x m v : Z.ldiff v m = 0 -> Z.land (Z.lor (Z.ldiff x m) v) m = v.
Proof.
  intros H. apply Z.bits_inj'; intros k Hk.
  rewrite Z.land_spec, Z.lor_spec, Z.ldiff_spec.
  pose proof (ldiff_0_bits v m k H).
  destruct (Z.testbit x k), (Z.testbit m k), (Z.testbit v k); simpl; auto.
Qed.

(** writing a masked field: other bits unchanged *)
Lemma set_get_other x m v m' :
  Z.ldiff v m = 0 -> Z.land m m' = 0 -> Z.land (Z.lor (Z.ldiff x m) v) m' = Z.land x m'.
Proof.
  intros H Hm. apply Z.bits_inj'; intros k Hk.
  assert (Hb : Z.testbit (Z.land m m') k = false) by now rewrite Hm, Z.bits_0.
  rewrite Z.land_spec in Hb.
  rewrite !Z.land_spec, Z.lor_spec, Z.ldiff_spec.
  pose proof (ldiff_0_bits v m k H).
  destruct (Z.testbit x k), (Z.testbit m k), (Z.testbit v k), (Z.testbit m' k); simpl in *; auto;
    discriminate H0; auto.
Qed.

Lemma set_set x m v v' :
  Z.ldiff v m = 0 -> Z.lor (Z.ldiff (Z.lor (Z.ldiff x m) v) m) v' = Z.lor (Z.ldiff x m) v'.
Proof.
  intros H. f_equal. apply Z.bits_inj'; intros k Hk.
  rewrite !Z.ldiff_spec, Z.lor_spec, Z.ldiff_spec.
  pose proof (ldiff_0_bits v m k H).
  destruct (Z.testbit x k), (Z.testbit m k), (Z.testbit v k); simpl in *; auto;
    discriminate H0; auto.
Qed.

Lemma set_id x m : Z.lor (Z.ldiff x m) (Z.land x m) = x.
Proof.
  apply Z.bits_inj'; intros k Hk. rewrite Z.lor_spec, Z.ldiff_spec, Z.land_spec.
  destruct (Z.testbit x k), (Z.testbit m k); auto.
Qed.

Lemma land_ldiff_self x m : Z.land (Z.ldiff x m) m = 0.
Proof.
  apply Z.bits_inj'; intros k Hk. rewrite Z.land_spec, Z.ldiff_spec, Z.bits_0.
  destruct (Z.testbit x k), (Z.testbit m k); auto.
Qed.

Lemma land_ldiff_other x m m' : Z.land m m' = 0 -> Z.land (Z.ldiff x m) m' = Z.land x m'.
Proof.
  intros Hm. apply Z.bits_inj'; intros k Hk.
  assert (Hb : Z.testbit (Z.land m m') k = false) by now rewrite Hm, Z.bits_0.
  rewrite Z.land_spec in Hb.
  rewrite !Z.land_spec, Z.ldiff_spec.
  destruct (Z.testbit x k), (Z.testbit m k), (Z.testbit m' k); auto.
Qed.

Lemma land_lor_distr x y m : Z.land (Z.lor x y) m = Z.lor (Z.land x m) (Z.land y m).
Proof. apply Z.land_lor_distr_l. Qed.

Lemma lor_range a b n : 0 <= n -> 0 <= a < 2 ^ n -> 0 <= b < 2 ^ n -> 0 <= Z.lor a b < 2 ^ n.
Proof.
  intros Hn Ha Hb. split; [apply Z.lor_nonneg; lia|].
  destruct (Z.eq_dec (Z.lor a b) 0) as [->|Hne]; [lia|].
  apply Z.log2_lt_pow2; [pose proof (Z.lor_nonneg a b); lia|].
  rewrite Z.log2_lor by lia.
  assert (n <> 0) by (intros ->; assert (a = 0) by lia; assert (b = 0) by lia; subst; auto).
  assert (L : forall z, 0 <= z < 2 ^ n -> Z.log2 z < n).
  { intros z Hz. destruct (Z.eq_dec z 0) as [->|]; [cbn; lia|]. apply Z.log2_lt_pow2; lia. }
  pose proof (L a Ha). pose proof (L b Hb). lia.
Qed.

Lemma land_range a m n : 0 <= n -> 0 <= m < 2 ^ n -> 0 <= Z.land a m < 2 ^ n.
Proof.
  intros Hn Hm. split; [apply Z.land_nonneg; lia|].
  rewrite <- (Z.mod_small m (2 ^ n)) by lia.
  rewrite <- Z.land_ones, Z.land_assoc, Z.land_ones by lia.
  apply Z.mod_pos_bound, pow2_pos; lia.
Qed.

Lemma ldiff_range a m n : 0 <= n -> 0 <= a < 2 ^ n -> 0 <= Z.ldiff a m < 2 ^ n.
Proof.
  intros Hn Ha.
  replace (Z.ldiff a m) with (Z.land (Z.lnot m) a).
  - apply land_range; lia.
  - apply Z.bits_inj'; intros k Hk. rewrite Z.land_spec, Z.ldiff_spec, Z.lnot_spec by lia.
    apply andb_comm.
Qed.

Lemma ldiff_mask_0 x n : 0 <= n -> 0 <= x -> Z.ldiff x (2 ^ n - 1) = 0 <-> x < 2 ^ n.
Proof.
  intros Hn Hx.
  assert (E : Z.ldiff x (2 ^ n - 1) = (x / 2 ^ n) * 2 ^ n).
  { replace (2 ^ n - 1) with (Z.ones n) by (rewrite Z.ones_equiv; lia).
    rewrite Z.ldiff_ones_r, Z.shiftr_div_pow2, Z.shiftl_mul_pow2 by lia. reflexivity. }
  rewrite E. pose proof (pow2_pos n Hn).
  split; intros.
  - assert (x / 2 ^ n = 0) by nia. apply Z.div_small_iff in H1; lia.
  - rewrite Z.div_small; lia.
Qed.

Lemma Ok_inj {E A} (a b : A) : @Ok E A a = Ok b -> a = b.
Proof. congruence. Qed.
