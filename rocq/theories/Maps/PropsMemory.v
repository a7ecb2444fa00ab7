(** C47: accesses to mapped memory stay in bounds. *)
From Coq Require Import ZArith List Lia Bool.
From Verif.Base Require Import GoInt ListExtra.
From Verif.Maps Require Import Memory.
Import ListNotations.
Open Scope Z_scope.

(** ** Specification: memory as a function of byte positions *)
(** writing [p] at [off] changes exactly the positions off .. off+|p|-1 that exist *)
Definition wrote (b b' : list Z) (off : nat) (p : list Z) : Prop :=
  length b' = length b /\
  forall i, nth_error b' i =
    if ((off <=? i) && (i <? off + length p) && (i <? length b))%nat then nth_error p (i - off) else nth_error b i.

Lemma copy_at_spec dst at_ src dst' n : (at_ <= length dst)%nat -> copy_at dst at_ src = (dst', n) ->
  n = Nat.min (length dst - at_) (length src) /\ wrote dst dst' at_ src.
Proof.
  intros H E. unfold copy_at in E. remember (Nat.min (length dst - at_) (length src)) as m eqn:Em. inversion E; subst dst' n; clear E.
  split; [reflexivity|]. split.
  - rewrite !app_length, !firstn_length, skipn_length. lia.
  - intros i. rewrite nth_error_app_full, firstn_length, Nat.min_l by lia.
    destruct (Nat.ltb_spec i at_) as [C|C].
    + rewrite nth_error_firstn_lt by assumption. destruct (Nat.leb_spec at_ i); [lia|]. reflexivity.
    + rewrite nth_error_app_full, firstn_length, Nat.min_l by lia. destruct (Nat.leb_spec at_ i); [|lia]. cbn [andb].
      destruct (Nat.ltb_spec (i - at_) m) as [D|D].
      * rewrite nth_error_firstn_lt by assumption. destruct (Nat.ltb_spec i (at_ + length src)), (Nat.ltb_spec i (length dst)); try lia. reflexivity.
      * rewrite nth_error_skipn. replace (at_ + m + (i - at_ - m))%nat with i by lia.
        destruct (Nat.ltb_spec i (at_ + length src)), (Nat.ltb_spec i (length dst)); try lia; reflexivity.
Qed.

(** ** Theorems *)
(** The bounds check never accepts an access that leaves the mapping, even when off+size overflows 32 bits, and
    accepts every access inside a mapping below 4 GiB. *)
Theorem C47_bounds : forall mm off size, in_u 32 off -> in_u 32 size ->
  (bounds mm off size = true -> off + size <= Z.of_nat (length (bytes mm))) /\
  (Z.of_nat (length (bytes mm)) < 2 ^ 32 -> off + size <= Z.of_nat (length (bytes mm)) -> bounds mm off size = true).
Proof.
  intros mm off size Ho Hs. unfold bounds, in_u in *. change (2 ^ 32) with 4294967296 in *.
  assert (U : u32 (off + size) = off + size \/ u32 (off + size) = off + size - 4294967296).
  { unfold u32, wrapu. change (2 ^ 32) with 4294967296. lia. }
  assert (L : u32 (Z.of_nat (length (bytes mm))) <= Z.of_nat (length (bytes mm))).
  { unfold u32, wrapu. change (2 ^ 32) with 4294967296. apply Z.mod_le; lia. }
  split.
  - intros H. destruct (Z.ltb_spec (u32 (off + size)) off); [discriminate|]. apply Z.leb_le in H. lia.
  - intros Hl H. replace (u32 (off + size)) with (off + size) by (symmetry; unfold u32, wrapu; change (2 ^ 32) with 4294967296; apply Z.mod_small; lia). destruct (Z.ltb_spec (off + size) off); [lia|].
    apply Z.leb_le. unfold u32, wrapu. rewrite Z.mod_small; change (2 ^ 32) with 4294967296; lia.
Qed.

(** ReadAt: a read inside an open mapping copies exactly the overlap and reports EOF iff it was short; every other
    read fails without touching the buffer. *)
Theorem C47_read : forall mm p off p' n err, ReadAt mm p off = (p', n, err) ->
  match mb mm, p with
  | Some b, Some q =>
      if (0 <=? off) && (off <? Z.of_nat (length b))
      then n = Nat.min (length q) (length b - Z.to_nat off) /\
           p' = Some (firstn n (skipn (Z.to_nat off) b) ++ skipn n q) /\
           (err = None <-> n = length q) /\ (err = Some EOF <-> (n < length q)%nat) /\ (err = None \/ err = Some EOF)
      else p' = p /\ n = 0%nat /\ err = Some OutOfRange
  | _, _ => p' = p /\ n = 0%nat /\ err <> None
  end.
Proof.
  intros mm p off p' n err E. unfold ReadAt in E. destruct (mb mm) as [b|]; [|inversion E; subst; repeat split; discriminate].
  destruct p as [q|]; [|inversion E; subst; repeat split; discriminate].
  destruct (Z.leb_spec 0 off), (Z.ltb_spec off (Z.of_nat (length b))), (Z.ltb_spec off 0), (Z.geb_spec off (Z.of_nat (length b))); try lia; cbn [orb andb] in *;
    try (inversion E; subst; repeat split; fail).
  unfold copy_at in E. cbn [firstn app Nat.add] in E. rewrite Nat.sub_0_r, skipn_length in E.
  remember (Nat.min (length q) (length b - Z.to_nat off)) as m eqn:Em.
  destruct (Nat.ltb_spec m (length q)); inversion E; subst p' n err; clear E; repeat split; try assumption; try discriminate; try lia; auto.
Qed.

(** WriteAt: likewise; writes to read-only or closed memory are refused, and nothing but the addressed bytes changes. *)
Theorem C47_write : forall mm p off mm' n err, WriteAt mm p off = (mm', n, err) ->
  ro mm' = ro mm /\
  match mb mm, p with
  | Some b, Some q =>
      if ro mm then mm' = mm /\ n = 0%nat /\ err = Some ReadOnly
      else if (0 <=? off) && (off <? Z.of_nat (length b))
      then n = Nat.min (length q) (length b - Z.to_nat off) /\
           (exists b', mb mm' = Some b' /\ wrote b b' (Z.to_nat off) q) /\
           (err = None <-> n = length q) /\ (err = Some EOF <-> (n < length q)%nat) /\ (err = None \/ err = Some EOF)
      else mm' = mm /\ n = 0%nat /\ err = Some OutOfRange
  | _, _ => mm' = mm /\ n = 0%nat /\ err <> None
  end.
Proof.
  intros mm p off mm' n err E. unfold WriteAt in E. destruct (mb mm) as [b|] eqn:Eb; [|inversion E; subst; repeat split; discriminate].
  destruct (ro mm) eqn:Er; [inversion E; subst; rewrite Er; split; [reflexivity|]; destruct p; repeat split; discriminate|].
  destruct p as [q|]; [|inversion E; subst; repeat split; try assumption; discriminate].
  destruct (Z.leb_spec 0 off), (Z.ltb_spec off (Z.of_nat (length b))), (Z.ltb_spec off 0), (Z.geb_spec off (Z.of_nat (length b))); try lia; cbn [orb andb] in *;
    try (inversion E; subst; repeat split; assumption).
  destruct (copy_at b (Z.to_nat off) q) as [b' m] eqn:C. apply copy_at_spec in C; [|lia]. destruct C as (Em & W).
  destruct (Nat.ltb_spec m (length q)); inversion E; subst mm' n err; clear E; cbn [ro mb];
    (split; [reflexivity|]; repeat split; try discriminate; try lia; auto; exists b'; split; [reflexivity|exact W]).
Qed.

(** *** Histories: memory behaves like an array of bytes *)
Inductive op := OpWrite (p : option (list Z)) (off : Z) | OpRead (p : option (list Z)) (off : Z) | OpSet (v : variable) (buf : option (list Z)).
Definition step (mm : memory) (o : op) : memory :=
  match o with
  | OpWrite p off => fst (fst (WriteAt mm p off))
  | OpRead _ _ => mm
  | OpSet v buf => match fst (Set_ v (Some mm) buf) with Some m => m | None => mm end
  end.
(** the range an operation is entitled to change *)
Definition target (o : op) (i : nat) : option Z :=
  let hit off p := if ((0 <=? off) && (off <=? Z.of_nat i) && (Z.of_nat i <? off + Z.of_nat (length p)))
                   then nth_error p (i - Z.to_nat off) else None in
  match o with
  | OpWrite (Some p) off => hit off p
  | OpSet v (Some p) => if Z.of_nat (length p) =? vsize v then hit (voff v) p else None
  | _ => None
  end.
(** byte [i] after a history: the last operation that targets it wins *)
Fixpoint last_write (h : list op) (i : nat) : option Z :=
  match h with
  | [] => None
  | o :: h' => match last_write h' i with Some x => Some x | None => target o i end
  end.
(** variables created by newVariable for this memory, and buffers, stay inside the mapping *)
Definition in_mapping (len : nat) (o : op) : Prop :=
  match o with
  | OpSet v _ => in_u 32 (voff v) /\ in_u 32 (vsize v) /\ 0 < vsize v /\ voff v + vsize v <= Z.of_nat len
  | _ => True
  end.

Lemma write_step b p off : let mm := mkMem (Some b) false in
  exists b', step mm (OpWrite (Some p) off) = mkMem (Some b') false /\ length b' = length b /\
  forall i, (i < length b)%nat -> nth_error b' i = match target (OpWrite (Some p) off) i with Some x => Some x | None => nth_error b i end.
Proof.
  intros mm. cbn [step]. destruct (WriteAt mm (Some p) off) as [[mm' n] err] eqn:E. cbn [fst].
  pose proof (C47_write _ _ _ _ _ _ E) as (R & H). cbn [mb mm ro] in H, R.
  destruct (Z.leb_spec 0 off) as [H0|H0]; cbn [andb] in H.
  - destruct (Z.ltb_spec off (Z.of_nat (length b))) as [H1|H1].
    + destruct H as (_ & (b' & Eb & Lb & W) & _). exists b'. split; [destruct mm'; cbn in *; congruence|]. split; [exact Lb|].
      intros i Hi. rewrite W. unfold target. destruct (Z.leb_spec 0 off); [|lia]. cbn [andb].
      destruct (Nat.leb_spec (Z.to_nat off) i), (Z.leb_spec off (Z.of_nat i)); try lia; cbn [andb]; [|reflexivity].
      destruct (Nat.ltb_spec i (Z.to_nat off + length p)), (Z.ltb_spec (Z.of_nat i) (off + Z.of_nat (length p))); try lia; cbn [andb]; [|reflexivity].
      destruct (Nat.ltb_spec i (length b)); [|lia]. destruct (nth_error p (i - Z.to_nat off)) eqn:N; [reflexivity|].
      apply nth_error_None in N. lia.
    + destruct H as (-> & _). exists b. split; [reflexivity|]. split; [reflexivity|]. intros i Hi. unfold target.
      destruct (Z.leb_spec 0 off), (Z.leb_spec off (Z.of_nat i)); try lia. reflexivity.
  - destruct H as (-> & _). exists b. split; [reflexivity|]. split; [reflexivity|]. intros i Hi. unfold target.
    destruct (Z.leb_spec 0 off); [lia|]. reflexivity.
Qed.
Lemma bounds_ok b v : Z.of_nat (length b) < 2 ^ 32 -> in_u 32 (voff v) -> in_u 32 (vsize v) -> voff v + vsize v <= Z.of_nat (length b) ->
  bounds (mkMem (Some b) false) (voff v) (vsize v) = true.
Proof. intros. apply C47_bounds; assumption. Qed.

Theorem C47_history : forall b h, Z.of_nat (length b) < 2 ^ 32 -> Forall (in_mapping (length b)) h ->
  let mm := fold_left step h (mkMem (Some b) false) in
  exists b', mm = mkMem (Some b') false /\ length b' = length b /\
    forall i, (i < length b)%nat -> nth_error b' i = match last_write h i with Some x => Some x | None => nth_error b i end.
Proof.
  intros b h L F. cbv zeta.
  assert (Step : forall o b0, Z.of_nat (length b0) < 2 ^ 32 -> in_mapping (length b0) o ->
    exists b', step (mkMem (Some b0) false) o = mkMem (Some b') false /\ length b' = length b0 /\
    forall i, (i < length b0)%nat -> nth_error b' i = match target o i with Some x => Some x | None => nth_error b0 i end).
  { intros o b0 L0 I. destruct o as [p off|p off|v buf].
    - destruct p as [p|]; [apply write_step|]. exists b0. split; [reflexivity|]. split; reflexivity.
    - exists b0. split; [reflexivity|]. split; reflexivity.
    - destruct I as (I1 & I2 & I3 & I4). cbn [step Set_ ro].
      rewrite bounds_ok by assumption. cbn [negb].
      destruct buf as [buf|]; [|exists b0; split; [reflexivity|]; split; reflexivity].
      cbn [target]. destruct (Z.eqb_spec (Z.of_nat (length buf)) (vsize v)) as [Ev|Ev]; cbn [negb]; [|exists b0; split; [reflexivity|]; split; reflexivity].
      destruct (write_step b0 buf (voff v)) as (b' & E & Lb & Hb). cbn [step] in E.
      destruct (WriteAt (mkMem (Some b0) false) (Some buf) (voff v)) as [[m' n'] e']. cbn [fst] in *. exists b'. split; [exact E|]. split; [exact Lb|].
      exact Hb. }
  revert b L F. induction h as [|o h IH]; intros b L F; cbn [fold_left last_write].
  - exists b. split; [reflexivity|]. split; reflexivity.
  - inversion F as [|? ? F1 F2]; subst. destruct (Step o b L F1) as (b1 & E1 & L1 & H1). rewrite E1.
    destruct (IH b1) as (b2 & E2 & L2 & H2); [rewrite L1; exact L|rewrite L1; exact F2|]. exists b2. split; [exact E2|]. split; [congruence|].
    intros i Hi. rewrite H2 by lia. destruct (last_write h i); [reflexivity|]. apply H1. exact Hi.
Qed.
(** Read-only and closed memory never changes. *)
Theorem C47_frozen : forall mm h, ro mm = true \/ mb mm = None ->
  Forall (fun o => match o with OpSet v _ => in_u 32 (voff v) /\ in_u 32 (vsize v) | _ => True end) h ->
  fold_left step h mm = mm.
Proof.
  intros mm h H. induction h as [|o h IH]; intros F; [reflexivity|]. inversion F as [|? ? F1 F2]; subst. cbn [fold_left].
  assert (E : step mm o = mm); [|rewrite E; apply IH; exact F2].
  assert (W : forall p off, fst (fst (WriteAt mm p off)) = mm).
  { intros p off. unfold WriteAt. destruct H as [H|H]; rewrite H; [destruct (mb mm); reflexivity|reflexivity]. }
  destruct o as [p off|p off|v buf]; cbn [step]; [apply W|reflexivity|].
  unfold Set_. destruct (ro mm); [reflexivity|]. destruct (bounds mm (voff v) (vsize v)); [|reflexivity]. cbn [negb].
  destruct buf as [buf|]; [|reflexivity]. destruct (negb _); [reflexivity|]. specialize (W (Some buf) (voff v)).
  destruct (WriteAt mm (Some buf) (voff v)) as [[m' n'] e']. exact W.
Qed.

(** *** Variables *)
(** A variable that does not fit its mapping is rejected. *)
Theorem C47_new_variable : forall b r off size v, in_u 32 off -> in_u 32 size -> newVariable off size (Some (mkMem (Some b) r)) = Ok v ->
  voff v = off /\ vsize v = size /\ off + size <= Z.of_nat (length b).
Proof.
  intros b r off size v Ho Hs E. unfold newVariable in E. destruct (bounds _ off size) eqn:B; [|discriminate]. inversion E; subst v.
  split; [reflexivity|]. split; [reflexivity|]. apply C47_bounds in B; assumption.
Qed.
(** Get never panics, whatever happened to the memory since the variable was created, and returns the variable's bytes. *)
Theorem C47_get : forall v mm, in_u 32 (voff v) -> in_u 32 (vsize v) ->
  exists r, Get v mm = Some r /\
  forall x, r = Ok x -> exists m, mm = Some m /\ voff v + vsize v <= Z.of_nat (length (bytes m)) /\
    x = firstn (Z.to_nat (vsize v)) (skipn (Z.to_nat (voff v)) (bytes m)) /\ Z.of_nat (length x) = vsize v.
Proof.
  intros v mm Ho Hs. unfold Get. destruct mm as [m|]; [|eexists; split; [reflexivity|discriminate]].
  destruct (bounds m (voff v) (vsize v)) eqn:B; cbn [negb]; [|eexists; split; [reflexivity|discriminate]].
  pose proof B as B'. apply C47_bounds in B; try assumption.
  assert (U : u32 (voff v + vsize v) = voff v + vsize v).
  { unfold bounds, in_u, u32, wrapu in *. change (2 ^ 32) with 4294967296 in *.
    destruct (Z.ltb_spec ((voff v + vsize v) mod 4294967296) (voff v)); [discriminate|]. lia. }
  unfold in_u in *. rewrite U. destruct (Z.leb_spec (voff v) (voff v + vsize v)), (Z.leb_spec (voff v + vsize v) (Z.of_nat (length (bytes m)))); try lia. cbn [andb].
  eexists. split; [reflexivity|]. intros x E. inversion E; subst x. exists m. split; [reflexivity|]. split; [assumption|].
  replace (voff v + vsize v - voff v) with (vsize v) by lia. split; [reflexivity|]. rewrite firstn_length, skipn_length. lia.
Qed.
(** Setting a variable and getting it returns the value; variables that do not overlap keep theirs. *)
Theorem C47_set_get : forall b v buf, Z.of_nat (length b) < 2 ^ 32 -> in_u 32 (voff v) -> in_u 32 (vsize v) -> 0 < vsize v ->
  voff v + vsize v <= Z.of_nat (length b) -> Z.of_nat (length buf) = vsize v ->
  exists m, Set_ v (Some (mkMem (Some b) false)) (Some buf) = (Some m, None) /\
    Get v (Some m) = Some (Ok buf) /\
    forall w, in_u 32 (voff w) -> in_u 32 (vsize w) -> voff w + vsize w <= Z.of_nat (length b) ->
      voff w + vsize w <= voff v \/ voff v + vsize v <= voff w -> Get w (Some m) = Get w (Some (mkMem (Some b) false)).
Proof.
  intros b v buf L Ho Hs Hp Hin Lb. cbn [Set_ ro]. rewrite bounds_ok by assumption. cbn [negb]. destruct (Z.eqb_spec (Z.of_nat (length buf)) (vsize v)); [|contradiction]. cbn [negb].
  destruct (WriteAt (mkMem (Some b) false) (Some buf) (voff v)) as [[m n] e'] eqn:W. apply C47_write in W. cbn [mb ro] in W. destruct W as (R & W).
  unfold in_u in Ho, Hs. destruct (Z.leb_spec 0 (voff v)), (Z.ltb_spec (voff v) (Z.of_nat (length b))); try lia. cbn [andb] in W.
  destruct W as (En & (b' & Em & Lb' & Hw) & (E1 & E1') & _ & _). rewrite (E1' ltac:(lia)). exists m. split; [reflexivity|].
  assert (Mm : m = mkMem (Some b') false) by (destruct m; cbn in *; congruence). subst m.
  assert (G : forall w, in_u 32 (voff w) -> in_u 32 (vsize w) -> voff w + vsize w <= Z.of_nat (length b) ->
    forall c, length c = length b -> Get w (Some (mkMem (Some c) false)) = Some (Ok (firstn (Z.to_nat (vsize w)) (skipn (Z.to_nat (voff w)) c)))).
  { intros w Hw1 Hw2 Hw3 c Lc. destruct (C47_get w (Some (mkMem (Some c) false)) Hw1 Hw2) as (r & Er & Hr). rewrite Er.
    destruct r as [x|er]; [destruct (Hr x eq_refl) as (m0 & E0 & _ & -> & _); inversion E0; subst; reflexivity|].
    exfalso. unfold Get in Er. rewrite bounds_ok in Er; [|rewrite Lc; exact L|assumption|assumption|rewrite Lc; exact Hw3]. cbn [negb] in Er. destruct (_ && _); discriminate Er. }
  split.
  - rewrite G; try assumption. do 2 f_equal. apply nth_error_ext. intros i.
    destruct (Nat.lt_ge_cases i (Z.to_nat (vsize v))) as [C|C].
    + rewrite nth_error_firstn_lt, nth_error_skipn, Hw by assumption.
      destruct (Nat.leb_spec (Z.to_nat (voff v)) (Z.to_nat (voff v) + i)), (Nat.ltb_spec (Z.to_nat (voff v) + i) (Z.to_nat (voff v) + length buf)), (Nat.ltb_spec (Z.to_nat (voff v) + i) (length b)); try lia.
      cbn [andb]. f_equal. lia.
    + rewrite nth_error_firstn_ge by assumption. symmetry. apply nth_error_None. lia.
  - intros w Hw1 Hw2 Hw3 D. rewrite !G by (assumption || reflexivity). do 2 f_equal. apply nth_error_ext. intros i. unfold in_u in *.
    destruct (Nat.lt_ge_cases i (Z.to_nat (vsize w))) as [C|C]; [|now rewrite !nth_error_firstn_ge by assumption].
    rewrite !nth_error_firstn_lt, !nth_error_skipn, Hw by assumption.
    destruct (Nat.leb_spec (Z.to_nat (voff v)) (Z.to_nat (voff w) + i)), (Nat.ltb_spec (Z.to_nat (voff w) + i) (Z.to_nat (voff v) + length buf)); cbn [andb]; try reflexivity. lia.
Qed.

Example C47_example :
  let mm := mkMem (Some [1; 2; 3; 4; 5; 6; 7; 8]) false in
  ReadAt mm (Some [0; 0; 0]) 6 = (Some [7; 8; 0], 2%nat, Some EOF) /\
  WriteAt mm (Some [9; 9]) 7 = (mkMem (Some [1; 2; 3; 4; 5; 6; 7; 9]) false, 1%nat, Some EOF) /\
  newVariable 4294967295 2 (Some mm) = Err OutOfBounds /\ newVariable 4 4 (Some mm) = Ok (mkVar 4 4) /\
  bounds mm 4294967292 4 = false /\
  Set_ (mkVar 4 2) (Some mm) (Some [0; 1]) = (Some (mkMem (Some [1; 2; 3; 4; 0; 1; 7; 8]) false), None).
Proof. cbv zeta. repeat split. Qed.
