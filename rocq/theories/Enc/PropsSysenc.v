(** C91: keys and values as bytes *)
From Verif Require Import Base.GoInt Enc.Sysenc Enc.SysencSpec.
Open Scope nat_scope.

Section gtype_ind'.
Variable P : gtype -> Prop.
Hypothesis HB : forall k, P (Basic k).
Hypothesis HX : forall s, P (Bad s).
Hypothesis HA : forall n t, P t -> P (Arr n t).
Hypothesis HS : forall fs, Forall (fun f => P (snd f)) fs -> P (Struct fs).
Fixpoint gtype_ind' (t : gtype) : P t :=
  match t with
  | Basic k => HB k
  | Bad s => HX s
  | Arr n t => HA n t (gtype_ind' t)
  | Struct fs => HS fs ((fix go fs : Forall (fun f => P (snd f)) fs := match fs with [] => Forall_nil _ | f :: r => Forall_cons f (gtype_ind' (snd f)) (go r) end) fs)
  end.
End gtype_ind'.

(** ** Sorted leaves *)
Definition w (l : leaf) : nat := width (l_kind l).
Fixpoint sum (ls : list leaf) : nat := match ls with [] => 0 | l :: r => w l + sum r end.
Fixpoint sorted (lo : nat) (ls : list leaf) (hi : nat) : Prop := match ls with [] => lo <= hi | l :: r => lo <= l_off l /\ sorted (l_off l + w l) r hi end.
Lemma sum_app a b : sum (a ++ b) = sum a + sum b.
Proof. induction a as [|l a IH]; cbn; auto. rewrite IH. lia. Qed.
Lemma sorted_app a b : forall lo mid hi, sorted lo a mid -> sorted mid b hi -> sorted lo (a ++ b) hi.
Proof.
  induction a as [|l a IH]; intros lo mid hi A B; cbn in *.
  - destruct b as [|l b]; cbn in *; [lia|]. destruct B. split; auto. lia.
  - destruct A. split; eauto.
Qed.
Lemma sorted_hi ls : forall lo hi hi', sorted lo ls hi -> hi <= hi' -> sorted lo ls hi'.
Proof. induction ls as [|l ls IH]; intros lo hi hi' A L; cbn in *; [lia|]. destruct A. split; eauto. Qed.
Lemma sorted_lo ls : forall lo lo' hi, sorted lo ls hi -> lo' <= lo -> sorted lo' ls hi.
Proof. destruct ls as [|l ls]; intros lo lo' hi A L; cbn in *; [lia|]. destruct A. split; [lia|auto]. Qed.
Lemma sorted_sum ls : forall lo hi, sorted lo ls hi -> lo + sum ls <= hi.
Proof. induction ls as [|l ls IH]; intros lo hi A; cbn in *; [lia|]. destruct A as (A & B). specialize (IH _ _ B). lia. Qed.
Lemma sorted_in ls : forall lo hi l, sorted lo ls hi -> In l ls -> lo <= l_off l /\ l_off l + w l <= hi.
Proof.
  induction ls as [|x ls IH]; intros lo hi l A I; [easy|]. cbn in A. destruct A as (A & B). destruct I as [-> | I].
  - pose proof (sorted_sum _ _ _ B). lia.
  - destruct (IH _ _ _ B I). lia.
Qed.

Section Word.
Variable is64 : bool.
Notation size := (size is64). Notation align := (align is64). Notation leaves := (leaves is64).
Notation leavesOf t := (leaves 0 RW false t).

Lemma alignUp_ge n a : 1 <= a -> n <= alignUp n a.
Proof. intros A. unfold alignUp. pose proof (Nat.div_mod (n + a - 1) a ltac:(lia)). pose proof (Nat.mod_upper_bound (n + a - 1) a ltac:(lia)). nia. Qed.
Lemma align_pos t : 1 <= align t.
Proof.
  induction t as [k|s|n t IH|fs IH] using gtype_ind'; cbn [Sysenc.align]; auto.
  - unfold word. destruct k, is64; cbn; lia.
  - unfold word. destruct is64; lia.
  - clear IH. induction fs as [|f fs IH]; cbn; lia.
Qed.
Lemma endOf_ge l : forall off, Forall (fun x => 1 <= snd x) l -> off <= endOf off l.
Proof. induction l as [|[s a] l IH]; intros off F; cbn; auto. inversion F as [|? ? A B]; subst. cbn in A. pose proof (alignUp_ge off a A). specialize (IH (alignUp off a + s) B). lia. Qed.
Definition structLeaves (off : nat) (r : ro) (bl : bool) := fix go (fs : list (fname * gtype)) pos :=
  match fs with
  | [] => []
  | (n, t) :: fs => let o := alignUp pos (align t) in
      leaves (off + o) (fieldRO r n) (bl || match n with Blank => true | _ => false end) t ++ go fs (o + size t)
  end.
Definition arrLeaves (r : ro) (bl : bool) (t : gtype) := fix go n off :=
  match n with O => [] | S n => leaves off (match r with RW => RW | _ => StickyRO end) bl t ++ go n (off + size t) end.
Lemma leaves_ok t : forall off r bl s, bsize t = Some s -> sorted off (leaves off r bl t) (off + size t) /\ sum (leaves off r bl t) = s.
Proof.
  induction t as [k|sz|n t IH|fs IH] using gtype_ind'; intros off r bl s B.
  - cbn in *. injection B as <-. unfold w. cbn. lia.
  - discriminate.
  - cbn [bsize] in B. destruct (bsize t) as [x|] eqn:BT; [|discriminate]. injection B as <-. change (leaves off r bl (Arr n t)) with (arrLeaves r bl t n off). cbn [Sysenc.size].
    revert off. induction n as [|n IHn]; intros off; cbn; [lia|]. destruct (IH off (match r with RW => RW | _ => StickyRO end) bl x eq_refl) as (A1 & A2). destruct (IHn (off + size t)) as (B1 & B2).
    split.
    + eapply sorted_app; [exact A1|]. eapply sorted_hi; [exact B1|]. lia.
    + rewrite sum_app. fold arrLeaves. rewrite A2, B2. lia.
  - change (leaves off r bl (Struct fs)) with (structLeaves off r bl fs 0).
    assert (G : forall pos s, bsize (Struct fs) = Some s -> sorted (off + pos) (structLeaves off r bl fs pos) (off + endOf pos (map (fun f => (size (snd f), align (snd f))) fs)) /\ sum (structLeaves off r bl fs pos) = s).
    { clear s B. induction fs as [|[n t] fs IHf]; intros pos s B; cbn in B.
      - injection B as <-. cbn. lia.
      - inversion IH as [|? ? I1 I2]; subst. cbn in I1. destruct (bsize t) as [x|] eqn:BT; [|discriminate].
        destruct (fold_right _ _ fs) as [y|] eqn:BF; [|discriminate]. injection B as <-. cbn [structLeaves map endOf fst snd].
        destruct (IHf I2 (alignUp pos (align t) + size t) y BF) as (B1 & B2).
        destruct (I1 (off + alignUp pos (align t)) (fieldRO r n) (bl || match n with Blank => true | _ => false end) x eq_refl) as (A1 & A2).
        split.
        + eapply sorted_app; [eapply sorted_lo; [exact A1|]|].
          * pose proof (alignUp_ge pos (align t) (align_pos t)). lia.
          * eapply sorted_lo; [exact B1|]. lia.
        + rewrite sum_app, A2. f_equal. exact B2. }
    destruct (G 0 s B) as (G1 & G2). split; auto. rewrite Nat.add_0_r in G1. eapply sorted_hi; [exact G1|].
    cbn [Sysenc.size]. set (l := map _ fs). set (e := endOf 0 l).
    pose proof (alignUp_ge (if lastZero l && (0 <? e) then e + 1 else e) (align (Struct fs)) (align_pos _)) as X. cbn [Sysenc.align] in *. destruct (lastZero l && (0 <? e)); lia.
Qed.

(** Reading and writing at sorted leaves *)
Lemma read_length m l : l_off l + w l <= length m -> length (read m l) = w l.
Proof. intros L. unfold read, w in *. rewrite firstn_length, skipn_length. lia. Qed.
Lemma skipn_add {A} a : forall b (l : list A), skipn (a + b) l = skipn a (skipn b l).
Proof. induction b as [|b IH]; intros l; [rewrite Nat.add_0_r; auto|]. rewrite Nat.add_succ_r. destruct l; cbn; auto. destruct a; auto. Qed.
Lemma gather_all ls : forall m lo hi, sorted lo ls hi -> sum ls = hi - lo -> hi <= length m -> concat (map (read m) ls) = firstn (hi - lo) (skipn lo m).
Proof.
  induction ls as [|l ls IH]; intros m lo hi S1 S2 L.
  - cbn in *. replace (hi - lo) with 0 by lia. auto.
  - cbn in S1, S2. destruct S1 as (A & B). pose proof (sorted_sum _ _ _ B). assert (E : l_off l = lo) by lia. cbn.
    rewrite (IH m (l_off l + w l) hi B ltac:(lia) L). unfold read, w in *. rewrite E in *.
    replace (hi - lo) with (width (l_kind l) + (hi - (lo + width (l_kind l)))) by lia.
    rewrite (Nat.add_comm lo), skipn_add. set (x := skipn lo m). rewrite <- (firstn_skipn (width (l_kind l)) x) at 3.
    assert (LX : width (l_kind l) <= length x) by (unfold x; rewrite skipn_length; lia).
    rewrite firstn_app, firstn_firstn, firstn_length. rewrite (Nat.min_l _ (length x)) by lia. rewrite Nat.min_r by lia. f_equal. f_equal. lia.
Qed.
Lemma patch_length m off b : off + length b <= length m -> length (patch m off b) = length m.
Proof. intros L. unfold patch. rewrite !app_length, firstn_length, skipn_length. lia. Qed.
Lemma patch_low m off b n : n <= off -> off <= length m -> firstn n (patch m off b) = firstn n m.
Proof. intros L K. unfold patch. rewrite firstn_app, firstn_firstn, firstn_length, Nat.min_l by lia. replace (n - Nat.min off (length m)) with 0 by lia. rewrite firstn_O, app_nil_r. auto. Qed.
Lemma patch_here m off b : off + length b <= length m -> firstn (length b) (skipn off (patch m off b)) = b.
Proof.
  intros L. unfold patch. rewrite skipn_app, firstn_length, Nat.min_l by lia. rewrite skipn_all2 by (rewrite firstn_length; lia). rewrite Nat.sub_diag. cbn.
  rewrite firstn_app, firstn_all, Nat.sub_diag, firstn_O, app_nil_r. auto.
Qed.
Lemma patch_nth m off b i : off + length b <= length m -> (i < off \/ off + length b <= i) -> nth_error (patch m off b) i = nth_error m i.
Proof.
  intros L [I|I]; unfold patch.
  - rewrite nth_error_app1 by (rewrite firstn_length; lia). rewrite <- (firstn_skipn off m) at 2. rewrite nth_error_app1; auto. rewrite firstn_length. lia.
  - rewrite nth_error_app2 by (rewrite firstn_length; lia). rewrite firstn_length, Nat.min_l by lia. rewrite nth_error_app2 by lia.
    rewrite <- (firstn_skipn (off + length b) m) at 2. rewrite nth_error_app2 by (rewrite firstn_length; lia). rewrite firstn_length, Nat.min_l by lia. f_equal. lia.
Qed.
Lemma conv_length k b : length b = width k -> length (conv k b) = width k.
Proof. intros L. unfold conv. destruct k; auto; destruct b as [|b0 [|b1 [|b2 [|b3 [|]]]]]; cbn in *; try lia. destruct (_ && _)%Z; auto. Qed.
Lemma read_low m m' n l : firstn n m = firstn n m' -> l_off l + w l <= n -> read m l = read m' l.
Proof.
  intros E L. unfold read, w in *.
  assert (G : forall x : list Z, firstn (width (l_kind l)) (skipn (l_off l) x) = firstn (width (l_kind l)) (skipn (l_off l) (firstn n x))).
  { intros x. rewrite skipn_firstn_comm, firstn_firstn. f_equal. lia. }
  rewrite (G m), (G m'), E. auto.
Qed.
Lemma chunk_length l (b : list Z) x : w l + x <= length b -> length (firstn (w l) b) = w l.
Proof. intros. rewrite firstn_length. lia. Qed.
Lemma scatter_low ls : forall lo hi m b, sorted lo ls hi -> hi <= length m -> sum ls <= length b -> length (scatter ls b m) = length m /\ firstn lo (scatter ls b m) = firstn lo m.
Proof.
  induction ls as [|l ls IH]; intros lo hi m b S1 L B; auto. cbn [scatter]. cbn in S1, B. destruct S1 as (A & S1).
  pose proof (sorted_sum _ _ _ S1) as SS. fold (w l).
  assert (LB : sum ls <= length (skipn (w l) b)) by (rewrite skipn_length; lia).
  assert (LC : length (conv (l_kind l) (firstn (w l) b)) = w l) by (apply conv_length; rewrite firstn_length; unfold w in *; lia).
  destruct (l_blank l).
  - destruct (IH _ _ m (skipn (w l) b) S1 L LB) as (I1 & I2). split; auto.
    assert (X : firstn lo (firstn (l_off l + w l) (scatter ls (skipn (w l) b) m)) = firstn lo (firstn (l_off l + w l) m)) by (rewrite I2; auto). rewrite !firstn_firstn, !Nat.min_l in X by lia. auto.
  - set (m1 := patch m (l_off l) (conv (l_kind l) (firstn (w l) b))).
    assert (L1 : length m1 = length m) by (apply patch_length; lia).
    destruct (IH _ _ m1 (skipn (w l) b) S1 ltac:(lia) LB) as (I1 & I2). split; [lia|].
    assert (X : firstn lo (firstn (l_off l + w l) (scatter ls (skipn (w l) b) m1)) = firstn lo (firstn (l_off l + w l) m1)) by (rewrite I2; auto). rewrite !firstn_firstn, !Nat.min_l in X by lia.
    rewrite X. apply patch_low; lia.
Qed.
Lemma plain_conv k b : length b = width k -> plain k b -> conv k b = b.
Proof.
  intros L P. destruct k; cbn in *; auto.
  - destruct P as [-> | ->]; auto.
  - destruct b as [|b0 [|b1 [|b2 [|b3 [|]]]]]; auto. specialize (P b0 b1 b2 b3 eq_refl).
    destruct (Z.eqb_spec (Z.land b3 127) 127); cbn; auto. destruct (Z.leb_spec 128 b2); cbn; auto. destruct (P ltac:(lia)) as [(-> & -> & ->)| ->]; auto. destruct (negb _); auto.
Qed.
Lemma scatter_agrees ls : forall lo hi m b, sorted lo ls hi -> hi <= length m -> sum ls = length b -> cleanBytes ls b -> agrees ls (scatter ls b m) b.
Proof.
  induction ls as [|l ls IH]; intros lo hi m b S1 L B C; cbn [scatter agrees]; [destruct b; auto; discriminate|]. cbn in S1, B, C. destruct S1 as (A & S1). destruct C as (C1 & C2).
  pose proof (sorted_sum _ _ _ S1) as SS. fold (w l) in *.
  assert (LB : sum ls = length (skipn (w l) b)) by (rewrite skipn_length; lia).
  assert (LF : length (firstn (w l) b) = w l) by (rewrite firstn_length; lia).
  destruct (l_blank l) eqn:BL.
  - split; auto. eapply IH; eauto.
  - rewrite plain_conv by auto. set (m1 := patch m (l_off l) (firstn (w l) b)).
    assert (L1 : length m1 = length m) by (apply patch_length; lia). split; [|eapply IH; eauto; lia]. right.
    destruct (scatter_low ls _ _ m1 (skipn (w l) b) S1 ltac:(lia) ltac:(lia)) as (_ & I2). rewrite (read_low _ m1 _ _ I2) by lia. unfold read. fold (w l). rewrite <- LF at 1. apply patch_here. lia.
Qed.
Lemma scatter_other ls : forall lo hi m b i, sorted lo ls hi -> hi <= length m -> sum ls <= length b -> (forall l, In l ls -> i < l_off l \/ l_off l + w l <= i) -> nth_error (scatter ls b m) i = nth_error m i.
Proof.
  induction ls as [|l ls IH]; intros lo hi m b i S1 L B N; auto. cbn [scatter]. cbn in S1, B. destruct S1 as (A & S1).
  pose proof (sorted_sum _ _ _ S1) as SS. fold (w l).
  assert (LB : sum ls <= length (skipn (w l) b)) by (rewrite skipn_length; lia).
  assert (LC : length (conv (l_kind l) (firstn (w l) b)) = w l) by (apply conv_length; rewrite firstn_length; unfold w in *; lia).
  destruct (l_blank l).
  - eapply IH; eauto. intros; apply N; cbn; auto.
  - erewrite IH; [|exact S1|rewrite patch_length; lia|auto|intros; apply N; cbn; auto]. apply patch_nth; [lia|]. rewrite LC. apply N. cbn. auto.
Qed.
Lemma agrees_gather ls : forall m b, (forall l, In l ls -> l_off l + w l <= length m) -> cleanBytes ls b -> sum ls = length b -> agrees ls m b ->
  concat (map (fun l => if l_blank l then zeros (width (l_kind l)) else conv (l_kind l) (read m l)) ls) = b.
Proof.
  induction ls as [|l ls IH]; intros m b L C S1 A; cbn in *; auto. destruct C as (C1 & C2). destruct A as (A1 & A2). fold (w l) in *.
  rewrite (IH m (skipn (w l) b)); auto; [|rewrite skipn_length; lia]. destruct (l_blank l).
  - rewrite <- C1. apply firstn_skipn.
  - destruct A1 as [A1|A1]; [discriminate|]. rewrite A1, plain_conv by (auto; rewrite firstn_length; unfold w in *; lia). apply firstn_skipn.
Qed.

(** ** Marshal *)
Lemma clean_encode t m s : bsize t = Some s -> length m = size t -> cleanMem is64 t m -> binaryEncode is64 t m = Some (packed is64 t m).
Proof.
  intros B L C. unfold binaryEncode, packed. rewrite B. f_equal. f_equal. unfold cleanMem in C. destruct (leaves_ok t 0 RW false s B) as (S1 & _).
  apply map_ext_in. intros l I. rewrite Forall_forall in C. specialize (C l I). destruct (sorted_in _ _ _ _ S1 I). destruct (l_blank l); auto. apply plain_conv; auto. apply read_length. lia.
Qed.
Lemma packed_whole t m s : bsize t = Some s -> length m = size t -> s = size t -> packed is64 t m = m.
Proof.
  intros B L E. destruct (leaves_ok t 0 RW false s B) as (S1 & S2). unfold packed. rewrite (gather_all _ m 0 (0 + size t) S1) by lia. rewrite Nat.sub_0_r. cbn [skipn]. rewrite Nat.add_0_l, <- L. apply firstn_all.
Qed.
Lemma backing_ptr t m : length m = size t -> backing is64 (DPtr t m) = [] \/ backing is64 (DPtr t m) = m /\ bsize t = Some (size t) /\ hasUnexported t = false.
Proof. intros L. cbn. destruct (bsize t) as [s|] eqn:B; auto. destruct (Nat.eqb_spec s (size t)) as [-> |]; cbn; auto. destruct (hasUnexported t); auto. Qed.
(** Pointers and slices *)
Definition whole (d : data) : option (gtype * list Z) := match d with DPtr t m => Some (t, m) | DSlice t n m | DPtrSlice t n m => Some (Arr n t, m) | _ => None end.
Lemma backing_whole d t m : whole d = Some (t, m) -> wfData is64 d ->
  length m = size t /\ memory d = m /\ binaryAppend is64 d = match binaryEncode is64 t m with Some b => Ok' b | None => Err' end /\
  (backing is64 d = [] \/ backing is64 d = m /\ bsize t = Some (size t) /\ hasUnexported t = false) /\
  (bsize t = Some (size t) -> hasUnexported t = false -> backing is64 d = m).
Proof.
  intros W F. destruct d as [|r|b|b|t0 m0|t0 m0|t0|t0 n m0|t0 n m0]; try discriminate; injection W as <- <-; cbn in F.
  - split; auto. split; auto. split; auto. split; [apply backing_ptr; auto|]. intros B H. cbn. rewrite B, H, Nat.eqb_refl. auto.
  - split; auto. split; auto. split; auto. split.
    + cbn. destruct (bsize t0) as [s|]; auto. destruct (Nat.eqb_spec (n * s) (size t0 * n)); cbn; auto. destruct (hasUnexported t0); auto. right. split; auto. split; auto. f_equal. lia.
    + cbn. destruct (bsize t0) as [s|]; [|discriminate]. intros [= E] ->. replace (size t0 * n) with (n * s) by lia. rewrite Nat.eqb_refl. auto.
  - split; auto. split; auto. split; auto. split.
    + cbn. destruct (bsize t0) as [s|]; auto. destruct (Nat.eqb_spec (n * s) (size t0 * n)); cbn; auto. destruct (hasUnexported t0); auto. right. split; auto. split; auto. f_equal. lia.
    + cbn. destruct (bsize t0) as [s|]; [|discriminate]. intros [= E] ->. replace (size t0 * n) with (n * s) by lia. rewrite Nat.eqb_refl. auto.
Qed.
(** Marshal gives exactly the numbers, and fails exactly if there is no such thing of the wanted size. *)
Theorem C91_marshal : forall d sz b, wfData is64 d -> clean is64 d -> 0 < sz ->
  (Marshal is64 d sz = Ok' b <-> contents is64 d = Some b /\ length b = sz).
Proof.
  intros d sz b F C P.
  assert (CH : forall r c, match r with Some x => r = Some x | None => True end -> r = c -> ((match (match r with Some x => Ok' x | None => Err' end) with Ok' x => if length x =? sz then Ok' x else Err' | Err' => Err' | Panic => Panic end) = Ok' b <-> c = Some b /\ length b = sz)).
  { intros r c _ <-. destruct r as [x|]; [|split; [discriminate|intros (X & _); discriminate]]. destruct (Nat.eqb_spec (length x) sz) as [E|E].
    - split; [intros [= <-]; auto|intros ([= <-] & _); auto].
    - split; [discriminate|intros ([= <-] & X); easy]. }
  assert (EN : forall t m, length m = size t -> cleanMem is64 t m -> binaryEncode is64 t m = match bsize t with Some _ => Some (packed is64 t m) | None => None end).
  { intros t m L CL. destruct (bsize t) eqn:B; [eapply clean_encode; eauto|]. unfold binaryEncode. rewrite B. auto. }
  assert (WH : forall t m, whole d = Some (t, m) -> cleanMem is64 t m -> contents is64 d = match bsize t with Some _ => Some (packed is64 t m) | None => None end -> Marshal is64 d sz = (if length (backing is64 d) =? sz then Ok' (backing is64 d) else match binaryAppend is64 d with Ok' b => if length b =? sz then Ok' b else Err' | Err' => Err' | Panic => Panic end) ->
     (Marshal is64 d sz = Ok' b <-> contents is64 d = Some b /\ length b = sz)).
  { intros t m W CL CT ->. rewrite CT. destruct (backing_whole d t m W F) as (L & _ & -> & BK & _).
    specialize (EN t m L CL). destruct (Nat.eqb_spec (length (backing is64 d)) sz) as [E|E].
    - destruct BK as [BK|(BK & B & U)]; [rewrite BK in E; cbn in E; lia|]. rewrite BK in *. rewrite B. rewrite (packed_whole t m _ B L eq_refl). split; [intros [= <-]; auto|intros ([= <-] & _); auto].
    - rewrite EN. apply CH; auto. destruct (bsize t); auto. }
  destruct d as [|r|x|x|t m|t m|t|t n m|t n m].
  - cbn. split; [discriminate|intros (X & _); discriminate].
  - cbn. apply CH; auto. destruct r; auto.
  - cbn. apply (CH (Some x)); auto.
  - cbn. apply (CH (Some x)); auto.
  - cbn in F, C. specialize (EN t m F C).
    assert (D : (match (match binaryEncode is64 t m with Some b => Ok' b | None => Err' end) with Ok' b => if length b =? sz then Ok' b else Err' | Err' => Err' | Panic => Panic end) = Ok' b <-> contents is64 (DVal t m) = Some b /\ length b = sz).
    { apply CH; [destruct (binaryEncode is64 t m); auto|]. rewrite EN. auto. }
    destruct sz as [|sz]; [lia|]. destruct t as [[]| | |]; exact D.
  - apply (WH t m); auto.
  - destruct sz as [|sz]; [lia|]. cbn. destruct t; split; try discriminate; intros (X & _); discriminate.
  - apply (WH (Arr n t) m); auto.
  - apply (WH (Arr n t) m); auto.
Qed.

(** Without padding and hidden fields a pointer is passed on as it is, whatever its bytes. *)
Theorem C91_zero_copy : forall d t m, whole d = Some (t, m) -> wfData is64 d -> bsize t = Some (size t) -> hasUnexported t = false -> Marshal is64 d (size t) = Ok' m.
Proof.
  intros d t m W F B U. destruct (backing_whole d t m W F) as (L & _ & _ & _ & BK). specialize (BK B U).
  destruct d; try discriminate; cbn -[backing]; rewrite BK, L, Nat.eqb_refl; auto.
Qed.
(** Padding is never passed on. *)
Lemma encode_same t m m' : (forall l, In l (leavesOf t) -> read m l = read m' l) -> binaryEncode is64 t m = binaryEncode is64 t m'.
Proof. intros H. unfold binaryEncode. destruct (bsize t); auto. f_equal. f_equal. apply map_ext_in. intros l I. rewrite (H l I). auto. Qed.
Lemma same_whole t m m' : (forall l, In l (leavesOf t) -> read m l = read m' l) -> length m = size t -> length m' = size t -> bsize t = Some (size t) -> m = m'.
Proof.
  intros H L L' B. rewrite <- (packed_whole t m _ B L eq_refl), <- (packed_whole t m' _ B L' eq_refl). unfold packed. f_equal. apply map_ext_in. auto.
Qed.
Theorem C91_padding : forall d d' sz, wfData is64 d -> wfData is64 d' -> differOnlyInPadding is64 d d' -> Marshal is64 d sz = Marshal is64 d' sz.
Proof.
  intros d d' sz F F' D. inversion D as [t m m' H|t m m' H|t n m m' H|t n m m' H]; subst; cbn in F, F'.
  - pose proof (encode_same t m m' H) as E. unfold Marshal, binaryAppend. destruct t as [[]| | |]; cbn [backing length]; rewrite ?E; auto.
  - pose proof (encode_same t m m' H) as E. unfold Marshal, binaryAppend. rewrite E.
    assert (BK : backing is64 (DPtr t m) = backing is64 (DPtr t m')). { cbn. destruct (bsize t) as [s|] eqn:B; auto. destruct (Nat.eqb_spec s (size t)); cbn; auto. destruct (hasUnexported t); auto. cbn. apply (same_whole t); auto. congruence. }
    rewrite BK. auto.
  - pose proof (encode_same (Arr n t) m m' H) as E. unfold Marshal, binaryAppend. rewrite E.
    assert (BK : backing is64 (DSlice t n m) = backing is64 (DSlice t n m')). { cbn. destruct (bsize t) as [s|] eqn:B; auto. destruct (Nat.eqb_spec (n * s) (size t * n)); cbn; auto. destruct (hasUnexported t); auto. cbn. apply (same_whole (Arr n t)); auto. cbn. rewrite B. f_equal. lia. }
    rewrite BK. auto.
  - pose proof (encode_same (Arr n t) m m' H) as E. unfold Marshal, binaryAppend. rewrite E.
    assert (BK : backing is64 (DPtrSlice t n m) = backing is64 (DPtrSlice t n m')). { cbn. destruct (bsize t) as [s|] eqn:B; auto. destruct (Nat.eqb_spec (n * s) (size t * n)); cbn; auto. destruct (hasUnexported t); auto. cbn. apply (same_whole (Arr n t)); auto. cbn. rewrite B. f_equal. lia. }
    rewrite BK. auto.
Qed.

(** ** Unmarshal *)
Lemma settable_unexported t : hasUnexported t = false <-> settable t.
Proof.
  induction t as [k|s|n t IH|fs IH] using gtype_ind'; cbn; try tauto. induction fs as [|[n t] fs IHf]; cbn; [tauto|]. inversion IH as [|? ? I1 I2]; subst. cbn in I1. rewrite !orb_false_iff, I1, (IHf I2). destruct n; intuition discriminate.
Qed.
Lemma settable_leaves t : settable t -> forall off r bl l, r = RW \/ bl = true -> In l (leaves off r bl t) -> l_blank l = true \/ l_ro l = false.
Proof.
  induction t as [k|s|n t IH|fs IH] using gtype_ind'; intros ST off r bl l RB I.
  - cbn in I. destruct I as [<- | []]. cbn. destruct RB as [-> | ->]; auto.
  - easy.
  - cbn in ST. change (leaves off r bl (Arr n t)) with (arrLeaves r bl t n off) in I. revert off I. induction n as [|n IHn]; intros off I; [easy|]. cbn in I. apply in_app_or in I. destruct I as [I|I]; [|exact (IHn _ I)].
    refine (IH ST _ _ _ _ _ I). destruct RB as [-> | ->]; auto.
  - change (leaves off r bl (Struct fs)) with (structLeaves off r bl fs 0) in I. revert I. generalize 0. induction fs as [|[n t] fs IHf]; intros pos I; [easy|]. cbn in I, ST. inversion IH as [|? ? I1 I2]; subst. cbn in I1.
    destruct ST as ((S1 & S2) & S3). apply in_app_or in I. destruct I as [I|I]; [|exact (IHf I2 S3 _ I)]. refine (I1 S2 _ _ _ _ _ I).
    destruct n; cbn; try tauto; [|right; apply orb_true_r]. destruct RB as [-> | ->]; auto.
Qed.
Lemma settable_no_panic t : settable t -> existsb (fun l => negb (l_blank l) && l_ro l) (leavesOf t) = false.
Proof.
  intros ST. destruct (existsb _ _) eqn:E; auto. apply existsb_exists in E. destruct E as (l & I & X). destruct (settable_leaves t ST 0 RW false l (or_introl eq_refl) I) as [Y|Y]; rewrite Y in X; [discriminate|]. rewrite andb_false_r in X. discriminate.
Qed.
Lemma decodeAll_whole d t m b : whole d = Some (t, m) -> decodeAll is64 d b = match binaryDecode is64 t b m with Ok' (m, n) => if n =? length b then Ok' m else Err' | Err' => Err' | Panic => Panic end.
Proof. intros W. destruct d; try discriminate; injection W as <- <-; auto. Qed.
Lemma concat_agrees ls m : (forall l, In l ls -> l_off l + w l <= length m) -> agrees ls m (concat (map (read m) ls)).
Proof.
  induction ls as [|l ls IH]; intros H; cbn; auto. assert (L : length (read m l) = width (l_kind l)) by (apply read_length, H; cbn; auto).
  split.
  - right. rewrite firstn_app, <- L, Nat.sub_diag, firstn_all, firstn_O, app_nil_r. auto.
  - rewrite skipn_app, <- L, Nat.sub_diag, skipn_all. cbn. apply IH. intros; apply H; cbn; auto.
Qed.
(** It succeeds exactly for bytes of the right length, and writes the numbers; what is between them stays. *)
Theorem C91_unmarshal : forall d t m b, whole d = Some (t, m) -> wfData is64 d -> settable t -> b <> [] ->
  match Unmarshal is64 (TData d) b with
  | Ok' m' => bsize t = Some (length b) /\ length m' = length m /\ (cleanBytes (leavesOf t) b -> agrees (leavesOf t) m' b) /\
              forall i, ~ covered is64 t i -> nth_error m' i = nth_error m i
  | Err' => bsize t <> Some (length b)
  | Panic => False
  end.
Proof.
  intros d t m b W F ST NB. destruct (backing_whole d t m W F) as (L & ME & _ & BK & BK2). cbn [Unmarshal].
  destruct (Nat.eqb_spec (length (backing is64 d)) (length b)) as [E|E].
  - destruct BK as [BK|(BK & B & U)]; [rewrite BK in E; destruct b; easy|]. unfold copied. rewrite BK in *. destruct m as [|x m]; [destruct b; easy|]. rewrite <- E, L. split; auto. split; auto.
    destruct (leaves_ok t 0 RW false _ B) as (S1 & S2).
    assert (PK : packed is64 t b = b) by (eapply packed_whole; eauto; congruence).
    split.
    + intros _. rewrite <- PK at 2. unfold packed. apply concat_agrees. intros l I. destruct (sorted_in _ _ _ _ S1 I). unfold w in *. lia.
    + intros i NC. destruct (Nat.ltb_spec i (size t)) as [LT|LT].
      * exfalso. apply NC. clear - S1 S2 LT. assert (G : forall ls lo hi, sorted lo ls hi -> sum ls = hi - lo -> lo <= i < hi -> exists l, In l ls /\ l_off l <= i < l_off l + width (l_kind l)).
        { induction ls as [|l ls IH]; intros lo hi A B C; cbn in *; [lia|]. destruct A as (A1 & A2). pose proof (sorted_sum _ _ _ A2). unfold w in *.
          destruct (Nat.ltb_spec i (l_off l + width (l_kind l))); [exists l; split; auto; lia|]. destruct (IH _ _ A2 ltac:(lia) ltac:(lia)) as (y & Y1 & Y2). eauto. }
        apply (G _ 0 (0 + size t) S1); lia.
      * rewrite !(proj2 (nth_error_None _ _)); auto; [|rewrite <- E]; rewrite L; auto.
  - rewrite (decodeAll_whole d t m b W). unfold binaryDecode. rewrite settable_no_panic by auto. destruct (bsize t) as [s|] eqn:B; [|discriminate].
    destruct (Nat.ltb_spec (length b) s); [intros [= X]; lia|]. destruct (Nat.eqb_spec s (length b)) as [-> | NE]; [|congruence].
    destruct (leaves_ok t 0 RW false _ B) as (S1 & S2). rewrite Nat.add_0_l in S1. split; auto.
    destruct (scatter_low _ _ _ m b S1 ltac:(lia) ltac:(lia)) as (A1 & _). split; auto. split.
    + intros C. eapply scatter_agrees; eauto; lia.
    + intros i NC. eapply scatter_other; eauto; try lia. intros l I. unfold w. destruct (Nat.ltb_spec i (l_off l)); auto. right. destruct (Nat.leb_spec (l_off l + width (l_kind l)) i); auto. exfalso. apply NC. exists l. auto.
Qed.
(** Direct output of a system call is the same as decoding. *)
Theorem C91_output : forall t kernel, output is64 t kernel = Unmarshal is64 t kernel.
Proof. intros [f| |old|d] k; cbn; auto; [destruct (_ =? _); auto|]. destruct (length (backing is64 d) =? length k) eqn:E; auto. Qed.
(** What was written is read back: numbers, strings and bytes *)
Lemma agrees_eq ls : forall m m' b, agrees ls m b -> agrees ls m' b -> forall l, In l ls -> l_blank l = true \/ read m l = read m' l.
Proof. induction ls as [|x ls IH]; intros m m' b A A' l I; [easy|]. cbn in *. destruct A as (A1 & A2), A' as (B1 & B2). destruct I as [-> | I]; [|eauto]. destruct A1, B1; auto. right. congruence. Qed.
Lemma clean_bytes t m s : bsize t = Some s -> length m = size t -> cleanMem is64 t m -> cleanBytes (leavesOf t) (packed is64 t m).
Proof.
  intros B L C. destruct (leaves_ok t 0 RW false s B) as (S1 & _). unfold cleanMem in C. unfold packed.
  assert (H : forall l, In l (leavesOf t) -> l_off l + w l <= length m) by (intros l I; destruct (sorted_in _ _ _ _ S1 I); lia).
  induction (leavesOf t) as [|l ls IH] in C, H |- *; cbn; auto. inversion C as [|? ? C1 C2]; subst. assert (LR : length (read m l) = width (l_kind l)) by (apply read_length, H; cbn; auto).
  rewrite firstn_app, skipn_app, <- LR, Nat.sub_diag, firstn_all, firstn_O, app_nil_r, skipn_all. cbn. split; [rewrite LR; auto|]. apply IH; auto. intros; apply H; cbn; auto.
Qed.
(** ... and values *)
Definition hold (d : data) : option (gtype * list Z) := match d with DVal t m => Some (t, m) | _ => whole d end.
Lemma hold_facts d t m : hold d = Some (t, m) -> wfData is64 d -> clean is64 d -> length m = size t /\ cleanMem is64 t m /\ contents is64 d = match bsize t with Some _ => Some (packed is64 t m) | None => None end.
Proof. intros W F C. destruct d; try discriminate; injection W as <- <-; auto. Qed.
Theorem C91_round_trip : forall d t m sz b d' m', hold d = Some (t, m) -> wfData is64 d -> clean is64 d -> 0 < sz -> Marshal is64 d sz = Ok' b ->
  whole d' = Some (t, m') -> wfData is64 d' -> settable t ->
  exists m2, output is64 (TData d') b = Ok' m2 /\ forall l, In l (leavesOf t) -> l_blank l = true \/ read m2 l = read m l.
Proof.
  intros d t m sz b d' m' HD F C P MA W F' ST. apply (C91_marshal d sz b F C P) in MA. destruct MA as (CT & LB).
  destruct (hold_facts d t m HD F C) as (L & CM & CE). rewrite CE in CT. destruct (bsize t) as [s|] eqn:B; [|discriminate]. injection CT as <-.
  destruct (leaves_ok t 0 RW false s B) as (S1 & S2). rewrite C91_output.
  assert (LP : length (packed is64 t m) = s).
  { unfold packed. rewrite <- S2. assert (H : forall l, In l (leavesOf t) -> l_off l + w l <= length m) by (intros l I; destruct (sorted_in _ _ _ _ S1 I); lia).
    induction (leavesOf t) as [|l ls IH] in H |- *; cbn; auto. rewrite app_length, IH, read_length; auto; [apply H; cbn; auto|intros; apply H; cbn; auto]. }
  pose proof (C91_unmarshal d' t m' (packed is64 t m) W F' ST ltac:(intros X; rewrite X in *; cbn in *; lia)) as U. destruct (Unmarshal is64 (TData d') (packed is64 t m)) as [m2| |]; [|congruence|easy].
  exists m2. split; auto. destruct U as (_ & _ & U & _). specialize (U (clean_bytes t m s B L CM)). intros l I. eapply agrees_eq; eauto.
  apply concat_agrees. intros x X. destruct (sorted_in _ _ _ _ S1 X). lia.
Qed.
Theorem C91_round_trip_bytes : forall b, 0 < length b ->
  (forall d, d = DString b \/ d = DBytes b \/ d = DMarshaler (Some b) -> Marshal is64 d (length b) = Ok' b) /\
  (forall old, output is64 TString b = Ok' b /\ output is64 (TBytes old) b = Ok' b).
Proof.
  intros b P. split.
  - intros d [-> | [-> | ->]]; cbn; rewrite Nat.eqb_refl; auto.
  - intros old. rewrite !C91_output. auto.
Qed.
(** What was read is written back. *)
Theorem C91_write_back : forall d t m b m', whole d = Some (t, m) -> wfData is64 d -> settable t -> b <> [] -> output is64 (TData d) b = Ok' m' -> 
  cleanBytes (leavesOf t) b \/ bsize t = Some (size t) -> Marshal is64 (DPtr t m') (length b) = Ok' b.
Proof.
  intros d t m b m' W F ST NB O C. rewrite C91_output in O. pose proof (C91_unmarshal d t m b W F ST NB) as U. pose proof O as O'. rewrite O in U. destruct U as (B & LM & AG & _).
  destruct (backing_whole d t m W F) as (L & ME & _ & BK & BK2). destruct (leaves_ok t 0 RW false _ B) as (S1 & S2). rewrite Nat.add_0_l in S1.
  cbn [Marshal]. destruct (Nat.eqb_spec (length b) (size t)) as [E|E].
  - assert (BB : bsize t = Some (size t)) by congruence. assert (U : hasUnexported t = false) by (apply settable_unexported; auto). specialize (BK2 BB U).
    cbn in O. rewrite BK2 in O. rewrite L, E, Nat.eqb_refl in O. unfold copied in O. rewrite BK2 in O. destruct m as [|x m]; [cbn in L; destruct b; [easy|]; cbn in E; lia|]. injection O as <-.
    cbn. rewrite BB, U, Nat.eqb_refl. cbn. rewrite Nat.eqb_refl. auto.
  - destruct C as [C|C]; [|congruence]. cbn [backing binaryAppend]. rewrite B. destruct (Nat.eqb_spec (length b) (size t)); [easy|]. cbn [andb length]. destruct (Nat.eqb_spec 0 (length b)); [destruct b; easy|].
    unfold binaryEncode. rewrite B. rewrite (agrees_gather (leavesOf t) m' b); auto; [rewrite Nat.eqb_refl; auto|]. intros l I. destruct (sorted_in _ _ _ _ S1 I). lia.
Qed.
End Word.

(** ** Exceptions *)
Definition u32 := Basic KInt32.
(** Anything is encoded as nothing: a key that is passed for a map without keys is dropped. *)
Theorem C91_nothing_refuted : forall is64 t m, t = u32 -> Marshal is64 (DPtr (Struct [(Unexported, t)]) m) 0 = Ok' [] /\ Marshal is64 (DVal (Bad 8) [1; 2; 3; 4; 5; 6; 7; 8]%Z) 0 = Ok' [].
Proof. intros is64 t m ->. split; destruct is64; vm_compute; reflexivity. Qed.
(** Decoding to a boolean can leave a byte that is neither true nor false. *)
Theorem C91_bool_refuted : forall is64, Unmarshal is64 (TData (DPtr (Basic KBool) [0%Z])) [2%Z] = Ok' [2%Z] /\ decodeAll is64 (DPtr (Basic KBool) [0%Z]) [2%Z] = Ok' [1%Z].
Proof. intros []; split; reflexivity. Qed.
(** Blank fields: a variable and a pointer to it are different keys. *)
Definition padded := Struct [(Exported, u32); (Blank, u32)].
Theorem C91_blank_refuted : forall is64, let m := [1; 0; 0; 0; 9; 9; 9; 9]%Z in
  Marshal is64 (DVal padded m) 8 = Ok' [1; 0; 0; 0; 0; 0; 0; 0]%Z /\ Marshal is64 (DPtr padded m) 8 = Ok' m.
Proof. intros []; split; reflexivity. Qed.
(** A struct with a field that is not exported can be written, but reading it panics. *)
Theorem C91_unexported_refuted : forall is64, let t := Struct [(Unexported, u32)] in let m := [1; 2; 3; 4]%Z in
  Marshal is64 (DPtr t m) 4 = Ok' m /\ output is64 (TData (DPtr t m)) m = Panic.
Proof. intros []; split; reflexivity. Qed.
(** Signalling NaNs survive in a struct behind a pointer only. *)
Theorem C91_nan_refuted : forall is64, let t := Struct [(Exported, Basic KF32)] in let m := [1; 0; 128; 127]%Z in
  Marshal is64 (DPtr t m) 4 = Ok' m /\ Marshal is64 (DVal t m) 4 = Ok' [1; 0; 192; 127]%Z.
Proof. intros []; split; reflexivity. Qed.

(** Example: a struct with padding *)
Definition ex := Struct [(Exported, Basic KInt8); (Exported, Basic KInt32); (Exported, Arr 2 (Basic KInt16)); (Blank, Basic KInt8)].
Definition exMem := [1; 255; 255; 255; 2; 3; 4; 5; 6; 7; 8; 9; 0; 255; 255; 255]%Z.
Theorem C91_example : size true ex = 16 /\ bsize ex = Some 10 /\ wfData true (DPtr ex exMem) /\ clean true (DPtr ex exMem) /\ settable ex /\
  Marshal true (DPtr ex exMem) 10 = Ok' [1; 2; 3; 4; 5; 6; 7; 8; 9; 0]%Z /\ Marshal true (DPtr ex exMem) 16 = Err' /\
  output true (TData (DPtr ex (zeros 16))) [1; 2; 3; 4; 5; 6; 7; 8; 9; 0]%Z = Ok' [1; 0; 0; 0; 2; 3; 4; 5; 6; 7; 8; 9; 0; 0; 0; 0]%Z.
Proof.
  split; [reflexivity|]. split; [reflexivity|]. split; [reflexivity|]. split.
  - unfold clean, cleanMem. cbn. repeat (apply Forall_cons; [cbn; auto|]). apply Forall_nil.
  - split; [cbn; tauto|]. split; [reflexivity|]. split; reflexivity.
Qed.
Print Assumptions C91_marshal.
Print Assumptions C91_zero_copy.
Print Assumptions C91_padding.
Print Assumptions C91_unmarshal.
Print Assumptions C91_output.
Print Assumptions C91_round_trip.
Print Assumptions C91_round_trip_bytes.
Print Assumptions C91_write_back.
Print Assumptions C91_nothing_refuted.
Print Assumptions C91_bool_refuted.
Print Assumptions C91_blank_refuted.
Print Assumptions C91_unexported_refuted.
Print Assumptions C91_nan_refuted.
