(** C105: the version of the running kernel. *)
From Coq Require Import ZArith List Bool Lia.
From Verif Require Import Base.GoInt Internal.Math Internal.Version Internal.PropsFeature Sys.Vdso Sys.VdsoSpec.
Import ListNotations.
Open Scope Z_scope.

Lemma sext32 x : sext 32 (sext 32 x - 1) = sext 32 (x - 1).
Proof. unfold sext. change (2 ^ 32) with 4294967296. change (2 ^ (32 - 1)) with 2147483648. repeat match goal with |- context[if ?b then _ else _] => destruct b eqn:? end; lia. Qed.
Lemma align_eq n : 0 < n <= 2147483644 -> Align int32 n 4 = (n + 3) / 4 * 4.
Proof.
  intros H. unfold Align, wrap, int32. cbn [width signed]. rewrite sext32. assert (R : forall x, -2147483648 <= x < 2147483648 -> sext 32 x = x).
  { intros. apply sext_id; [lia|]. unfold in_s. change (2 ^ (32 - 1)) with 2147483648. lia. }
  rewrite (R (n + 4 - 1)) by lia. rewrite Z.quot_div_nonneg by lia. rewrite R; [|lia]. f_equal. f_equal. lia.
Qed.
Lemma align_neg n : 2147483644 < n < 2147483648 -> Align int32 n 4 < 0.
Proof. intros H. assert (C : n = 2147483645 \/ n = 2147483646 \/ n = 2147483647) by lia. destruct C as [-> | [-> | ->]]; vm_compute; reflexivity. Qed.
Lemma padding_len p l : isPadding p l -> Z.of_nat (length l) + Z.of_nat (length p) = (Z.of_nat (length l) + 3) / 4 * 4.
Proof.
  unfold isPadding. intros E. rewrite E. pose proof (Nat.div_mod_eq (length l) 4) as D. pose proof (Nat.mod_upper_bound (length l) 4 ltac:(lia)) as U.
  remember (Nat.modulo (length l) 4) as r. remember (Nat.div (length l) 4) as k. assert (C : (r = 0 \/ r = 1 \/ r = 2 \/ r = 3)%nat) by lia.
  clear Heqr Heqk E U. rewrite D. destruct C as [E | [E | [E | E]]]; rewrite E; [change (Nat.modulo (4 - 0) 4) with 0%nat|change (Nat.modulo (4 - 1) 4) with 3%nat|change (Nat.modulo (4 - 2) 4) with 2%nat|change (Nat.modulo (4 - 3) 4) with 1%nat]; lia.
Qed.
Lemma len_padding p l : Z.of_nat (length l) + Z.of_nat (length p) = (Z.of_nat (length l) + 3) / 4 * 4 -> isPadding p l.
Proof.
  unfold isPadding. intros E. pose proof (Nat.div_mod_eq (length l) 4) as D. pose proof (Nat.mod_upper_bound (length l) 4 ltac:(lia)) as U.
  remember (Nat.modulo (length l) 4) as r. remember (Nat.div (length l) 4) as k. assert (C : (r = 0 \/ r = 1 \/ r = 2 \/ r = 3)%nat) by lia.
  clear Heqr Heqk U. rewrite D in E. destruct C as [-> | [-> | [-> | ->]]]; [change (Nat.modulo (4 - 0) 4) with 0%nat|change (Nat.modulo (4 - 1) 4) with 3%nat|change (Nat.modulo (4 - 2) 4) with 2%nat|change (Nat.modulo (4 - 3) 4) with 1%nat]; lia.
Qed.
Lemma readFull_app a b : readFull (Z.of_nat (length a)) (a ++ b) = Some (a, b).
Proof. unfold readFull. rewrite app_length. replace (_ <=? _) with true by lia. rewrite Nat2Z.id, firstn_app, skipn_app, Nat.sub_diag, firstn_all, skipn_all. cbn. now rewrite app_nil_r. Qed.
Lemma readFull_app' n a b : n = Z.of_nat (length a) -> readFull n (a ++ b) = Some (a, b).
Proof. intros ->. apply readFull_app. Qed.
Lemma cstr s : ByteSliceToString s = Linux <-> s = Linux \/ exists r, s = [76; 105; 110; 117; 120; 0] ++ r.
Proof.
  unfold Linux. split.
  - intros H. assert (G : forall l s, Forall (fun b => b <> 0) l -> ByteSliceToString s = l -> s = l \/ exists r, s = (l ++ [0]) ++ r).
    { clear. induction l as [|b l IH]; intros s F E; destruct s as [|c s]; cbn in E; auto; try discriminate.
      - destruct (Z.eqb_spec c 0) as [->|N]; [|discriminate]. right. now exists s.
      - destruct (Z.eqb_spec c 0); [discriminate|]. injection E as -> E. apply Forall_inv_tail in F. destruct (IH s F E) as [-> | [r ->]]; auto. right. now exists r. }
    apply G in H; [|repeat constructor; lia]. exact H.
  - intros [-> | [r ->]]; reflexivity.
Qed.
Definition isVersion (n : note) : bool := (if list_eq_dec Z.eq_dec (ByteSliceToString (nname n)) Linux then true else false) && (Z.of_nat (length (ndesc n)) =? 4) && (ntype n =? 0).
Lemma isVersion_iff n : isVersion n = true <-> holdsVersion n.
Proof.
  unfold isVersion, holdsVersion. rewrite !andb_true_iff, !Z.eqb_eq. destruct (list_eq_dec _ _ _) as [E|E].
  - apply cstr in E. unfold Linux in E. split; [intros [[_ A] B]; repeat split; auto; lia|intros (A & B & C); repeat split; auto; lia].
  - split; [intros [[A _] _]; discriminate|]. intros (A & _). exfalso. apply E, cstr. exact A.
Qed.
Lemma i32_put bo x : 0 <= x < 2147483648 -> i32 (get bo (put bo 4 x)) = x.
Proof. intros H. rewrite get_put. change (256 ^ Z.of_nat 4) with 4294967296. rewrite Z.mod_small by lia. unfold i32. apply sext_id; [lia|]. unfold in_s. change (2 ^ (32 - 1)) with 2147483648. lia. Qed.
Lemma i32_zero bo x : 0 <= x < 4294967296 -> (i32 (get bo (put bo 4 x)) =? 0) = (x =? 0).
Proof. intros H. rewrite get_put. change (256 ^ Z.of_nat 4) with 4294967296. rewrite Z.mod_small by lia. unfold i32, sext. change (2 ^ 32) with 4294967296. change (2 ^ (32 - 1)) with 2147483648. rewrite Z.mod_small by lia. destruct (x <? 2147483648) eqn:E; lia. Qed.
Lemma step f bo n s t : encodes bo n s -> fits n -> readNotes (S f) bo (s ++ t) = if isVersion n then Got (Some (get bo (ndesc n))) else readNotes f bo t.
Proof.
  intros (p & q & P & Q & ->) (F1 & F2 & F3). rewrite <- !app_assoc.
  set (h1 := put bo 4 _). set (h2 := put bo 4 (Z.of_nat (length (ndesc n)))). set (h3 := put bo 4 (ntype n)).
  assert (L1 : length h1 = 4%nat) by apply put_length. assert (L2 : length h2 = 4%nat) by apply put_length. assert (L3 : length h3 = 4%nat) by apply put_length.
  cbn [readNotes]. set (rest := nname n ++ _).
  assert (R : readFull 12 (h1 ++ h2 ++ h3 ++ rest) = Some (h1 ++ h2 ++ h3, rest)).
  { replace (h1 ++ h2 ++ h3 ++ rest) with ((h1 ++ h2 ++ h3) ++ rest) by now rewrite <- !app_assoc. apply readFull_app'. rewrite !app_length. lia. }
  assert (NE : exists b u, h1 ++ h2 ++ h3 ++ rest = b :: u) by (destruct (h1 ++ h2 ++ h3 ++ rest) as [|b u] eqn:Q0; [apply (f_equal (@length Z)) in Q0; rewrite !app_length in Q0; cbn [length] in Q0; lia|exists b, u; reflexivity]). destruct NE as (b & u & NE). rewrite NE, <- NE. rewrite R.
  assert (G1 : firstn 4 (h1 ++ h2 ++ h3) = h1) by (rewrite <- L1, firstn_app, Nat.sub_diag, firstn_all; cbn; apply app_nil_r).
  assert (S1 : skipn 4 (h1 ++ h2 ++ h3) = h2 ++ h3) by (rewrite <- L1 at 1; rewrite skipn_app, Nat.sub_diag, skipn_all; reflexivity).
  assert (G2 : firstn 4 (h2 ++ h3) = h2) by (rewrite <- L2, firstn_app, Nat.sub_diag, firstn_all; cbn; apply app_nil_r).
  assert (G3 : skipn 8 (h1 ++ h2 ++ h3) = h3) by (rewrite app_assoc; replace 8%nat with (length (h1 ++ h2)) by (rewrite app_length; lia); rewrite skipn_app, Nat.sub_diag, skipn_all; reflexivity).
  rewrite S1, G1, G2, G3. unfold h1, h2, h3. rewrite !i32_put, i32_zero by lia. clear G1 S1 G2 G3 R NE b u. clearbody h1 h2 h3.
  assert (N : (if 0 <? Z.of_nat (length (nname n)) then if Align int32 (Z.of_nat (length (nname n))) 4 <? 0 then Panics else match readFull (Align int32 (Z.of_nat (length (nname n))) 4) rest with None => Fails EName | Some (buf, sr) => Got (ByteSliceToString (firstn (Z.to_nat (Z.of_nat (length (nname n)))) buf), sr) end else Got ([], rest)) = Got (ByteSliceToString (nname n), ndesc n ++ q ++ t)).
  { unfold rest. destruct (Z.ltb_spec 0 (Z.of_nat (length (nname n)))) as [LT|LT].
    - cbv zeta. rewrite align_eq by lia. apply padding_len in P. rewrite <- P. replace (_ <? 0) with false by lia. rewrite app_assoc. rewrite readFull_app' by (rewrite app_length; lia).
      rewrite Nat2Z.id, firstn_app, Nat.sub_diag, firstn_all. cbn [firstn]. now rewrite app_nil_r.
    - destruct (nname n) as [|b l]; [|cbn in LT; lia]. unfold isPadding in P. cbn in P. destruct p; [reflexivity|discriminate]. }
  rewrite N. unfold isVersion. destruct (Z.ltb_spec 0 (Z.of_nat (length (ndesc n)))) as [LT|LT].
  - destruct (_ && _) eqn:V.
    + apply andb_prop in V as [V _]. apply andb_prop in V as [_ V]. apply Z.eqb_eq in V. now rewrite readFull_app' by lia.
    + cbv zeta. rewrite align_eq by lia. apply padding_len in Q. rewrite <- Q. replace (_ <? 0) with false by lia. rewrite app_assoc. now rewrite readFull_app' by (rewrite app_length; lia).
  - replace (Z.of_nat (length (ndesc n)) =? 4) with false by lia. rewrite andb_false_r. cbn [andb]. destruct (ndesc n) as [|b l]; [|cbn in LT; lia]. unfold isPadding in Q. cbn in Q. now destruct q.
Qed.
Lemma encodes_len bo n s : encodes bo n s -> (12 <= length s)%nat.
Proof. intros (p & q & _ & _ & ->). rewrite !app_length, !put_length. lia. Qed.
Lemma are_none bo l s : areNotes bo l s -> Forall fits l -> Forall (fun m => ~ holdsVersion m) l -> forall f, (length s < f)%nat -> readNotes f bo s = Got None.
Proof.
  induction 1 as [|n l s t E A IH]; intros F V f L; destruct f; try lia; [reflexivity|]. inversion F; subst. inversion V; subst. rewrite (step f bo n s t) by auto.
  destruct (isVersion n) eqn:I; [apply isVersion_iff in I; contradiction|]. apply IH; auto. pose proof (encodes_len _ _ _ E). rewrite app_length in L. lia.
Qed.
Lemma are_first bo l s : areNotes bo l s -> forall n, Forall fits l -> firstOf n l -> forall f x, (length s < f)%nat -> readNotes f bo (s ++ x) = Got (Some (get bo (ndesc n))).
Proof.
  induction 1 as [|m l s t E A IH]; intros n F (l1 & l2 & L & V & N) f x LF; [now destruct l1|]. destruct f; [lia|]. inversion F; subst. rewrite <- app_assoc. rewrite (step f bo m s) by auto.
  destruct l1 as [|m' l1]; injection L as -> ->.
  - apply isVersion_iff in V. now rewrite V.
  - inversion N; subst. destruct (isVersion m') eqn:I; [apply isVersion_iff in I; contradiction|]. apply IH; auto; [exists l1, l2; auto|]. pose proof (encodes_len _ _ _ E). rewrite app_length in LF. lia.
Qed.
Lemma holds_filter bo ls secs : holds bo ls secs -> Forall2 (fun l s => areNotes bo l s /\ Forall fits l) ls (map snd (filter (fun s => fst s =? SHT_NOTE) secs)).
Proof. unfold SHT_NOTE. induction 1; cbn [filter fst]; [constructor| |]. - rewrite Z.eqb_refl. cbn [map snd]. constructor; auto. - apply Z.eqb_neq in H. now rewrite H. Qed.
(** The version is that of the first note that holds one, in whichever section it is, whatever the other notes and sections are, whatever fills the notes up; if there is none, that is reported. *)
Theorem C105_first : forall bo ls secs n, holds bo ls secs -> firstOf n (concat ls) -> vdsoLinuxVersionCode bo secs = Got (get bo (ndesc n)).
Proof.
  intros bo ls secs n H F. apply holds_filter in H. unfold vdsoLinuxVersionCode. remember (map snd _) as ss eqn:X. clear X secs.
  assert (G : readSections bo ss = Got (get bo (ndesc n))).
  { induction H as [|l s ls ss [A B] H IH]; [destruct F as (l1 & l2 & L & _); now destruct l1|]. cbn [readSections]. destruct F as (l1 & l2 & L & V & N). cbn [concat] in L.
    assert (C : Forall (fun m => ~ holdsVersion m) l \/ exists m1 m2, l = m1 ++ n :: m2 /\ Forall (fun m => ~ holdsVersion m) m1).
    { clear - L V N. revert l L. induction l1 as [|m l1 IH]; intros l L; destruct l as [|m' l]; cbn in L; auto; injection L as -> L; inversion N; subst.
      - right. exists [], l. auto.
      - destruct (IH ltac:(auto) l L) as [C | (m1 & m2 & -> & C)]; [left; now constructor|]. right. exists (m :: m1), m2. auto. }
    destruct C as [C | (m1 & m2 & -> & C)].
    - rewrite (are_none bo l s A B C) by lia. apply IH. clear - L V N C. revert l1 L N. induction C as [|m l M C IHC]; intros l1 L N; [cbn in L; exists l1, l2; auto|]. destruct l1 as [|m' l1]; cbn in L; injection L as -> L; [contradiction|]. inversion N; subst. eauto.
    - rewrite <- (app_nil_r s) at 2. rewrite (are_first bo _ s A n) by (solve [auto | lia | exists m1, m2; auto]). reflexivity. }
  destruct ss; [discriminate|exact G].
Qed.
Theorem C105_none : forall bo ls secs, holds bo ls secs -> Forall (fun m => ~ holdsVersion m) (concat ls) -> vdsoLinuxVersionCode bo secs = Fails (if ls then ENoSection else ENoNote).
Proof.
  intros bo ls secs H F. apply holds_filter in H. unfold vdsoLinuxVersionCode. remember (map snd _) as ss eqn:X. clear X secs. destruct H as [|l s ls ss A H]; [reflexivity|].
  revert F. generalize (Forall2_cons _ _ A H). generalize (l :: ls) (s :: ss). clear. intros ls ss H F. induction H as [|l s ls ss [A B] H IH]; [reflexivity|]. cbn [readSections concat] in *. apply Forall_app in F as [F1 F2]. rewrite (are_none bo l s A B F1) by lia. auto.
Qed.
(** Where the vDSO is: the first pair of the auxiliary vector that says so, unless the vector ends before. *)
Theorem C105_address : forall data, vdsoMemoryAddress (S (length data)) data 0 = match find (fun p => (fst p =? AT_SYSINFO_EHDR) || (fst p =? AT_NULL)) data with
  | Some (t, v) => if t =? AT_NULL then Fails ENoVDSO else if v =? 0 then Fails EInvalidAddr else Got v | None => Fails ENoVDSO end.
Proof.
  intros data. assert (G : forall f i, (f + i = S (length data))%nat -> (0 < f)%nat -> vdsoMemoryAddress f data i = match find (fun p => (fst p =? AT_SYSINFO_EHDR) || (fst p =? AT_NULL)) (skipn i data) with
    | Some (t, v) => if t =? AT_NULL then Fails ENoVDSO else if v =? 0 then Fails EInvalidAddr else Got v | None => Fails ENoVDSO end).
  { induction f as [|f IH]; intros i E L; [lia|]. cbn [vdsoMemoryAddress]. unfold ReadAuxvPair. replace (length data + 2 <=? i)%nat with false by (symmetry; apply Nat.leb_gt; lia).
    destruct (Nat.ltb_spec i (length data)) as [LT|LT].
    - assert (D : exists a b x, data = a ++ x :: b /\ length a = i).
      { exists (firstn i data), (skipn (S i) data), (nth i data (0, 0)). split; [|rewrite firstn_length; lia]. rewrite <- (firstn_skipn i data) at 1. f_equal. clear - LT. revert i LT. induction data as [|x l IHl]; intros i LT; cbn in LT; [lia|]. destruct i; [reflexivity|]. cbn. apply IHl. lia. }
      destruct D as (a & b & [t v] & D & LA). assert (NT : nth i data (0, 0) = (t, v)) by (rewrite D, app_nth2, LA, Nat.sub_diag by lia; reflexivity). rewrite NT.
      assert (SK : skipn i data = (t, v) :: b) by (rewrite D, <- LA, skipn_app, Nat.sub_diag, skipn_all; reflexivity). rewrite SK. cbn [find fst].
      destruct (Z.eqb_spec t AT_SYSINFO_EHDR) as [->|N1]; cbn [orb]; [change (AT_SYSINFO_EHDR =? AT_NULL) with false; cbn; destruct (v =? 0); reflexivity|].
      destruct (Z.eqb_spec t AT_NULL) as [->|N2]; [reflexivity|]. rewrite IH by lia. replace (skipn (S i) data) with b; [reflexivity|]. rewrite D, <- LA. replace (S (length a)) with (length (a ++ [(t, v)])) by (rewrite app_length; cbn; lia).
      replace (a ++ (t, v) :: b) with ((a ++ [(t, v)]) ++ b) by now rewrite <- app_assoc. now rewrite skipn_app, Nat.sub_diag, skipn_all.
    - replace i with (length data) by lia. rewrite skipn_all. reflexivity. }
  rewrite G by lia. reflexivity.
Qed.
(** The running kernel's version, from what it put into the vDSO: 65536 times the first number, plus 256 times the second, plus the third, which is at most 255. *)
Theorem C105_version : forall bo auxv mem ls n a x y z, find (fun p => (fst p =? 33) || (fst p =? 0)) auxv = Some (33, a) -> a <> 0 -> holds bo ls (mem a) -> firstOf n (concat ls) ->
  0 <= x < 256 -> 0 <= y < 256 -> 0 <= z < 256 -> ndesc n = put bo 4 (65536 * x + 256 * y + z) -> detectKernelVersion bo auxv mem = Got (mkVersion x y z).
Proof.
  intros bo auxv mem ls n a x y z A N H F X Y Z D. unfold detectKernelVersion. rewrite C105_address. unfold AT_SYSINFO_EHDR, AT_NULL. rewrite A. change (33 =? 0) with false. cbv iota. replace (a =? 0) with false by lia. rewrite (C105_first _ _ _ n H F), D, get_put. f_equal. change (256 ^ Z.of_nat 4) with 4294967296. rewrite Z.mod_small by lia.
  unfold fromCode, u16, u8, wrapu. rewrite !Z.shiftr_div_pow2 by lia. change (2 ^ 16) with 65536. change (2 ^ 8) with 256. f_equal; lia.
Qed.

Lemma readFull_inv n s a b : 0 <= n -> readFull n s = Some (a, b) -> s = a ++ b /\ Z.of_nat (length a) = n.
Proof. unfold readFull. intros P H. destruct (Z.leb_spec n (Z.of_nat (length s))); [|discriminate]. injection H as <- <-. rewrite firstn_skipn. split; auto. rewrite firstn_length. lia. Qed.
Lemma readFull_more n s a b x : 0 <= n -> readFull n s = Some (a, b) -> readFull n (s ++ x) = Some (a, b ++ x).
Proof. intros P H. apply readFull_inv in H as [-> L]; auto. rewrite <- app_assoc. now apply readFull_app'. Qed.
Lemma i32_pos x : 0 <= x < 4294967296 -> 0 < i32 x -> i32 x = x /\ x < 2147483648.
Proof. unfold i32, sext. change (2 ^ 32) with 4294967296. change (2 ^ (32 - 1)) with 2147483648. intros H P. rewrite Z.mod_small in * by lia. destruct (x <? 2147483648) eqn:E; lia. Qed.
Lemma i32_0 x : 0 <= x < 4294967296 -> i32 x = 0 -> x = 0.
Proof. unfold i32, sext. change (2 ^ 32) with 4294967296. change (2 ^ (32 - 1)) with 2147483648. intros H P. rewrite Z.mod_small in * by lia. destruct (x <? 2147483648) eqn:E; lia. Qed.
Lemma align_pos n : 0 < n < 2147483648 -> Align int32 n 4 <? 0 = false -> n <= 2147483644 /\ Align int32 n 4 = (n + 3) / 4 * 4.
Proof. intros H A. destruct (Z.leb_spec n 2147483644); [split; [lia|apply align_eq; lia]|]. pose proof (align_neg n). lia. Qed.
Lemma get4 bo l : bytes_ok l -> length l = 4%nat -> 0 <= get bo l < 4294967296.
Proof. intros B L. pose proof (get_range bo l B) as R. rewrite L in R. exact R. Qed.
Lemma split12 (h : list Z) : length h = 12%nat -> exists a b c, h = a ++ b ++ c /\ length a = 4%nat /\ length b = 4%nat /\ length c = 4%nat /\ firstn 4 h = a /\ firstn 4 (skipn 4 h) = b /\ skipn 8 h = c.
Proof. intros L. do 12 (destruct h as [|? h]; [discriminate|]). destruct h; [|discriminate]. eexists [_; _; _; _], [_; _; _; _], [_; _; _; _]. cbn. repeat split. Qed.
(** One turn of the loop, for any bytes *)
Lemma turn f bo s : s <> [] -> bytes_ok s -> (exists e, readNotes (S f) bo s = Fails e) \/
  exists a b c t, s = a ++ b ++ c ++ t /\ length a = 4%nat /\ length b = 4%nat /\ length c = 4%nat /\ bytes_ok t /\
  ((readNotes (S f) bo s = Panics /\ 2147483645 <= get bo a < 2147483648) \/
   (exists u, readNotes (S f) bo s = readNotes f bo u /\ (length u <= length t)%nat /\ (exists w, t = w ++ u) /\ forall g x, readNotes (S g) bo (s ++ x) = readNotes g bo (u ++ x)) \/
   (exists n m u, s = m ++ u /\ encodes bo n m /\ holdsVersion n /\ fits n /\ readNotes (S f) bo s = Got (Some (get bo (ndesc n))) /\ forall g x, readNotes (S g) bo (s ++ x) = Got (Some (get bo (ndesc n))))).
Proof.
  intros NE B.
  assert (U : forall x, exists y z, s ++ x = y :: z) by (intros; destruct s; [easy|cbn; eauto]).
  cbn [readNotes]. destruct (U []) as (y & z & Y). rewrite app_nil_r in Y. rewrite Y, <- Y. clear y z Y.
  destruct (readFull 12 s) as [[h t]|] eqn:R; [|left; eauto]. pose proof (readFull_more 12 s h t) as RM. specialize (fun x => RM x ltac:(lia) R). apply readFull_inv in R as [Sh L]; [|lia].
  assert (L' : length h = 12%nat) by lia. destruct (split12 h L') as (a & b & c & H & La & Lb & Lc & Fa & Fb & Fc).
  assert (Bs : bytes_ok a /\ bytes_ok b /\ bytes_ok c /\ bytes_ok t) by (rewrite Sh, H, !bytes_ok_app in B; tauto). destruct Bs as (Ba & Bb & Bc & Bt).
  pose proof (get4 bo a Ba La) as Ga. pose proof (get4 bo b Bb Lb) as Gb. pose proof (get4 bo c Bc Lc) as Gc.
  rewrite Fa, Fb, Fc.
  (* the name *)
  set (N := if 0 <? i32 (get bo a) then _ else _).
  assert (NC : (exists e, N = Fails e) \/ (N = Panics /\ 2147483645 <= get bo a < 2147483648) \/ exists name u, N = Got (name, u) /\ (exists w, t = w ++ u) /\
    (forall x, (if 0 <? i32 (get bo a) then if Align int32 (i32 (get bo a)) 4 <? 0 then Panics else match readFull (Align int32 (i32 (get bo a)) 4) (t ++ x) with None => Fails EName | Some (buf, sr) => Got (ByteSliceToString (firstn (Z.to_nat (i32 (get bo a))) buf), sr) end else Got ([], t ++ x)) = Got (name, u ++ x)) /\
    (name = Linux -> exists nm p, t = nm ++ p ++ u /\ isPadding p nm /\ Z.of_nat (length nm) = get bo a /\ get bo a <= 2147483644 /\ ByteSliceToString nm = Linux)).
  { unfold N. destruct (Z.ltb_spec 0 (i32 (get bo a))) as [P|P].
    - destruct (i32_pos _ Ga P) as [E LT]. rewrite E. cbv zeta. destruct (Align int32 (get bo a) 4 <? 0) eqn:A.
      + right. left. split; auto. destruct (Z.leb_spec (get bo a) 2147483644); [rewrite align_eq in A by lia; lia|lia].
      + destruct (align_pos (get bo a) ltac:(lia) A) as [LE AE]. destruct (readFull (Align int32 (get bo a) 4) t) as [[buf u]|] eqn:R; [|left; eauto]. right. right. exists (ByteSliceToString (firstn (Z.to_nat (get bo a)) buf)), u.
        assert (R' := R). apply readFull_inv in R as [T LB]; [|lia]. split; [auto|]. split; [exists buf; auto|]. split; [intros x; rewrite (readFull_more _ t buf u) by (auto; lia); reflexivity|].
        intros C. exists (firstn (Z.to_nat (get bo a)) buf), (skipn (Z.to_nat (get bo a)) buf). rewrite app_assoc, firstn_skipn. rewrite firstn_length. repeat split; auto; try lia.
        apply len_padding. rewrite skipn_length, firstn_length. lia.
    - right. right. exists [], t. split; auto. split; [exists []; auto|]. split; [auto|]. unfold Linux. discriminate. }
  clearbody N. destruct NC as [[e E] | [[E G] | (name & u & E & [w W] & M & C)]].
  - left. rewrite E. eauto.
  - right. exists a, b, c, t. rewrite Sh, H, <- !app_assoc. repeat split; auto. rewrite E. left. auto.
  - rewrite E.
    assert (SX : forall g x, readNotes (S g) bo (s ++ x) = (if 0 <? i32 (get bo b) then
            if (if list_eq_dec Z.eq_dec name Linux then true else false) && (i32 (get bo b) =? 4) && (i32 (get bo c) =? 0)
            then match readFull 4 (u ++ x) with None => Fails EDesc | Some (v, _) => Got (Some (get bo v)) end
            else if Align int32 (i32 (get bo b)) 4 <? 0 then readNotes g bo (u ++ x)
              else match readFull (Align int32 (i32 (get bo b)) 4) (u ++ x) with None => Fails ESkip | Some (_, sr) => readNotes g bo sr end
          else readNotes g bo (u ++ x))).
    { intros g x. cbn [readNotes]. destruct (U x) as (y & z & Y). rewrite Y, <- Y, RM, Fa, Fb, Fc, M. reflexivity. }
    destruct (Z.ltb_spec 0 (i32 (get bo b))) as [Pb|Pb].
    + destruct (i32_pos _ Gb Pb) as [Eb LTb]. rewrite Eb in *. destruct (_ && _) eqn:V.
      * (* this note holds the version *)
        destruct (readFull 4 u) as [[d u']|] eqn:R; [|left; eauto]. right. exists a, b, c, t. split; [rewrite Sh, H, <- !app_assoc; auto|]. repeat (split; [assumption|]). right. right.
        apply andb_prop in V as [V V3]. apply andb_prop in V as [V1 V2]. apply Z.eqb_eq in V2, V3. destruct (list_eq_dec Z.eq_dec name Linux) as [LN|]; [|discriminate]. destruct (C LN) as (nm & pd & T & PD & Ln & LE & CN).
        assert (R' := R). apply readFull_inv in R as [Ud Ld]; [|lia]. apply i32_0 in V3; [|auto]. exists (Note nm d 0), (a ++ b ++ c ++ nm ++ pd ++ d), u'.
        assert (Enc : encodes bo (Note nm d 0) (a ++ b ++ c ++ nm ++ pd ++ d)).
        { exists pd, []. cbn [nname ndesc ntype]. split; auto. split; [unfold isPadding; replace (length d) with 4%nat by lia; reflexivity|]. rewrite Ln, Ld. replace 4 with (get bo b) by lia. replace 0 with (get bo c) by lia.
          rewrite <- La at 1. rewrite put_get by auto. rewrite <- Lb at 1. rewrite put_get by auto. rewrite <- Lc at 1. rewrite put_get by auto. now rewrite app_nil_r. }
        split; [rewrite Sh, H, T, Ud, <- !app_assoc; reflexivity|]. split; auto. split; [repeat split; cbn; try lia; apply cstr; auto|]. split; [repeat split; cbn; lia|]. cbn [ndesc]. split; auto.
        intros g x. specialize (SX g x); cbn [readNotes] in SX; rewrite SX; clear SX. rewrite (readFull_more 4 u d u') by (auto; lia). reflexivity.
      * destruct (Align int32 (get bo b) 4 <? 0) eqn:A.
        -- right. exists a, b, c, t. split; [rewrite Sh, H, <- !app_assoc; auto|]. repeat (split; [assumption|]). right. left. exists u. split; auto. split; [rewrite W, app_length; lia|]. split; [eauto|]. intros g x. specialize (SX g x); cbn [readNotes] in SX; rewrite SX; clear SX. reflexivity.
        -- destruct (readFull _ u) as [[d u']|] eqn:R; [|left; eauto]. right. exists a, b, c, t. split; [rewrite Sh, H, <- !app_assoc; auto|]. repeat (split; [assumption|]). right. left. exists u'. split; auto.
           assert (R' := R). apply readFull_inv in R as [Ud Ld]; [|lia]. split; [rewrite W, Ud, !app_length; lia|]. split; [exists (w ++ d); rewrite W, Ud, app_assoc; auto|]. intros g x. specialize (SX g x); cbn [readNotes] in SX; rewrite SX; clear SX. rewrite (readFull_more _ u d u') by (auto; lia). reflexivity.
    + right. exists a, b, c, t. split; [rewrite Sh, H, <- !app_assoc; auto|]. repeat (split; [assumption|]). right. left. exists u. split; auto. split; [rewrite W, app_length; lia|]. split; [eauto|]. intros g x. specialize (SX g x); cbn [readNotes] in SX; rewrite SX; clear SX. reflexivity.
Qed.
(** Whatever the bytes are, reading them ends: with a version that a note somewhere in them holds, and that doesn't depend on what follows them; with an error; or with a panic, and then a number in them is one of the three sizes that can't be rounded up. *)
Lemma any bo : forall f s, bytes_ok s -> (length s < f)%nat -> match readNotes f bo s with
  | Got (Some v) => (exists pre m suf n, s = pre ++ m ++ suf /\ encodes bo n m /\ holdsVersion n /\ fits n /\ v = get bo (ndesc n)) /\ forall x g, (length (s ++ x) < g)%nat -> readNotes g bo (s ++ x) = Got (Some v)
  | Panics => exists pre a suf, s = pre ++ a ++ suf /\ length a = 4%nat /\ 2147483645 <= get bo a < 2147483648
  | Stuck => False | _ => True end.
Proof.
  induction f as [|f IH]; intros s B L; [lia|]. destruct (list_eq_dec Z.eq_dec s []) as [->|NE]; [exact I|].
  destruct (turn f bo s NE B) as [[e ->] | (a & b & c & t & S & La & Lb & Lc & Bt & [[E R] | [(u & E & LU & [w W] & X) | (n & m & u & SM & En & V & F & E & X)]])]; [exact I| | |]; rewrite E.
  - exists [], a, (b ++ c ++ t). auto.
  - specialize (IH u). destruct (readNotes f bo u) as [[v|]|e| |] eqn:RU; auto.
    + destruct IH as [(pre & m & suf & n & SU & R) M]; [rewrite W, bytes_ok_app in Bt; tauto|rewrite S, !app_length in L; lia|]. split.
      * exists (a ++ b ++ c ++ w ++ pre), m, suf, n. split; auto. rewrite S, W, SU, <- !app_assoc. reflexivity.
      * intros x g G. destruct g as [|g]; [lia|]. rewrite X. apply M. rewrite S, W, !app_length in G. rewrite app_length. lia.
    + destruct IH as (pre & q & suf & SU & R); [rewrite W, bytes_ok_app in Bt; tauto|rewrite S, !app_length in L; lia|]. exists (a ++ b ++ c ++ w ++ pre), q, suf. split; auto. rewrite S, W, SU, <- !app_assoc. reflexivity.
    + apply IH; [rewrite W, bytes_ok_app in Bt; tauto|rewrite S, !app_length in L; lia].
  - split; [exists [], m, u, n; auto|]. intros x g G. destruct g as [|g]; [lia|]. apply X.
Qed.
Theorem C105_any : forall bo secs, Forall (fun s => bytes_ok (snd s)) secs -> match vdsoLinuxVersionCode bo secs with
  | Got v => exists s pre m suf n, In (7, s) secs /\ s = pre ++ m ++ suf /\ encodes bo n m /\ holdsVersion n /\ v = get bo (ndesc n)
  | Panics => exists s pre a suf, In (7, s) secs /\ s = pre ++ a ++ suf /\ length a = 4%nat /\ 2147483645 <= get bo a < 2147483648
  | Stuck => False | Fails _ => True end.
Proof.
  intros bo secs B. unfold vdsoLinuxVersionCode.
  assert (G : forall l, (forall s, In s l -> In (7, s) secs) -> match readSections bo l with
    | Got v => exists s pre m suf n, In (7, s) secs /\ s = pre ++ m ++ suf /\ encodes bo n m /\ holdsVersion n /\ v = get bo (ndesc n)
    | Panics => exists s pre a suf, In (7, s) secs /\ s = pre ++ a ++ suf /\ length a = 4%nat /\ 2147483645 <= get bo a < 2147483648
    | Stuck => False | Fails _ => True end).
  { induction l as [|s l IH]; intros IL; cbn [readSections]; [exact I|]. assert (S7 : In (7, s) secs) by (apply IL; now left). pose proof (any bo (S (length s)) s) as A. rewrite Forall_forall in B. specialize (B _ S7). specialize (A B ltac:(lia)).
    destruct (readNotes _ bo s) as [[v|]|e| |]; auto.
    - destruct A as [(pre & m & suf & n & E & En & V & _ & R) _]. exists s, pre, m, suf, n. auto.
    - apply IH. intros. apply IL. now right.
    - destruct A as (pre & q & suf & E & R). exists s, pre, q, suf. tauto. }
  specialize (G (map snd (filter (fun s => fst s =? SHT_NOTE) secs))). destruct (map snd _) eqn:M; [exact I|]. rewrite <- M in *. apply G. intros x I. rewrite M in I. rewrite <- M in I. apply in_map_iff in I as ([t x'] & <- & I). apply filter_In in I as [I E]. cbn in *. apply Z.eqb_eq in E. subst. exact I.
Qed.
(** What follows the note, in its section and in later ones, makes no difference. *)
Theorem C105_rest : forall bo s x secs v, bytes_ok s -> vdsoLinuxVersionCode bo [(7, s)] = Got v -> vdsoLinuxVersionCode bo ((7, s ++ x) :: secs) = Got v.
Proof.
  intros bo s x secs v B E. unfold vdsoLinuxVersionCode in *. cbn [filter fst snd map readSections] in *. change (7 =? SHT_NOTE) with true in *. cbn [map readSections snd] in *.
  pose proof (any bo (S (length s)) s B ltac:(lia)) as A. destruct (readNotes _ bo s) as [[w|]|e| |]; try discriminate. injection E as <-. destruct A as [_ A]. rewrite A by lia. reflexivity.
Qed.
(** A note whose name is said to be this long makes the program panic, however few bytes there are. *)
Theorem C105_panics_refuted : forall bo size d t rest secs, 2147483645 <= size < 2147483648 -> length d = 4%nat -> length t = 4%nat -> vdsoLinuxVersionCode bo ((7, put bo 4 size ++ d ++ t ++ rest) :: secs) = Panics.
Proof.
  intros bo size d t rest secs R Ld Lt. unfold vdsoLinuxVersionCode. cbn [filter fst map snd]. change (7 =? SHT_NOTE) with true. cbn [map snd readSections]. set (h := put bo 4 size). assert (Lh : length h = 4%nat) by apply put_length.
  cbn [readNotes]. destruct (h ++ d ++ t ++ rest) as [|y z] eqn:Y; [apply (f_equal (@length Z)) in Y; rewrite !app_length in Y; cbn in Y; lia|]. rewrite <- Y.
  replace (h ++ d ++ t ++ rest) with ((h ++ d ++ t) ++ rest) by now rewrite <- !app_assoc. rewrite readFull_app' by (rewrite !app_length; lia).
  replace (firstn 4 (h ++ d ++ t)) with h by (rewrite <- Lh, firstn_app, Nat.sub_diag, firstn_all; cbn; now rewrite app_nil_r). unfold h. rewrite i32_put by lia. replace (0 <? size) with true by lia. pose proof (align_neg size ltac:(lia)). replace (Align int32 size 4 <? 0) with true by lia. reflexivity.
Qed.
(** Version 6.1.90 in the second note section, after a note of 5 bytes with a longer name and one named Linux of another type *)
Definition exNotes : list (list note) := [[Note [71; 78; 85; 0] [1; 2; 3; 4; 5] 3]; [Note [76; 105; 110; 117; 120; 0] [9; 9; 9; 9] 256; Note [76; 105; 110; 117; 120; 0] [90; 1; 6; 0] 0]].
Definition exSecs : list (Z * list Z) := [(1, [5]); (7, [4;0;0;0; 5;0;0;0; 3;0;0;0; 71;78;85;0; 1;2;3;4;5;0;0;0]); (7, [6;0;0;0; 4;0;0;0; 0;1;0;0; 76;105;110;117;120;0;7;7; 9;9;9;9; 6;0;0;0; 4;0;0;0; 0;0;0;0; 76;105;110;117;120;0;0;0; 90;1;6;0])].
Theorem C105_example : holds LE exNotes exSecs /\ firstOf (Note [76; 105; 110; 117; 120; 0] [90; 1; 6; 0] 0) (concat exNotes) /\
  detectKernelVersion LE [(16, 5); (33, 4096); (6, 4096)] (fun a => if a =? 4096 then exSecs else []) = Got (mkVersion 6 1 90) /\
  vdsoLinuxVersionCode LE [(7, [253;255;255;127; 0;0;0;0; 0;0;0;0])] = Panics.
Proof.
  split; [|split; [|split; vm_compute; reflexivity]].
  - unfold exNotes, exSecs. apply holdsOther; [discriminate|]. apply holdsNote; [| |apply holdsNote; [| |apply holdsNil]].
    + rewrite <- (app_nil_r [4;0;0;0; 5;0;0;0; 3;0;0;0; 71;78;85;0; 1;2;3;4;5;0;0;0]). apply areCons; [|apply areNil]. exists [], [0; 0; 0]. repeat split.
    + repeat constructor; cbn; lia.
    + change ([6;0;0;0; 4;0;0;0; 0;1;0;0; 76;105;110;117;120;0;7;7; 9;9;9;9; 6;0;0;0; 4;0;0;0; 0;0;0;0; 76;105;110;117;120;0;0;0; 90;1;6;0]) with
        ([6;0;0;0; 4;0;0;0; 0;1;0;0; 76;105;110;117;120;0;7;7; 9;9;9;9] ++ [6;0;0;0; 4;0;0;0; 0;0;0;0; 76;105;110;117;120;0;0;0; 90;1;6;0] ++ []).
      apply areCons; [exists [7; 7], []; repeat split|]. apply areCons; [exists [0; 0], []; repeat split|apply areNil].
    + repeat constructor; cbn; lia.
  - exists [Note [71; 78; 85; 0] [1; 2; 3; 4; 5] 3; Note [76; 105; 110; 117; 120; 0] [9; 9; 9; 9] 256], []. split; [reflexivity|]. split; [split; [right; exists []; reflexivity|split; reflexivity]|].
    constructor; [|constructor; [|constructor]]; intros (A & C & D); discriminate.
Qed.

Print Assumptions C105_first.
Print Assumptions C105_none.
Print Assumptions C105_address.
Print Assumptions C105_version.
Print Assumptions C105_any.
Print Assumptions C105_rest.
Print Assumptions C105_panics_refuted.
Print Assumptions C105_example.
