From Coq Require Import ZArith List Lia Bool.
From Verif.Base Require Import GoInt.
From Verif.Ringbuf Require Import Spec Model Proof Concurrent.
Import ListNotations.
Open Scope Z_scope.

Lemma mod_eq_close a b sz : 0 < sz -> a mod sz = b mod sz -> - sz < a - b < sz -> a = b.
Proof.
  intros H E Hd. pose proof (Z.div_mod a sz ltac:(lia)). pose proof (Z.div_mod b sz ltac:(lia)).
  rewrite E in *. assert (sz * (a / sz - b / sz) = a - b) by lia.
  assert (a / sz - b / sz = 0) by nia. nia.
Qed.

Section P.
Variables (bo : byteorder) (k p0 : Z).
Hypothesis Hk : 3 <= k <= 61.
Let sz := 2 ^ k.

Lemma sz_pos : 0 < sz. Proof. apply pow2_pos; lia. Qed.
Lemma sz_8 : 8 <= sz. Proof. change 8 with (2 ^ 3). apply Z.pow_le_mono_r; lia. Qed.
Lemma sz_hi : sz <= 2305843009213693952.
Proof. change 2305843009213693952 with (2 ^ 61). apply Z.pow_le_mono_r; lia. Qed.

(** a read of [n] bytes at [b] sees the written list / is not affected *)
Lemma stream_write_other mem a l b n :
  (forall i j, 0 <= i < Z.of_nat (length l) -> 0 <= j < n -> a + i <> b + j) ->
  (forall i j, 0 <= i < Z.of_nat (length l) -> 0 <= j < n -> - sz < (a + i) - (b + j) < sz) ->
  stream_at sz (write sz mem a l) b n = stream_at sz mem b n.
Proof.
  intros H1 H2. unfold stream_at. apply map_ext_in. intros j Hj. apply in_seq in Hj.
  unfold write. pose proof sz_pos.
  destruct (Z.ltb_spec (((b + Z.of_nat j) mod sz - a) mod sz) (Z.of_nat (length l))) as [Hlt|]; [|reflexivity].
  exfalso. rewrite Zminus_mod_idemp_l in Hlt.
  set (i := (b + Z.of_nat j - a) mod sz) in *.
  pose proof (Z.mod_pos_bound (b + Z.of_nat j - a) sz ltac:(lia)) as Hi. fold i in Hi.
  assert (E : (a + i) mod sz = (b + Z.of_nat j) mod sz).
  { unfold i. rewrite Zplus_mod_idemp_r. f_equal. lia. }
  apply mod_eq_close in E; [|lia|apply H2; lia].
  apply (H1 i (Z.of_nat j)); lia.
Qed.

Lemma stream_write_same mem a l :
  Z.of_nat (length l) <= sz -> stream_at sz (write sz mem a l) a (Z.of_nat (length l)) = l.
Proof.
  intros H. pose proof sz_pos. apply nth_ext with (d := 0) (d' := 0).
  { rewrite stream_length. lia. }
  intros j Hj. rewrite stream_length in Hj. unfold stream_at.
  rewrite nth_indep with (d' := write sz mem a l ((a + Z.of_nat 0) mod sz))
    by (rewrite map_length, seq_length; lia).
  rewrite (map_nth (fun i => write sz mem a l ((a + Z.of_nat i) mod sz)) _ 0%nat), seq_nth by lia.
  unfold write. cbn [plus]. rewrite Zminus_mod_idemp_l.
  replace (a + Z.of_nat j - a) with (Z.of_nat j) by lia. rewrite Z.mod_small by lia.
  destruct (Z.ltb_spec (Z.of_nat j) (Z.of_nat (length l))); [|lia].
  rewrite Nat2Z.id. reflexivity.
Qed.

Lemma stream_write_prefix mem a l n :
  0 <= n <= Z.of_nat (length l) -> Z.of_nat (length l) <= sz ->
  stream_at sz (write sz mem a l) a n = firstn (Z.to_nat n) l.
Proof.
  intros Hn H. rewrite <- (stream_write_same mem a l H) at 2.
  unfold stream_at. rewrite firstn_map. f_equal.
  rewrite Nat2Z.id.
  assert (E : forall m s t, (m <= t)%nat -> seq s m = firstn m (seq s t)).
  { induction m as [|m IH]; intros s t Ht; [reflexivity|]. destruct t as [|t]; [lia|]. cbn. f_equal. apply IH. lia. }
  apply E. lia.
Qed.

(** positions *)
Lemma total_firstn_S log i r : nth_error log i = Some r ->
  total_bytes (firstn (S i) log) = total_bytes (firstn i log) + rec_bytes r.
Proof.
  revert i; induction log as [|x log IH]; intros [|i] H; cbn in H; try discriminate.
  - inversion H; subst. change (total_bytes (firstn 1 (r :: log))) with (rec_bytes r + 0). cbn [firstn].
    change (total_bytes []) with 0. lia.
  - change (firstn (S (S i)) (x :: log)) with (x :: firstn (S i) log).
    change (firstn (S i) (x :: log)) with (x :: firstn i log).
    change (total_bytes (x :: firstn (S i) log)) with (rec_bytes x + total_bytes (firstn (S i) log)).
    change (total_bytes (x :: firstn i log)) with (rec_bytes x + total_bytes (firstn i log)).
    rewrite (IH i H). lia.
Qed.

Lemma pos_S log i r : nth_error log i = Some r -> pos_of p0 log (S i) = pos_of p0 log i + rec_bytes r.
Proof. intros H. unfold pos_of. rewrite (total_firstn_S log i r H). lia. Qed.

Lemma pos_mono log i j : Forall valid_len log -> (i <= j)%nat -> (j <= length log)%nat ->
  pos_of p0 log i <= pos_of p0 log j.
Proof.
  intros Hv Hij Hj. induction Hij as [|j Hij IH]; [lia|].
  destruct (nth_error log j) as [r|] eqn:E; [|apply nth_error_None in E; lia].
  rewrite (pos_S log j r E). pose proof (rec_bytes_pos r) as R.
  rewrite Forall_forall in Hv. specialize (R (Hv r (nth_error_In _ _ E))).
  specialize (IH ltac:(lia)). lia.
Qed.

Lemma pos_app log r i : (i <= length log)%nat -> pos_of p0 (log ++ [r]) i = pos_of p0 log i.
Proof. intros H. unfold pos_of. rewrite firstn_app. replace (i - length log)%nat with 0%nat by lia. cbn. rewrite app_nil_r. reflexivity. Qed.

Lemma total_lens l l' : map k_len l = map k_len l' -> total_bytes l = total_bytes l'.
Proof.
  revert l'; induction l as [|x l IH]; intros [|y l'] H; cbn in H; try discriminate; [reflexivity|].
  inversion H. change (total_bytes (x :: l)) with (rec_bytes x + total_bytes l).
  change (total_bytes (y :: l')) with (rec_bytes y + total_bytes l'). rewrite (IH l') by assumption.
  unfold rec_bytes. congruence.
Qed.

Lemma pos_lens l l' i : map k_len l = map k_len l' -> pos_of p0 l i = pos_of p0 l' i.
Proof. intros H. unfold pos_of. f_equal. apply total_lens. rewrite <- !firstn_map. congruence. Qed.

Lemma set_nth_lens i r log st : nth_error log i = Some r ->
  map k_len (set_nth i (mkRec (k_len r) st) log) = map k_len log.
Proof.
  revert i; induction log as [|x log IH]; intros [|i] H; cbn in *; try discriminate.
  - inversion H; reflexivity.
  - f_equal. apply IH. assumption.
Qed.
Lemma set_nth_length {A} i (x : A) l : length (set_nth i x l) = length l.
Proof. revert i; induction l; intros [|i]; cbn; auto. Qed.
Lemma set_nth_same {A} i (x : A) l : (i < length l)%nat -> nth_error (set_nth i x l) i = Some x.
Proof. revert i; induction l as [|y l IH]; intros [|i] H; cbn in *; try lia; [reflexivity|apply IH; lia]. Qed.
Lemma set_nth_other {A} i j (x : A) l : i <> j -> nth_error (set_nth i x l) j = nth_error l j.
Proof. revert i j; induction l as [|y l IH]; intros [|i] [|j] H; cbn; try reflexivity; try congruence. apply IH. congruence. Qed.

(** The invariant: c records released to the kernel, n returned to the user. *)
Definition oks (s : sys) := filter advances (s_rets s).
Definition oks_marked (s : sys) := filter advances (firstn (s_mark s) (s_rets s)).

Definition held_ok (log : list krec) (mem : Z -> Z) (i : nat) (x : ret) : Prop :=
  forall st n rem r, x = RetSample st n rem -> nth_error log i = Some r ->
    st = (pos_of p0 log i + 8) mod sz /\ n = k_len r.

Record Inv (s : sys) (c n : nat) : Prop := {
  I_cn : (c <= n <= length (s_log s))%nat;
  I_valid : Forall valid_len (s_log s);
  I_prod : s_prod s = u64 (pos_of p0 (s_log s) (length (s_log s)));
  I_cons : s_cons s = u64 (pos_of p0 (s_log s) c);
  I_local : s_local s = u64 (pos_of p0 (s_log s) n);
  I_room : pos_of p0 (s_log s) (length (s_log s)) - pos_of p0 (s_log s) c <= sz - 1;
  I_mem : forall i r, (c <= i)%nat -> nth_error (s_log s) i = Some r ->
            laid_out bo sz (s_mem s) (pos_of p0 (s_log s) i) r;
  I_pc : forall p, s_pc s = Polling p -> exists m, (n < m <= length (s_log s))%nat /\
            p = u64 (pos_of p0 (s_log s) m);
  I_oks : length (oks s) = n;
  I_mark : (s_mark s <= length (s_rets s))%nat /\ length (oks_marked s) = c;
  I_right : forall i r x, nth_error (s_log s) i = Some r -> nth_error (oks s) i = Some x ->
              right_result r x /\ held_ok (s_log s) (s_mem s) i x;
  I_errs : forall x, In x (s_rets s) -> advances x = true \/ x = RetErr EOR
}.

Lemma inv_init s : initial p0 s -> Inv s 0 0.
Proof.
  intros (H1 & H2 & H3 & H4 & H5 & H6 & H7). unfold oks, oks_marked.
  constructor; unfold oks, oks_marked; rewrite ?H4, ?H6, ?H7, ?H1, ?H2, ?H3.
  - cbn; lia.
  - constructor.
  - unfold pos_of; cbn. f_equal; lia.
  - unfold pos_of; cbn. f_equal; lia.
  - unfold pos_of; cbn. f_equal; lia.
  - pose proof sz_8. cbn [length]. lia.
  - intros i r _ H. destruct i; discriminate.
  - congruence.
  - reflexivity.
  - split; [cbn; lia|reflexivity].
  - intros i r x H. destruct i; discriminate.
  - intros x [].
Qed.

(** layout of other records survives a write into record i (or beyond the end) *)
Lemma laid_out_other mem a l pos r lo hi :
  valid_len r ->
  lo <= pos -> pos + rec_bytes r <= hi -> lo <= a -> a + Z.of_nat (length l) <= hi -> hi - lo <= sz ->
  (a + Z.of_nat (length l) <= pos \/ pos + rec_bytes r <= a) ->
  laid_out bo sz mem pos r -> laid_out bo sz (write sz mem a l) pos r.
Proof.
  intros [Hl Hp] H1 H2 H3 H4 H5 H6 [L1 L2]. unfold rec_bytes in *.
  pose proof (round8_bounds (k_len r)). pose proof (round8_nonneg (k_len r) ltac:(lia)).
  split.
  - rewrite <- L1. apply stream_write_other; intros; lia.
  - intros p E. rewrite <- (L2 p E). apply stream_write_other; intros; lia.
Qed.

Lemma pos_between log i j r q :
  Forall valid_len log -> nth_error log i = Some r -> nth_error log j = Some q -> i <> j ->
  pos_of p0 log i + rec_bytes r <= pos_of p0 log j \/ pos_of p0 log j + rec_bytes q <= pos_of p0 log i.
Proof.
  intros Hv Hi Hj Hne.
  assert (i < length log)%nat by (apply nth_error_Some; congruence).
  assert (j < length log)%nat by (apply nth_error_Some; congruence).
  destruct (Nat.lt_total i j) as [L|[L|L]]; [left| contradiction |right].
  - rewrite <- (pos_S log i r Hi). apply pos_mono; [assumption|lia|lia].
  - rewrite <- (pos_S log j q Hj). apply pos_mono; [assumption|lia|lia].
Qed.

Lemma right_busy r x : right_result r x -> k_status r <> KBusy.
Proof. unfold right_result. destruct (k_status r); [contradiction|congruence|congruence]. Qed.

(** A busy record has not been returned yet. *)
Lemma busy_not_read s c n i r : Inv s c n -> nth_error (s_log s) i = Some r -> k_status r = KBusy -> (n <= i)%nat.
Proof.
  intros I Hi Hb. destruct (Nat.le_gt_cases n i); [assumption|exfalso].
  destruct (nth_error (oks s) i) as [x|] eqn:E.
  - destruct (I_right _ _ _ I i r x Hi E) as [R _]. apply right_busy in R. contradiction.
  - apply nth_error_None in E. rewrite (I_oks _ _ _ I) in E. lia.
Qed.

Lemma room_at s c n i r : Inv s c n -> (c <= i)%nat -> nth_error (s_log s) i = Some r ->
  pos_of p0 (s_log s) c <= pos_of p0 (s_log s) i /\
  pos_of p0 (s_log s) i + rec_bytes r <= pos_of p0 (s_log s) (length (s_log s)).
Proof.
  intros I Hc Hi. assert (i < length (s_log s))%nat by (apply nth_error_Some; congruence).
  split; [apply pos_mono; [apply I|lia|lia]|].
  rewrite <- (pos_S _ i r Hi). apply pos_mono; [apply I|lia|lia].
Qed.

(** status change of record i *)
Lemma inv_settle s c n i r st w :
  Inv s c n -> nth_error (s_log s) i = Some r -> k_status r = KBusy ->
  w = len_word (mkRec (k_len r) st) -> st <> KBusy ->
  (forall p, st = KSubmitted p -> p = stream_at sz (s_mem s) (pos_of p0 (s_log s) i + 8) (k_len r)) ->
  Inv (mkSys (write sz (s_mem s) (pos_of p0 (s_log s) i) (put bo 4 w)) (s_prod s) (s_cons s)
         (set_nth i (mkRec (k_len r) st) (s_log s)) (s_local s) (s_pc s) (s_rets s) (s_mark s)) c n.
Proof.
  intros I Hi Hb Hw Hst Hp.
  pose proof (busy_not_read s c n i r I Hi Hb) as Hni.
  assert (Hil : (i < length (s_log s))%nat) by (apply nth_error_Some; congruence).
  set (log' := set_nth i (mkRec (k_len r) st) (s_log s)).
  assert (Hpos : forall j, pos_of p0 log' j = pos_of p0 (s_log s) j)
    by (intros; apply pos_lens, set_nth_lens; assumption).
  assert (Hlen : length log' = length (s_log s)) by apply set_nth_length.
  assert (Hvr : valid_len r) by (pose proof (I_valid _ _ _ I) as V; rewrite Forall_forall in V; apply V; eapply nth_error_In; eassumption).
  assert (Hvr' : valid_len (mkRec (k_len r) st)).
  { destruct Hvr as [Hr _]. split; [exact Hr|]. cbn [k_status k_len]. intros p E. rewrite (Hp p E), stream_length. lia. }
  destruct (room_at s c n i r I ltac:(pose proof (I_cn _ _ _ I); lia) Hi) as [R1 R2].
  pose proof (I_room _ _ _ I) as R3. pose proof sz_8.
  pose proof (rec_bytes_pos r Hvr) as R4.
  constructor; cbn [s_mem s_prod s_cons s_log s_local s_pc s_rets s_mark]; fold log'; rewrite ?Hlen.
  - apply I.
  - apply Forall_forall. intros x Hx. apply In_nth_error in Hx. destruct Hx as [j Hj].
    destruct (Nat.eq_dec i j) as [->|Hne].
    + unfold log' in Hj. rewrite set_nth_same in Hj by assumption. inversion Hj; subst; assumption.
    + unfold log' in Hj. rewrite set_nth_other in Hj by assumption.
      pose proof (I_valid _ _ _ I) as V. rewrite Forall_forall in V. apply V. eapply nth_error_In; eassumption.
  - rewrite Hpos. apply I.
  - rewrite Hpos. apply I.
  - rewrite Hpos. apply I.
  - rewrite !Hpos. apply I.
  - intros j q Hj Hq. rewrite Hpos. destruct (Nat.eq_dec i j) as [<-|Hne].
    + unfold log' in Hq. rewrite set_nth_same in Hq by assumption. inversion Hq; subst q.
      split.
      * rewrite <- Hw. rewrite stream_write_prefix by (rewrite put_length; cbn; lia).
        apply firstn_all2. rewrite put_length. cbn; lia.
      * cbn [k_status k_len]. intros p E. rewrite (Hp p E). apply stream_write_other; rewrite put_length; intros a b Ha Hb'; unfold rec_bytes in *; pose proof (round8_bounds (k_len r)); lia.
    + unfold log' in Hq. rewrite set_nth_other in Hq by assumption.
      destruct (room_at s c n j q I Hj Hq) as [Q1 Q2].
      assert (Hvq : valid_len q) by (pose proof (I_valid _ _ _ I) as V; rewrite Forall_forall in V; apply V; eapply nth_error_In; eassumption).
      apply laid_out_other with (lo := pos_of p0 (s_log s) c) (hi := pos_of p0 (s_log s) (length (s_log s)));
        rewrite ?put_length; try assumption; try lia; [|apply (I_mem _ _ _ I); assumption].
      destruct (pos_between (s_log s) i j r q ltac:(apply I) Hi Hq Hne); lia.
  - intros p E. destruct (I_pc _ _ _ I p E) as (m & M1 & M2). exists m. rewrite Hpos. auto.
  - apply I.
  - apply I.
  - intros j q x Hq Hx. assert (j < n)%nat.
    { change (oks _) with (oks s) in Hx. rewrite <- (I_oks _ _ _ I). apply nth_error_Some. congruence. }
    unfold log' in Hq. rewrite set_nth_other in Hq by lia.
    destruct (I_right _ _ _ I j q x Hq Hx) as [A B]. split; [exact A|].
    unfold held_ok. intros st0 n0 rem0 r0 E1 E2. unfold log' in E2. rewrite set_nth_other in E2 by lia.
    rewrite Hpos. eapply B; eassumption.
  - apply I.
Qed.

Lemma filter_app {A} (f : A -> bool) l m : filter f (l ++ m) = filter f l ++ filter f m.
Proof. induction l as [|x l IH]; cbn; [reflexivity|]. destruct (f x); cbn; rewrite IH; reflexivity. Qed.

Lemma marked_app {A} m (l : list A) x : (m <= length l)%nat -> firstn m (l ++ [x]) = firstn m l.
Proof. intros H. rewrite firstn_app. replace (m - length l)%nat with 0%nat by lia. apply app_nil_r. Qed.

(** appending a result that does not advance *)
Lemma inv_err s c n e pc : Inv s c n -> (forall p, pc <> Polling p) -> e = EOR ->
  Inv (mkSys (s_mem s) (s_prod s) (s_cons s) (s_log s) (s_local s) pc (s_rets s ++ [RetErr e]) (s_mark s)) c n.
Proof.
  intros I Hpc He.
  constructor; unfold oks, oks_marked; cbn [s_mem s_prod s_cons s_log s_local s_pc s_rets s_mark];
    rewrite ?filter_app, ?marked_app by apply I; cbn [filter advances]; rewrite ?app_nil_r; try apply I.
  - intros p E. exfalso. eapply Hpc; eassumption.
  - split; [rewrite app_length; cbn; pose proof (proj1 (I_mark _ _ _ I)); lia|apply I].
  - intros x Hx. apply in_app_or in Hx. destruct Hx as [Hx|[<-|[]]]; [apply I; assumption|right; congruence].
Qed.

Lemma pos_n_diff s c n : Inv s c n ->
  0 <= pos_of p0 (s_log s) (length (s_log s)) - pos_of p0 (s_log s) n <= sz - 1.
Proof.
  intros I. pose proof (I_room _ _ _ I). pose proof (I_cn _ _ _ I).
  pose proof (pos_mono (s_log s) c n (I_valid _ _ _ I) ltac:(lia) ltac:(lia)).
  pose proof (pos_mono (s_log s) n (length (s_log s)) (I_valid _ _ _ I) ltac:(lia) ltac:(lia)). lia.
Qed.

Lemma pos_strict log i j : Forall valid_len log -> (i < j <= length log)%nat ->
  pos_of p0 log i + 8 <= pos_of p0 log j.
Proof.
  intros Hv [H1 H2]. destruct (nth_error log i) as [r|] eqn:E; [|apply nth_error_None in E; lia].
  pose proof (pos_S log i r E). pose proof (pos_mono log (S i) j Hv ltac:(lia) H2).
  rewrite Forall_forall in Hv. pose proof (rec_bytes_pos r (Hv r (nth_error_In _ _ E))). lia.
Qed.

Lemma valid_nth log i r : Forall valid_len log -> nth_error log i = Some r -> valid_len r.
Proof. intros H E. rewrite Forall_forall in H. apply H. eapply nth_error_In; eassumption. Qed.


Lemma mod_u64 x : u64 x mod sz = x mod sz.
Proof.
  unfold sz. rewrite <- (mask_pos k x ltac:(lia)).
  unfold rmask. rewrite land_mask_mod by lia. reflexivity.
Qed.

Lemma stream_write_u64 mem x l b n :
  stream_at sz (write sz mem (u64 x) l) b n = stream_at sz (write sz mem x l) b n.
Proof.
  unfold stream_at. apply map_ext. intros i. unfold write.
  replace (((b + Z.of_nat i) mod sz - u64 x) mod sz) with (((b + Z.of_nat i) mod sz - x) mod sz); [reflexivity|].
  rewrite Zminus_mod, (Zminus_mod _ (u64 x)), mod_u64. reflexivity.
Qed.

Lemma laid_out_u64 mem x l pos r :
  laid_out bo sz (write sz mem x l) pos r -> laid_out bo sz (write sz mem (u64 x) l) pos r.
Proof.
  intros [H1 H2]. split; [rewrite stream_write_u64; assumption|].
  intros p E. rewrite stream_write_u64. auto.
Qed.

Lemma inv_reserve s c n len pg :
  Inv s c n ->
  0 <= len < 2 ^ 30 -> length pg = 4%nat ->
  8 + round8 len <= sz ->
  u64 (u64 (s_prod s + (8 + round8 len)) - s_cons s) <= sz - 1 ->
  Inv (mkSys (write sz (s_mem s) (s_prod s) (put bo 4 (2 ^ 31 + len) ++ pg))
                  (u64 (s_prod s + (8 + round8 len))) (s_cons s)
                  (s_log s ++ [mkRec len KBusy]) (s_local s) (s_pc s) (s_rets s) (s_mark s)) c n.
Proof.
  intros I Hl Hpg Hfit Hroom. pose proof sz_8 as S8. pose proof sz_hi as SH.
  set (log := s_log s) in *. set (r := mkRec len KBusy).
  assert (Hvr : valid_len r) by (split; [exact Hl|intros p; discriminate]).
  pose proof (I_cn _ _ _ I) as Hcn. fold log in Hcn.
  pose proof (I_valid _ _ _ I) as Hv. fold log in Hv.
  assert (Hnew : pos_of p0 (log ++ [r]) (length (log ++ [r])) = pos_of p0 log (length log) + rec_bytes r).
  { rewrite app_length, Nat.add_1_r. rewrite (pos_S _ (length log) r).
    - rewrite pos_app by lia. reflexivity.
    - rewrite nth_error_app2 by lia. rewrite Nat.sub_diag. reflexivity. }
  assert (Hr : rec_bytes r = 8 + round8 len) by reflexivity.
  pose proof (round8_nonneg len ltac:(lia)) as R0.
  pose proof (I_room _ _ _ I) as Hrm. fold log in Hrm.
  pose proof (pos_mono log c (length log) Hv ltac:(lia) ltac:(lia)) as Hm.
  assert (Hroom' : pos_of p0 (log ++ [r]) (length (log ++ [r])) - pos_of p0 (log ++ [r]) c <= sz - 1).
  { rewrite Hnew, pos_app by lia.
    rewrite (I_prod _ _ _ I), (I_cons _ _ _ I) in Hroom. fold log in Hroom.
    rewrite u64_add_l, u64_sub in Hroom. rewrite u64_small in Hroom; [lia|].
    change (2 ^ 64) with 18446744073709551616. lia. }
  assert (Hlw : length (put bo 4 (2 ^ 31 + len) ++ pg) = 8%nat) by (rewrite app_length, put_length, Hpg; reflexivity).
  constructor; cbn [s_mem s_prod s_cons s_log s_local s_pc s_rets s_mark]; fold log; fold r.
  + rewrite app_length; cbn; lia.
  + apply Forall_app. split; [assumption|]. constructor; [assumption|constructor].
  + rewrite Hnew, (I_prod _ _ _ I). fold log. rewrite u64_add_l. reflexivity.
  + rewrite pos_app by lia. apply I.
  + rewrite pos_app by lia. apply I.
  + exact Hroom'.
  + intros i q Hci Hq. rewrite (I_prod _ _ _ I). fold log. apply laid_out_u64.
    destruct (Nat.lt_ge_cases i (length log)) as [L|L].
    * rewrite nth_error_app1 in Hq by assumption. rewrite pos_app by lia.
      destruct (room_at s c n i q I Hci Hq) as [Q1 Q2]. fold log in Q1, Q2.
      rewrite Hnew, pos_app in Hroom' by lia.
      apply laid_out_other with (lo := pos_of p0 log c) (hi := pos_of p0 log (length log) + rec_bytes r);
        rewrite ?Hlw; try lia.
      -- eapply valid_nth; eassumption.
      -- apply (I_mem _ _ _ I); assumption.
    * assert (i = length log) as ->.
      { assert (Hlt : (i < length (log ++ [r]))%nat) by (apply nth_error_Some; congruence).
        rewrite app_length in Hlt. cbn [length] in Hlt. lia. }
      rewrite nth_error_app2, Nat.sub_diag in Hq by lia. cbn in Hq. inversion Hq; subst q.
      rewrite pos_app by lia. split; [|intros p; discriminate].
      rewrite stream_write_prefix by lia. rewrite firstn_app, put_length.
      change (Z.to_nat 4 - 4)%nat with 0%nat. cbn [firstn]. rewrite app_nil_r.
      rewrite firstn_all2 by (rewrite put_length; cbn; lia). f_equal. unfold len_word, r. cbn [k_len k_status]. lia.
  + intros p E. destruct (I_pc _ _ _ I p E) as (m & M1 & M2). fold log in M1, M2. exists m.
    rewrite pos_app by lia. rewrite app_length. split; [cbn; lia|assumption].
  + apply I.
  + apply I.
  + intros i q x Hq Hx.
    assert (i < n)%nat by (rewrite <- (I_oks _ _ _ I); apply nth_error_Some; change (oks s) with (filter advances (s_rets s)); unfold oks in Hx; cbn [s_rets] in Hx; congruence).
    rewrite nth_error_app1 in Hq by lia.
    destruct (I_right _ _ _ I i q x Hq Hx) as [A B]. split; [exact A|].
    unfold held_ok. intros st0 n0 rem0 r0 E1 E2. rewrite nth_error_app1 in E2 by lia.
    rewrite pos_app by lia. eapply B; eassumption.
  + apply I.
Qed.

Lemma inv_write s c n i r off b :
  Inv s c n -> nth_error (s_log s) i = Some r -> k_status r = KBusy -> 0 <= off < k_len r ->
  Inv (mkSys (write sz (s_mem s) (pos_of p0 (s_log s) i + 8 + off) [b])
        (s_prod s) (s_cons s) (s_log s) (s_local s) (s_pc s) (s_rets s) (s_mark s)) c n.
Proof.
  intros I Hi Hb Hoff. pose proof sz_8 as S8.
  pose proof (busy_not_read s c n i r I Hi Hb) as Hni.
  pose proof (valid_nth _ _ _ (I_valid _ _ _ I) Hi) as Hvr.
  pose proof (I_cn _ _ _ I) as Hcn.
  destruct (room_at s c n i r I ltac:(lia) Hi) as [R1 R2].
  pose proof (I_room _ _ _ I) as R3. pose proof (round8_bounds (k_len r)) as R8.
  assert (Rb : rec_bytes r = 8 + round8 (k_len r)) by reflexivity.
  constructor; cbn [s_mem s_prod s_cons s_log s_local s_pc s_rets s_mark]; try apply I.
  intros j q Hj Hq.
  pose proof (valid_nth _ _ _ (I_valid _ _ _ I) Hq) as Hvq.
  destruct (Nat.eq_dec i j) as [<-|Hne].
  - rewrite Hi in Hq. inversion Hq; subst q. destruct (I_mem _ _ _ I i r Hj Hi) as [L1 L2].
    split; [|intros p E; congruence]. rewrite <- L1.
    apply stream_write_other; cbn [length]; intros; lia.
  - destruct (room_at s c n j q I Hj Hq) as [Q1 Q2].
    apply laid_out_other with (lo := pos_of p0 (s_log s) c) (hi := pos_of p0 (s_log s) (length (s_log s)));
      cbn [length]; try assumption; try lia; [|apply (I_mem _ _ _ I); assumption].
    destruct (pos_between (s_log s) i j r q ltac:(apply I) Hi Hq Hne); lia.
Qed.

(** a successful read of record n *)
Lemma inv_finish s c n p r x loc :
  Inv s c n -> s_pc s = Polling p ->
  nth_error (s_log s) n = Some r -> advances x = true ->
  right_result r x -> loc = u64 (pos_of p0 (s_log s) (S n)) ->
  (forall st len rem, x = RetSample st len rem -> st = (pos_of p0 (s_log s) n + 8) mod sz /\ len = k_len r) ->
  Inv (mkSys (s_mem s) (s_prod s) (s_cons s) (s_log s) loc Idle (s_rets s ++ [x]) (s_mark s)) c (S n).
Proof.
  intros I Hpc Hn Ha Hrr -> Hs.
  assert (Hnl : (n < length (s_log s))%nat) by (apply nth_error_Some; congruence).
  constructor; unfold oks, oks_marked; cbn [s_mem s_prod s_cons s_log s_local s_pc s_rets s_mark];
    rewrite ?filter_app, ?marked_app by apply I; cbn [filter]; rewrite ?Ha; try apply I.
  - pose proof (I_cn _ _ _ I). lia.
  - reflexivity.
  - intros q Hq; discriminate.
  - rewrite app_length. fold (oks s). rewrite (I_oks _ _ _ I). cbn. lia.
  - split; [rewrite app_length; cbn; pose proof (proj1 (I_mark _ _ _ I)); lia|apply I].
  - fold (oks s). intros i q y Hq Hy.
    destruct (Nat.lt_ge_cases i n) as [L|L].
    + rewrite nth_error_app1 in Hy by (rewrite (I_oks _ _ _ I); lia). apply (I_right _ _ _ I); assumption.
    + rewrite nth_error_app2 in Hy by (rewrite (I_oks _ _ _ I); lia). rewrite (I_oks _ _ _ I) in Hy.
      destruct (i - n)%nat eqn:Ed; [|destruct n0; discriminate]. cbn in Hy. inversion Hy; subst y.
      assert (i = n) by lia. subst i. rewrite Hn in Hq. inversion Hq; subst q.
      split; [assumption|]. unfold held_ok. intros st len rem r0 E1 E2. rewrite Hn in E2. inversion E2; subst r0.
      eapply Hs; eassumption.
  - intros y Hy. apply in_app_or in Hy. destruct Hy as [Hy|[<-|[]]]; [apply I; assumption|left; assumption].
Qed.

Lemma inv_step s t c n : Inv s c n -> step bo sz p0 s t -> exists c' n', Inv t c' n'.
Proof.
  intros I H. pose proof sz_8 as S8. pose proof sz_hi as SH.
  destruct H as [s len pg Hl Hpg Hpb Hfit Hroom | s i r off b Hi Hb Hoff Hbyte | s i r Hi Hb | s i r Hi Hb
                | s e Hpc Hc | s Hpc Hc | s p Hpc Hbusy | s p Hpc Hbusy | s Hpc ].
  - exists c, n. apply inv_reserve; assumption.
  - exists c, n. eapply inv_write; eassumption.
  - exists c, n. apply inv_settle; try assumption; try discriminate.
    + unfold len_word; cbn. lia.
    + intros p E. inversion E. reflexivity.
  - exists c, n. apply inv_settle; try assumption; try discriminate. reflexivity.
  - (* error from the position check: only EOR *)
    exists c, n. apply inv_err; [assumption|discriminate|].
    rewrite (I_prod _ _ _ I), (I_local _ _ _ I) in Hc. unfold rs_check in Hc.
    pose proof (pos_n_diff s c n I) as D.
    rewrite u64_sub, u64_small in Hc by (change (2 ^ 64) with 18446744073709551616; lia).
    destruct (Z.eqb_spec (pos_of p0 (s_log s) (length (s_log s)) - pos_of p0 (s_log s) n) 0); [congruence|].
    exfalso. unfold HDR_SZ in Hc.
    pose proof (I_cn _ _ _ I) as Hcn.
    destruct (Nat.eq_dec n (length (s_log s))) as [E|E]; [rewrite <- E in *; lia|].
    pose proof (pos_strict (s_log s) n (length (s_log s)) (I_valid _ _ _ I) ltac:(lia)).
    destruct (Z.ltb_spec (pos_of p0 (s_log s) (length (s_log s)) - pos_of p0 (s_log s) n) 8); [lia|discriminate].
  - (* position check passes *)
    exists c, n.
    constructor; cbn [s_mem s_prod s_cons s_log s_local s_pc s_rets s_mark]; try apply I.
    intros p E. inversion E; subst p. exists (length (s_log s)). split; [|apply I].
    pose proof (I_cn _ _ _ I) as Hcn.
    destruct (Nat.eq_dec n (length (s_log s))) as [E'|E']; [|lia]. exfalso.
    rewrite (I_prod _ _ _ I), (I_local _ _ _ I), <- E', rs_check_eor in Hc. discriminate.
  - exists c, n. assumption.
  - (* finish *)
    exists c, (S n). destruct (I_pc _ _ _ I p Hpc) as (m & Hm & ->).
    destruct (nth_error (s_log s) n) as [r|] eqn:En; [|apply nth_error_None in En; lia].
    pose proof (valid_nth _ _ _ (I_valid _ _ _ I) En) as Hvr.
    pose proof (I_cn _ _ _ I) as Hcn.
    pose proof (I_mem _ _ _ I n r ltac:(lia) En) as Hlay.
    assert (Hll : load_len bo sz (s_mem s) (s_local s) = len_word r).
    { rewrite (I_local _ _ _ I). apply load_len_ok; [assumption|assumption|apply Hlay]. }
    rewrite Hll in *. destruct (len_word_facts r Hvr) as (F1 & F2 & F3).
    assert (Hnb : k_status r <> KBusy) by (intros E; rewrite F2, E in Hbusy; discriminate).
    rewrite (I_local _ _ _ I).
    pose proof (pos_mono (s_log s) (S n) m (I_valid _ _ _ I) ltac:(lia) ltac:(lia)) as M1.
    pose proof (pos_mono (s_log s) m (length (s_log s)) (I_valid _ _ _ I) ltac:(lia) ltac:(lia)) as M2.
    pose proof (pos_n_diff s c n I) as D. rewrite (pos_S _ _ _ En) in M1.
    unfold sz at 1. rewrite (rs_finish_ok k (pos_of p0 (s_log s) m) (pos_of p0 (s_log s) n) r);
      [|assumption|assumption|assumption|fold sz; lia]. fold sz.
    destruct (k_status r) as [|q|] eqn:Es; [contradiction| |].
    + apply inv_finish with (p := u64 (pos_of p0 (s_log s) m)) (r := r); try assumption; try reflexivity.
      * unfold right_result. rewrite Es. do 2 eexists. f_equal. destruct Hvr as [_ V]. symmetry; apply V; assumption.
      * rewrite (pos_S _ _ _ En). reflexivity.
      * intros st len rem E. inversion E; subst. split; reflexivity.
    + apply inv_finish with (p := u64 (pos_of p0 (s_log s) m)) (r := r); try assumption; try reflexivity.
      * unfold right_result. rewrite Es. eexists. reflexivity.
      * rewrite (pos_S _ _ _ En). reflexivity.
      * intros st len rem E. discriminate.
  - (* commit *)
    exists n, n. constructor; unfold oks_marked; cbn [s_mem s_prod s_cons s_log s_local s_pc s_rets s_mark];
      try apply I.
    + pose proof (I_cn _ _ _ I). lia.
    + apply (pos_n_diff s c n I).
    + intros i r Hn. apply (I_mem _ _ _ I). pose proof (I_cn _ _ _ I). lia.
    + intros p E. discriminate.
    + split; [lia|]. rewrite firstn_all. apply (I_oks _ _ _ I).
Qed.

Lemma reachable_inv s : reachable bo sz p0 s -> exists c n, Inv s c n.
Proof.
  induction 1 as [s H|s t _ (c & n & I) H].
  - exists 0%nat, 0%nat. apply inv_init. assumption.
  - eapply inv_step; eassumption.
Qed.
End P.

(** * User visible statements *)
Lemma conc_exactly_once bo sz p0 s :
  valid_size sz -> reachable bo sz p0 s ->
  exists n, (n <= length (s_log s))%nat /\
    Forall2 right_result (firstn n (s_log s)) (filter advances (s_rets s)) /\
    (forall x, In x (s_rets s) -> advances x = true \/ x = RetErr EOR).
Proof.
  intros (k & Hk & ->) H. destruct (reachable_inv bo k p0 Hk s H) as (c & n & I).
  exists n. split; [apply I|]. split; [|apply I].
  pose proof (I_oks _ _ _ _ _ _ I) as Ho. pose proof (I_right _ _ _ _ _ _ I) as Hr.
  pose proof (I_cn _ _ _ _ _ _ I) as Hcn. fold (oks s). 
  assert (Hl : length (firstn n (s_log s)) = length (oks s)) by (rewrite firstn_length; lia).
  assert (G : forall (l : list krec) (m : list ret), length l = length m ->
      (forall i r x, nth_error l i = Some r -> nth_error m i = Some x -> right_result r x) -> Forall2 right_result l m).
  { induction l as [|a l IH]; intros [|b m] E Hall; cbn in E; try discriminate; constructor.
    - apply (Hall 0%nat); reflexivity.
    - apply IH; [lia|]. intros i r x A B. apply (Hall (S i)); assumption. }
  apply G; [assumption|]. intros i r x A B.
  apply (Hr i r x); [|assumption].
  assert (i < n)%nat by (rewrite <- Ho; apply nth_error_Some; congruence).
  assert (E : forall (A : Type) (l : list A) m j, (j < m)%nat -> nth_error (firstn m l) j = nth_error l j).
  { clear. induction l as [|y l IH]; intros [|m] [|j] Hj; cbn; try reflexivity; try lia. apply IH. lia. }
  rewrite E in A by assumption. assumption.
Qed.

Lemma conc_stable bo sz p0 s :
  valid_size sz -> reachable bo sz p0 s ->
  forall i st len rem r p,
    nth_error (filter advances (s_rets s)) i = Some (RetSample st len rem) ->
    (length (filter advances (firstn (s_mark s) (s_rets s))) <= i)%nat ->
    nth_error (s_log s) i = Some r -> k_status r = KSubmitted p ->
    slice_bytes sz (s_mem s) st len = p.
Proof.
  intros (k & Hk & ->) H i st len rem r p Hx Hi Hr Hp.
  destruct (reachable_inv bo k p0 Hk s H) as (c & n & I).
  destruct (I_right _ _ _ _ _ _ I i r _ Hr Hx) as [_ B].
  destruct (B st len rem r eq_refl Hr) as [-> ->].
  rewrite slice_stream by (apply pow2_pos; lia).
  apply (I_mem _ _ _ _ _ _ I i r); [|assumption|assumption].
  pose proof (proj2 (I_mark _ _ _ _ _ _ I)) as E. unfold oks_marked in E. lia.
Qed.

Lemma conc_eor bo sz p0 s t :
  valid_size sz -> reachable bo sz p0 s -> step bo sz p0 s t ->
  s_rets t = s_rets s ++ [RetErr EOR] -> length (filter advances (s_rets s)) = length (s_log s).
Proof.
  intros (k & Hk & ->) H Hst E. destruct (reachable_inv bo k p0 Hk s H) as (c & n & I).
  fold (oks s). rewrite (I_oks _ _ _ _ _ _ I). pose proof (I_cn _ _ _ _ _ _ I) as Hcn.
  destruct (reachable_inv bo k p0 Hk t) as (c' & n' & I'); [eapply reach_step; eassumption|].
  pose proof (pos_n_diff bo k p0 Hk s c n I) as D. pose proof (sz_hi k Hk) as SH.
  assert (NE : forall (l : list ret) x, l = l ++ [x] -> False).
  { intros l x Hl. apply (f_equal (@length _)) in Hl. rewrite app_length in Hl. cbn in Hl. lia. }
  destruct Hst; cbn [s_rets] in E; try (exfalso; eapply NE; eassumption).
  - apply app_inv_head in E. inversion E; subst e.
    rewrite (I_prod _ _ _ _ _ _ I), (I_local _ _ _ _ _ _ I) in H1. unfold rs_check in H1.
    rewrite u64_sub, u64_small in H1 by (change (2 ^ 64) with 18446744073709551616; lia).
    destruct (Z.eqb_spec (pos_of p0 (s_log s) (length (s_log s)) - pos_of p0 (s_log s) n) 0).
    + destruct (Nat.eq_dec n (length (s_log s))) as [E'|E']; [assumption|].
      pose proof (pos_strict k p0 Hk (s_log s) n (length (s_log s)) (I_valid _ _ _ _ _ _ I) ltac:(lia)). lia.
    + destruct (_ <? _); discriminate.
  - exfalso. destruct (rs_finish _ _ _ _) as [e| |[[st0 n0]|] rem l'] eqn:Ef;
      cbn [s_rets] in E; apply app_inv_head in E; inversion E; subst.
    unfold rs_finish in Ef. destruct (_ <? _); [discriminate|]. destruct (_ || _); [discriminate|].
    destruct (isDiscard _); discriminate.
Qed.
