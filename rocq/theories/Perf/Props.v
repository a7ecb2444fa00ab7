(** Theorems C18 (perf half) - C23 and C54 about perf/. *)
From Coq Require Import ZArith List Lia Bool.
From Verif.Base Require Import GoInt.
From Verif.Perf Require Import Spec Model Proof Proof2 History Drain.
Import ListNotations.
Open Scope Z_scope.

(** ** C18, perf half: any number N of rings *)
(** Every interruption is reported exactly once, in order (the last one may still be pending). *)
Theorem C18_perf_error_exactly_once : forall A N ow (s : pst A) tr, ptrace N ow s tr ->
  interrupts tr = reported tr ++ opt_list (pendingErr s).
Proof. intros A N ow s tr H. exact (proj1 (once N ow s tr H)). Qed.
Print Assumptions C18_perf_error_exactly_once.

(** When the error is reported, every record that was in any ring at the interruption has been returned. *)
Theorem C18_perf_drained_before_error : forall A N (s : pst A) t1 e t2 e' t3,
  ptrace N false s (t1 ++ Interrupted e :: t2 ++ ReturnedErr e' :: t3) ->
  reported t2 = [] ->
  e' = e /\ forall i, (i < N)%nat ->
    exists rest, returned i (t1 ++ Interrupted e :: t2) = produced i t1 ++ rest.
Proof. intros A N s t1 e t2 e' t3. apply report_after_drain. reflexivity. Qed.
Print Assumptions C18_perf_drained_before_error.

(** Per ring: returned records are exactly the produced ones in order, the rest is still in the ring. *)
Theorem C18_perf_nothing_lost : forall A N ow (s : pst A) tr i, ptrace N ow s tr ->
  produced i tr = returned i tr ++ rings s i.
Proof. intros A N ow s tr i. apply fifo. Qed.
Print Assumptions C18_perf_nothing_lost.

(** For an overwritable reader that is resumed while a read waits, the claim is false: the deadline error is
    reported although the ring still holds a record that was there at the deadline. *)
Theorem C18_perf_overwritable_refuted : exists (s : pst nat) t1 t2,
  ptrace 1 true s (t1 ++ Interrupted Deadline :: t2 ++ [ReturnedErr Deadline]) /\ reported t2 = [] /\
  produced 0 t1 = [7%nat] /\ returned 0 (t1 ++ Interrupted Deadline :: t2) = [].
Proof.
  destruct overwritable_undrained as (s & H & _).
  exists s, [Tau; Tau; Tau; Produced 0 7%nat], [MustBePaused; Tau; Tau]. auto.
Qed.
Print Assumptions C18_perf_overwritable_refuted.

Example C18_perf_example : exists s : pst nat,
  ptrace 1 false s [Tau; Tau; Produced 0 7%nat; Interrupted Flushed; Tau; Returned 0 7%nat; Tau; Tau; ReturnedErr Flushed].
Proof.
  exists (mkP (upd (upd (fun _ => []) 0 [7%nat]) 0 []) [] None false PIdle).
  apply (pt_step _ _ (mkP (upd (upd (fun _ => []) 0 [7%nat]) 0 []) [] (Some Flushed) false PTop) [Tau; Tau; Produced 0%nat 7%nat; Interrupted Flushed; Tau; Returned 0%nat 7%nat; Tau; Tau]); [|apply p_report].
  apply (pt_step _ _ (mkP (upd (upd (fun _ => []) 0 [7%nat]) 0 []) [(0, 0)%nat] (Some Flushed) false PTop) [Tau; Tau; Produced 0%nat 7%nat; Interrupted Flushed; Tau; Returned 0%nat 7%nat; Tau]); [|apply (p_eor _ _ _ [])].
  apply (pt_step _ _ (mkP (upd (upd (fun _ => []) 0 [7%nat]) 0 []) [(0, 0)%nat] (Some Flushed) false PIdle) [Tau; Tau; Produced 0%nat 7%nat; Interrupted Flushed; Tau; Returned 0%nat 7%nat]); [|apply p_call; reflexivity].
  apply (pt_step _ _ (mkP (upd (fun _ => []) 0 [7%nat]) [(0, 1)%nat] (Some Flushed) false PTop) [Tau; Tau; Produced 0%nat 7%nat; Interrupted Flushed; Tau]); [|apply (p_record _ _ _ []); reflexivity].
  apply (pt_step _ _ (mkP (upd (fun _ => []) 0 [7%nat]) [] (Some Flushed) false PCheck) [Tau; Tau; Produced 0%nat 7%nat; Interrupted Flushed]); [|exact (p_load 1 false (upd (fun _ => []) 0%nat [7%nat]) [] (Some Flushed) false eq_refl)].
  apply (pt_step _ _ (mkP (upd (fun _ => []) 0 [7%nat]) [] None false PWaiting) [Tau; Tau; Produced 0%nat 7%nat]); [|apply p_interrupt].
  apply (pt_step _ _ (mkP (fun _ => []) [] None false PWaiting) [Tau; Tau]); [|apply (p_produce _ _ (fun _ => [])); lia].
  apply (pt_step _ _ (mkP (fun _ => []) [] None false PTop) [Tau]); [|apply p_wait].
  apply (pt_step _ _ (mkP (fun _ => []) [] None false PIdle) []); [apply pt_init|apply p_call; reflexivity].
Qed.

(** ** C19 *)
(** [reads_ok sz mem p e ns outs p']: reads of sizes [ns] starting at stream position [p] with head [e] gave
    [outs]: each returns the next bytes of the stream, at most what was asked, never past the head, at least
    one byte unless at the head (or nothing was asked), and says EOF exactly at the head. *)
Fixpoint reads_ok (sz : Z) (mem : Z -> Z) (p e : Z) (ns : list Z) (outs : list (list Z * bool)) (p' : Z) : Prop :=
  match ns, outs with
  | [], [] => p' = p
  | n :: ns', (b, eof) :: outs' =>
      exists c, 0 <= c <= n /\ p + c <= e /\ (0 < n -> p < e -> 0 < c) /\ b = stream sz mem p c /\
        (eof = true <-> p + c = e) /\ reads_ok sz mem (p + c) e ns' outs' p'
  | _, _ => False
  end.

Theorem C19_any_chunking : forall sz mem p e ns, valid_size sz -> 0 <= e - p <= sz -> Forall (fun n => 0 <= n) ns ->
  exists outs r' p',
    read_many (Fwd (newForwardReader sz mem (u64 e) (u64 p))) ns = Some (outs, r') /\
    reads_ok sz mem p e ns outs p' /\ p <= p' <= e /\
    concat (map fst outs) = stream sz mem p (p' - p) /\
    writeTail r' = Fwd (mkFwd sz mem (u64 e) (u64 p') (u64 e) (u64 p')).
Proof.
  intros sz mem p e ns (k & Hk & ->) He Hn.
  assert (G : forall ns r p, view r (2 ^ k) mem p e -> 0 <= e - p <= 2 ^ k -> Forall (fun n => 0 <= n) ns ->
    exists outs r' p', read_many r ns = Some (outs, r') /\ reads_ok (2 ^ k) mem p e ns outs p' /\ p <= p' <= e /\
      concat (map fst outs) = stream (2 ^ k) mem p (p' - p) /\ view r' (2 ^ k) mem p' e /\ same_shared r r').
  { clear ns p He Hn. induction ns as [|n ns IH]; intros r p Hv He Hn.
    - exists [], r, p. rewrite Z.sub_diag. split; [reflexivity|]. split; [reflexivity|]. split; [lia|].
      split; [reflexivity|]. split; [assumption|apply same_refl].
    - inversion Hn as [|? ? Hn1 Hn2]; subst.
      destruct (Read_ok k r mem p e n Hk Hv He Hn1) as (r1 & E1 & V1 & S1).
      set (c := chunk (2 ^ k) p e n) in *.
      assert (B0 : 0 < 2 ^ k) by (apply pow2_pos; lia).
      pose proof (Z.mod_pos_bound p (2 ^ k) B0) as Hm.
      assert (Hc : 0 <= c <= e - p /\ c <= n /\ (0 < n -> p < e -> 0 < c)) by (unfold c, chunk; lia).
      destruct (IH r1 (p + c) V1 ltac:(lia) Hn2) as (outs & r' & p' & E & R & Hp & Ec & V & S).
      exists ((stream (2 ^ k) mem p c, c =? e - p) :: outs), r', p'.
      split; [cbn [read_many]; rewrite E1, E; reflexivity|].
      split. { cbn [reads_ok]. exists c. split; [lia|]. split; [lia|]. split; [apply Hc|]. split; [reflexivity|].
        split; [|exact R]. rewrite Z.eqb_eq. lia. }
      split; [lia|]. split; [|split; [assumption|eapply same_trans; eassumption]].
      cbn [map concat fst]. rewrite Ec, <- stream_split by lia. f_equal. lia. }
  destruct (G ns (Fwd (newForwardReader (2 ^ k) mem (u64 e) (u64 p))) p) as (outs & r' & p' & E & R & Hp & Ec & V & S);
    [cbn; auto|assumption|assumption|].
  exists outs, r', p'. repeat split; try assumption; try lia.
  destruct r' as [f|v]; [|destruct S]. destruct f as [a b c d g h]. cbn in V, S |- *.
  destruct V as (-> & -> & -> & ->). destruct S as (-> & _ & _). reflexivity.
Qed.
Print Assumptions C19_any_chunking.

(** Through io.ReadFull: exactly the next n bytes, or io.EOF at the head, or io.ErrUnexpectedEOF. *)
Theorem C19_read_full : forall sz mem p e n, valid_size sz -> 0 <= e - p <= sz -> 0 <= n ->
  match readFull (Fwd (newForwardReader sz mem (u64 e) (u64 p))) n with
  | RF_Ok b _ => n <= e - p /\ b = stream sz mem p n
  | RF_EOF _ => e = p /\ 0 < n
  | RF_UnexpectedEOF _ => 0 < e - p < n
  | RF_Panic | RF_Fuel => False
  end.
Proof.
  intros sz mem p e n (k & Hk & ->) He Hn.
  destruct (readFull_ok k (Fwd (newForwardReader (2 ^ k) mem (u64 e) (u64 p))) mem p e n Hk) as [r' ? ? ?|r' ? ? ? ?|r' ? ? ?]; auto.
  cbn; auto.
Qed.
Print Assumptions C19_read_full.

(** Over the whole life of a ring: the published tail is at most the head and never frees a record that was
    not returned; the ring never holds more than its size. *)
Theorem C19_published_tail : forall bo sz p0 cpu s, valid_size sz -> freach bo sz p0 cpu s ->
  exists T H, f_mtail (h_rdr s) = u64 T /\ f_mhead (h_rdr s) = u64 H /\
    H = p0 + Z.of_nat (length (wires bo (h_log s))) /\
    T <= p0 + Z.of_nat (length (wires bo (firstn (length (h_out s)) (h_log s)))) <= H /\ H < T + sz.
Proof.
  intros bo sz p0 cpu s (k & Hk & ->) R. destruct (history_ok bo k p0 cpu s Hk R) as (_ & _ & _ & T & H & A & B & C & D & E).
  exists T, H. auto.
Qed.
Print Assumptions C19_published_tail.

Example C19_example : read_many (Fwd (newForwardReader 8 (fun i => 100 + i) (u64 (2 ^ 64 + 3)) (u64 (2 ^ 64 - 2)))) [1; 4; 9; 1]
  = Some ([([106], false); ([107], false); ([100; 101; 102], true); ([], true)],
          Fwd (mkFwd 8 (fun i => 100 + i) 3 18446744073709551614 3 3)).
Proof. reflexivity. Qed.

(** ** C20 *)
(** Whole life of a non-overwritable ring, any interleaving of kernel writes, head loads and reads: the
    records returned so far are exactly the first ones written, with CPU, payload and lost count; the only
    error ever returned is the end of the ring. *)
Theorem C20_records_in_order : forall bo sz p0 cpu s, valid_size sz -> freach bo sz p0 cpu s ->
  map (fun r => (CPU r, RawSample r, LostSamples r)) (h_out s)
    = map (fun x => (cpu, payload x, lost x)) (firstn (length (h_out s)) (h_log s)) /\
  (length (h_out s) <= length (h_log s))%nat /\
  Forall (fun e => e = EEOR) (h_err s).
Proof.
  intros bo sz p0 cpu s (k & Hk & ->) R. destruct (history_ok bo k p0 cpu s Hk R) as (A & B & C & _). auto.
Qed.
Print Assumptions C20_records_in_order.

(** A read after loading the head returns the next record, with the number of bytes left, or the end of the
    ring if and only if everything written has been returned. *)
Theorem C20_next_record : forall bo sz p0 cpu s, valid_size sz -> freach bo sz p0 cpu s ->
  match readRecordFromRing bo cpu false (Fwd (fwd_loadHead (h_rdr s))) with
  | (Ok rec, _) => exists x, nth_error (h_log s) (length (h_out s)) = Some x /\
      rec = mkRecord cpu (payload x) (lost x) (Z.of_nat (length (wires bo (skipn (S (length (h_out s))) (h_log s)))))
  | (Err e, _) => e = EEOR /\ length (h_out s) = length (h_log s)
  end.
Proof. intros bo sz p0 cpu s (k & Hk & ->) R. exact (history_drained bo k p0 cpu s Hk R). Qed.
Print Assumptions C20_next_record.

(** One drain of a ring (either kind) holding whole records: all of them, in stream order, then the end. *)
Theorem C20_drain : forall bo sz mem p recs cpu ow r fuel, valid_size sz ->
  r = Fwd (newForwardReader sz mem (u64 (p + Z.of_nat (length (wires bo recs)))) (u64 p)) \/
  r = Rev (mkRev sz mem (u64 p) (u64 p) (u64 p) (u64 (p + Z.of_nat (length (wires bo recs))))) ->
  Forall prec_ok recs -> Z.of_nat (length (wires bo recs)) <= sz ->
  stream sz mem p (Z.of_nat (length (wires bo recs))) = wires bo recs ->
  (length recs < fuel)%nat ->
  exists out r', readAll fuel bo cpu ow r = (out, Some EEOR, r') /\
    map (fun r => (CPU r, RawSample r, LostSamples r)) out = map (fun x => (cpu, payload x, lost x)) recs.
Proof.
  intros bo sz mem p recs cpu ow r fuel (k & Hk & ->) Hr Hok Hsz Hs Hf.
  destruct (readAll_ok bo k mem cpu ow Hk recs fuel r p (p + Z.of_nat (length (wires bo recs)))) as (r' & E & _);
    try assumption; try lia; [destruct Hr as [-> | ->]; cbn; auto|].
  rewrite E. do 2 eexists. split; [reflexivity|]. generalize (is_fwd r). clear. intros b.
  induction recs as [|x recs IH]; cbn; [reflexivity|]. rewrite IH. reflexivity.
Qed.
Print Assumptions C20_drain.

(** An unknown record type is reported as such. *)
Theorem C20_unknown_event : forall bo sz mem p e cpu t misc size rest, valid_size sz -> in_u 32 t -> t <> 2 -> t <> 9 ->
  0 <= e - p <= sz ->
  let bytes := put bo 4 t ++ put bo 2 misc ++ put bo 2 size ++ rest in
  Z.of_nat (length bytes) <= e - p -> stream sz mem p (Z.of_nat (length bytes)) = bytes ->
  exists r', readRecordFromRing bo cpu false (Fwd (newForwardReader sz mem (u64 e) (u64 p))) = (Err (EUnknown t), r').
Proof.
  intros bo sz mem p e cpu t misc size rest (k & Hk & ->) Ht N2 N9 He bytes Hl Hs. unfold bytes in *. rewrite hdr_app in *.
  destruct (readRecord_unknown bo k (Fwd (newForwardReader (2 ^ k) mem (u64 e) (u64 p))) mem p e t misc size rest Hk Ht N2 N9)
    as (r' & E & _); try assumption; [cbn; auto|].
  unfold readRecordFromRing. rewrite E. eexists. reflexivity.
Qed.
Print Assumptions C20_unknown_event.

(** Non-vacuity of the history theorems: a ring of 32 bytes, one sample written across the end of the ring. *)
Definition ex_mem : Z -> Z := fun a => nth (Z.to_nat ((a - 24) mod 32)) (wire LE (PSample 0 16 [1; 2; 3])) 0.
Example C20_example : exists s, freach LE 32 24 5 s /\ h_out s = [mkRecord 5 [1; 2; 3] 0 0] /\
  h_log s = [PSample 0 16 [1; 2; 3]] /\ h_err s = [EEOR].
Proof.
  eexists. split; [|split; [|split]].
  - eapply fr_step; [eapply fr_step; [eapply fr_step; [eapply fr_step; [apply fr_init|]|]|]|].
    + instantiate (1 := mkFsys (newForwardReader 32 (fun _ => 0) 24 24) [] [] []). repeat split.
    + apply (K_write LE 32 5 _ (PSample 0 16 [1; 2; 3]) ex_mem); try reflexivity. 
    + apply U_load.
    + apply U_read. vm_compute. reflexivity.
    + apply U_err. vm_compute. reflexivity.
  - reflexivity.
  - reflexivity.
  - reflexivity.
Qed.

(** ** C54: resynchronisation after an unknown record *)
(** After an unknown record only its 8 header bytes are consumed: the next read takes the body of the unknown
    record for a record.  Here a type 1 record of 24 bytes is followed by a sample [9;9]; the next read
    returns a sample that nobody wrote. *)
Definition unknown_wire : list Z := put LE 4 1 ++ put LE 2 0 ++ put LE 2 24 ++
  (put LE 4 9 ++ put LE 2 0 ++ put LE 2 0) ++ put LE 4 1 ++ [66; 0; 0; 0].
Definition unknown_mem : Z -> Z := fun a => nth (Z.to_nat a) (unknown_wire ++ wire LE (PSample 0 16 [9; 9])) 0.
Theorem C54_unknown_event_resync_refuted :
  stream 64 unknown_mem 0 38 = unknown_wire ++ wire LE (PSample 0 16 [9; 9]) /\
  exists r1 rec r2,
    readRecordFromRing LE 0 false (Fwd (newForwardReader 64 unknown_mem 38 0)) = (Err (EUnknown 1), r1) /\
    readRecordFromRing LE 0 false r1 = (Ok rec, r2) /\ RawSample rec = [66].
Proof.
  split; [vm_compute; reflexivity|]. 
  eexists. eexists. eexists. split; [vm_compute; reflexivity|].
  split; [vm_compute; reflexivity|]. reflexivity.
Qed.
Print Assumptions C54_unknown_event_resync_refuted.

(** What does hold: exactly the header is consumed, and published. *)
Theorem C54_unknown_event_consumes_header : forall bo sz mem p e cpu t misc size rest, valid_size sz -> in_u 32 t -> t <> 2 -> t <> 9 ->
  0 <= e - p <= sz ->
  let bytes := put bo 4 t ++ put bo 2 misc ++ put bo 2 size ++ rest in
  Z.of_nat (length bytes) <= e - p -> stream sz mem p (Z.of_nat (length bytes)) = bytes ->
  readRecordFromRing bo cpu false (Fwd (newForwardReader sz mem (u64 e) (u64 p))) =
    (Err (EUnknown t), Fwd (mkFwd sz mem (u64 e) (u64 (p + 8)) (u64 e) (u64 (p + 8)))).
Proof.
  intros bo sz mem p e cpu t misc size rest (k & Hk & ->) Ht N2 N9 He bytes Hl Hs. unfold bytes in *. rewrite hdr_app in *.
  destruct (readRecord_unknown bo k (Fwd (newForwardReader (2 ^ k) mem (u64 e) (u64 p))) mem p e t misc size rest Hk Ht N2 N9)
    as (r' & E & V & S); try assumption; [cbn; auto|].
  unfold readRecordFromRing. rewrite E. cbn [andb]. f_equal.
  destruct r' as [f|v]; [|destruct S]. destruct f as [a b c d g h]. cbn in V, S |- *.
  destruct V as (-> & -> & -> & ->). destruct S as (-> & _ & _). reflexivity.
Qed.
Print Assumptions C54_unknown_event_consumes_header.

(** ** C21 *)
(** Over any history of drains of an overwritable ring, with any memory contents and heads (the kernel moves
    the head down) and any read sizes: drain i returns bytes [h_i, h_i + n) with h_i + n <= h_(i-1) and
    n <= size: disjoint from every earlier drain, and nothing older than the ring's capacity. *)
Theorem C21_drains_disjoint : forall sz mem0 h0 hist, valid_size sz -> hist_ok h0 hist ->
  exists outs, drains (newReverseReader sz mem0 (u64 h0)) hist = Some outs /\ covers sz h0 hist outs.
Proof.
  intros sz mem0 h0 hist (k & Hk & ->) Hok. apply drains_ok; try assumption; reflexivity.
Qed.
Print Assumptions C21_drains_disjoint.

(** A complete drain (reads until EOF) gets everything that is still there: bytes from the head up to the
    previous head or the ring size, whichever is smaller. *)
Theorem C21_region : forall sz mem h0 h1 a b, valid_size sz -> 0 <= h0 - h1 < 2 ^ 64 ->
  let v := rev_loadHead (mkRev sz mem (u64 h1) (u64 h0) a b) in
  v_read v = u64 h1 /\ v_tail v = u64 (Z.min h0 (h1 + sz)) /\ v_head v = u64 h1.
Proof.
  intros sz mem h0 h1 a b (k & Hk & ->) Hh v.
  destruct (rev_load_view k mem (mkRev (2 ^ k) mem (u64 h1) (u64 h0) a b) h0 h1 Hk) as [V E]; auto.
  destruct V as (_ & _ & V1 & V2). auto.
Qed.
Print Assumptions C21_region.

(** Records: the newest complete ones, newest first; the oldest one, cut off by the end of the readable
    region, ends the ring instead of being returned. *)
Theorem C21_truncated_record_dropped : forall bo sz mem h recs misc size d cut cpu fuel,
  valid_size sz -> Forall prec_ok recs -> Z.of_nat (length d) < 2 ^ 32 ->
  (8 <= cut < length (wire bo (PSample misc size d)))%nat ->
  let n := Z.of_nat (length (wires bo recs) + cut) in
  n <= sz ->
  stream sz mem h n = wires bo recs ++ firstn cut (wire bo (PSample misc size d)) ->
  (length recs < fuel)%nat ->
  exists out r', readAll fuel bo cpu true (Rev (mkRev sz mem (u64 h) (u64 h) (u64 h) (u64 (h + n)))) = (out, Some EEOR, r') /\
    map (fun r => (CPU r, RawSample r, LostSamples r)) out = map (fun x => (cpu, payload x, lost x)) recs.
Proof.
  intros bo sz mem h recs misc size d cut cpu fuel (k & Hk & ->) Hok Hd Hcut n Hn Hs Hf.
  destruct (readAll_overwritable bo k mem cpu misc size d Hk Hd recs fuel
              (mkRev (2 ^ k) mem (u64 h) (u64 h) (u64 h) (u64 (h + n))) h (h + n) cut) as (r' & E);
    try assumption; try (unfold n in *; lia); [cbn; auto| |].
  - rewrite app_length, firstn_length, Nat.min_l by lia. exact Hs.
  - rewrite E. do 2 eexists. split; [reflexivity|]. clear.
    induction recs as [|x recs IH]; cbn [results map CPU RawSample LostSamples]; [reflexivity|]. rewrite IH. reflexivity.
Qed.
Print Assumptions C21_truncated_record_dropped.

Example C21_example : drains (newReverseReader 8 (fun _ => 0) 0)
   [((fun i => i), -3, [2; 5]); ((fun i => 50 + i), -20, [1; 100; 100])]
  = Some [[5; 6; 7]; [54; 55; 56; 57; 50; 51; 52; 53]].
Proof. reflexivity. Qed.

(** ** C22 *)
Theorem C22_buffer_size : forall pageSize n, 0 < pageSize -> 0 < n ->
  exists j, 0 <= j /\ perfBufferSize pageSize n = (1 + 2 ^ j) * pageSize /\
    n <= 2 ^ j * pageSize /\ (forall i, 0 <= i -> n <= 2 ^ i * pageSize -> j <= i).
Proof. exact perfBufferSize_ok. Qed.
Print Assumptions C22_buffer_size.

(** ** C23 *)
(** Holds when the online CPUs come first (in particular when all are online), from any array content. *)
Theorem C23_slots_partial : forall nCPU online m a, (m <= nCPU)%nat ->
  (forall c, (c < m)%nat -> online c = true) -> (forall c, (m <= c < nCPU)%nat -> online c = false) ->
  forall c, (c < nCPU)%nat -> online c = true -> resume (openEvents nCPU online) a c = Some c.
Proof.
  intros nCPU online m a Hm H1 H2 c Hc Ho. rewrite (openEvents_prefix nCPU online m Hm H1 H2), resume_spec, seq_length.
  destruct (Nat.ltb_spec c m).
  - rewrite nth_error_nth' with (d := 0%nat) by (rewrite seq_length; assumption). rewrite seq_nth by assumption. reflexivity.
  - rewrite H2 in Ho by lia. discriminate.
Qed.
Print Assumptions C23_slots_partial.

(** In general it is false: with CPU 0 offline the event of CPU 1 lands in slot 0 and slot 1 stays empty. *)
Theorem C23_slots_refuted : exists nCPU online c, (c < nCPU)%nat /\ online c = true /\
  forall a, a c = None -> resume (openEvents nCPU online) a c = None /\ resume (openEvents nCPU online) a 0%nat = Some c.
Proof.
  exists 2%nat, (fun c => Nat.eqb c 1), 1%nat. split; [lia|]. split; [reflexivity|]. intros a Ha. split; [exact Ha|reflexivity].
Qed.
Print Assumptions C23_slots_refuted.

(** After Pause no slot holds an event of this reader, for any topology and any sequence of Pause/Resume
    since the reader was created over an array without its events. *)
Inductive pr_op := OpPause | OpResume.
Definition pr_run (evs : list nat) (a : array) (ops : list pr_op) : array :=
  fold_left (fun a o => match o with OpPause => pause evs a | OpResume => resume evs a end) ops a.
Theorem C23_pause_clears : forall nCPU online ops c,
  pause (openEvents nCPU online) (pr_run (openEvents nCPU online) (fun _ => None) ops) c = None.
Proof.
  intros nCPU online ops c. set (evs := openEvents nCPU online).
  assert (G : forall ops a, (forall c, (length evs <= c)%nat -> a c = None) ->
              forall c, (length evs <= c)%nat -> pr_run evs a ops c = None).
  { clear. induction ops as [|o ops IH]; intros a Ha c Hc; cbn; [apply Ha; assumption|].
    apply IH; [|assumption]. intros d Hd. destruct o.
    - unfold pause. destruct (Nat.ltb_spec d (length evs)); [lia|]. apply Ha; assumption.
    - rewrite resume_spec. destruct (Nat.ltb_spec d (length evs)); [lia|]. apply Ha; assumption. }
  unfold pause. destruct (Nat.ltb_spec c (length evs)); [reflexivity|]. apply G; [reflexivity|assumption].
Qed.
Print Assumptions C23_pause_clears.

Example C23_example : map (resume (openEvents 4 (fun c => Nat.ltb c 3)) (fun _ => None)) [0; 1; 2; 3]%nat
  = [Some 0; Some 1; Some 2; None]%nat.
Proof. reflexivity. Qed.
