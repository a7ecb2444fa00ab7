(** Property theorems about the BPF ring buffer reader (C15 - C18, C52, C53). *)
From Coq Require Import ZArith List Lia Bool.
From Verif.Base Require Import GoInt.
From Verif.Ringbuf Require Import Spec Model Proof Concurrent ConcProof Lease LeaseProof Drain Avail.
Import ListNotations.
Open Scope Z_scope.

(** ** C15 *)
(** A ring (of any valid size, at any 64 bit position) that holds [recs] is drained to exactly the submitted
    payloads in order, then EOR with consumer = producer. [olds] are the caller's buffers. *)
Theorem C15_drain_exact : forall bo sz mem pos recs olds fuel,
  valid_size sz -> Forall valid_len recs -> Forall settled recs ->
  total_bytes recs <= sz ->
  ring_holds bo sz mem pos recs ->
  (length recs < fuel)%nat ->
  drain fuel bo olds (newRingReader sz mem (u64 (pos + total_bytes recs)) (u64 pos)) =
  (map (fun '(p, rem) => mkRecord p rem) (expected recs), RiErr EOR,
   mkRing sz mem (u64 (pos + total_bytes recs)) (u64 (pos + total_bytes recs)) (u64 (pos + total_bytes recs))).
Proof.
  intros bo sz mem pos recs olds fuel (k & Hk & ->) Hv Hs Ht Hh Hf.
  exact (drain_ok bo k mem olds Hk (length recs) recs fuel _ _ pos (le_n _) Hv Hs Hh eq_refl Ht Hf eq_refl).
Qed.
Print Assumptions C15_drain_exact.

(** Concurrent version: in every interleaving with any number of BPF programs reserving, filling, submitting
    and discarding (in any order), the results handed to the user so far are the right results for an initial
    segment of the reserved records, in reservation order, one each; the only error ever seen is EOR. *)
Theorem C15_concurrent_in_order : forall bo sz p0 s,
  valid_size sz -> reachable bo sz p0 s ->
  exists n, (n <= length (s_log s))%nat /\
    Forall2 right_result (firstn n (s_log s)) (filter advances (s_rets s)) /\
    (forall x, In x (s_rets s) -> advances x = true \/ x = RetErr EOR).
Proof. exact conc_exactly_once. Qed.
Print Assumptions C15_concurrent_in_order.

(** The bytes of every sample returned since the last Commit are the submitted payload and stay so while the
    BPF programs run on. *)
Theorem C15_concurrent_payload_stable : forall bo sz p0 s,
  valid_size sz -> reachable bo sz p0 s ->
  forall i st len rem r p,
    nth_error (filter advances (s_rets s)) i = Some (RetSample st len rem) ->
    (length (filter advances (firstn (s_mark s) (s_rets s))) <= i)%nat ->
    nth_error (s_log s) i = Some r -> k_status r = KSubmitted p ->
    slice_bytes sz (s_mem s) st len = p.
Proof. exact conc_stable. Qed.
Print Assumptions C15_concurrent_payload_stable.

(** EOR is returned only if every record reserved so far was returned before. *)
Theorem C15_concurrent_eor : forall bo sz p0 s t,
  valid_size sz -> reachable bo sz p0 s -> step bo sz p0 s t ->
  s_rets t = s_rets s ++ [RetErr EOR] -> length (filter advances (s_rets s)) = length (s_log s).
Proof. exact conc_eor. Qed.
Print Assumptions C15_concurrent_eor.

(** Non-vacuity: a ring of 32 bytes at position 2^64 - 16 holding a submitted 3 byte record (wrapping both
    the ring and the counter... ) and a discarded one. *)
Definition ex_recs := [mkRec 3 (KSubmitted [1;2;3]); mkRec 5 KDiscarded].
Definition ex_bytes : list Z := [3;0;0;0;0;0;0;0; 1;2;3;0;0;0;0;0; 5;0;0;64;0;0;0;0; 9;9;9;9;9;0;0;0].
Definition ex_mem : Z -> Z := fun i => nth (Z.to_nat ((i + 16) mod 32)) ex_bytes 0.
Example C15_example :
  valid_size 32 /\ Forall valid_len ex_recs /\ Forall settled ex_recs /\ total_bytes ex_recs <= 32 /\
  ring_holds LE 32 ex_mem (2 ^ 64 - 16) ex_recs /\
  drain 3 LE (fun _ => []) (newRingReader 32 ex_mem (u64 (2 ^ 64 - 16 + total_bytes ex_recs)) (u64 (2 ^ 64 - 16))) =
  ([mkRecord [1;2;3] 16], RiErr EOR, mkRing 32 ex_mem 16 16 16).
Proof.
  split; [exists 5; split; [lia|reflexivity]|].
  split; [repeat constructor; cbn; try lia; intros p E; inversion E; reflexivity|].
  split; [repeat constructor; discriminate|].
  split; [vm_compute; discriminate|].
  split; [|reflexivity].
  cbn [ring_holds ex_recs]. repeat split; try (vm_compute; reflexivity).
  - intros p E. inversion E; subst. vm_compute. reflexivity.
  - intros p E. inversion E.
Qed.

Example C15_concurrent_example : exists s, reachable LE 16 0 s /\
  s_log s = [mkRec 0 (KSubmitted [])] /\ s_rets s = [RetSample 8 0 0].
Proof. exact witness_delivered. Qed.

(** ** C16 *)
(** Whatever the ring contains: on any error the reader is unchanged; on success the local position moves by
    header + rounded length and never past the producer position that was loaded; the shared consumer position
    is untouched; the slice is inside the double mapping; the only way to slice out of range (a Go panic)
    is a length larger than the ring. *)
Theorem C16_any_content : forall bo r out r',
  valid_size (rsize r) -> (forall i, is_byte (rmem r i)) ->
  in_u 64 (rprod r) -> in_u 64 (rlocal r) ->
  readSample bo r = (out, r') ->
  rsize r' = rsize r /\ rmem r' = rmem r /\ rprod r' = rprod r /\ rcons r' = rcons r /\ in_u 64 (rlocal r') /\
  match out with
  | RdOk d remain =>
      exists n adv, 0 <= n < 2 ^ 30 /\ adv = 8 + round8 n /\
        adv <= (rprod r - rlocal r) mod 2 ^ 64 /\
        rlocal r' = (rlocal r + adv) mod 2 ^ 64 /\
        (rprod r' - rlocal r') mod 2 ^ 64 = (rprod r - rlocal r) mod 2 ^ 64 - adv /\
        (forall start len, d = Some (start, len) ->
           len = n /\ 0 <= start < rsize r /\ start + len <= 2 * rsize r)
  | RdPanic => rsize r < dataLen (load_len bo (rsize r) (rmem r) (rlocal r)) /\ r' = r
  | _ => r' = r
  end.
Proof. exact readSample_safe. Qed.
Print Assumptions C16_any_content.

(** The shared consumer position is written by Commit only, with the position reached by the reads so far. *)
Inductive ringop := OpRead (mem : Z -> Z) (prod : Z)   (* read, the kernel having left this memory/producer *)
                  | OpCommit.
Definition run_op (bo : byteorder) (r : ring) (o : ringop) : ring :=
  match o with
  | OpRead mem prod => snd (readSample bo (mkRing (rsize r) mem prod (rcons r) (rlocal r)))
  | OpCommit => r_commit r
  end.
Lemma readSample_cons bo r : rcons (snd (readSample bo r)) = rcons r.
Proof.
  unfold readSample. destruct (rs_check _ _); [reflexivity|]. destruct (isBusy _); [reflexivity|].
  destruct (rs_finish _ _ _ _); reflexivity.
Qed.
Theorem C16_only_commit_publishes : forall bo r ops1 ops2,
  (forall o, In o ops2 -> o <> OpCommit) ->
  rcons (fold_left (run_op bo) ops2 r) = rcons r /\
  rcons (fold_left (run_op bo) (ops1 ++ OpCommit :: ops2) r) = rlocal (fold_left (run_op bo) ops1 r).
Proof.
  intros bo r ops1 ops2 H.
  assert (G : forall r0, rcons (fold_left (run_op bo) ops2 r0) = rcons r0).
  { clear r ops1. induction ops2 as [|o ops2 IH]; intros r0; [reflexivity|]. cbn [fold_left].
    rewrite IH by (intros o' Ho'; apply H; right; assumption).
    destruct o as [mem prod|]; [cbn [run_op]; rewrite readSample_cons; reflexivity|].
    exfalso. apply (H OpCommit); [left|]; reflexivity. }
  split; [apply G|]. rewrite fold_left_app. cbn [fold_left]. rewrite G. reflexivity.
Qed.
Print Assumptions C16_only_commit_publishes.

(** Non-vacuity, and a header announcing more than the producer wrote: refused, nothing consumed. *)
Example C16_example :
  fst (readSample LE (mkRing 32 ex_mem 0 (2 ^ 64 - 16) (2 ^ 64 - 16))) = RdOk (Some (24, 3)) 0 /\
  fst (readSample LE (mkRing 32 (fun _ => 31) 16 0 0)) = RdErr ShortData.
Proof. split; vm_compute; reflexivity. Qed.

(** ** C17 *)
(** [ltrace s tr]: the system can reach [s] from the fresh reader by performing the events [tr]. *)
Theorem C17_one_lease_at_a_time : forall s tr g h,
  ltrace s tr -> gs s g = GCallback -> gs s h = GCallback -> g = h.
Proof. exact one_callback. Qed.
Print Assumptions C17_one_lease_at_a_time.

Theorem C17_released_at_most_once : forall s tr, ltrace s tr -> (unmaps tr <= 1)%nat.
Proof. intros s tr H. rewrite (unmap_count s tr H). destruct (mapped s); lia. Qed.
Print Assumptions C17_released_at_most_once.

Theorem C17_no_lease_runs_after_release : forall s tr g h,
  ltrace s tr -> In (EvUnmap g) tr -> gs s h <> GCallback.
Proof. exact no_callback_after_unmap. Qed.
Print Assumptions C17_no_lease_runs_after_release.

Theorem C17_no_lease_starts_after_release : forall s tr1 g tr2 h,
  ltrace s (tr1 ++ EvRun h :: tr2) -> ~ In (EvUnmap g) tr1.
Proof. exact no_run_after_unmap. Qed.
Print Assumptions C17_no_lease_starts_after_release.

(** The release itself happens while no callback runs. *)
Theorem C17_release_outside_lease : forall s tr g t h,
  ltrace s tr -> lstep s (EvUnmap g) t -> gs s h <> GCallback.
Proof.
  intros s tr g t h H Hs E.
  assert (Ht : ltrace t (tr ++ [EvUnmap g])) by (econstructor; eassumption).
  assert (Hc : gs t h = GCallback).
  { inversion Hs; subst; cbn. rewrite setg_other; [assumption|]. intros ->. congruence. }
  revert Hc. apply (no_callback_after_unmap t (tr ++ [EvUnmap g]) g h Ht). apply in_or_app; right; left; reflexivity.
Qed.
Print Assumptions C17_release_outside_lease.

(** Close does not hang: once every lease has returned, the waiting Close proceeds to release. *)
Theorem C17_close_proceeds : forall s tr g, ltrace s tr -> gs s g = GCloseSpin ->
  (forall h, in_section (gs s h) = false) ->
  exists t, lstep s EvTau t /\ gs t g = GCloseRing.
Proof. exact close_progress. Qed.
Print Assumptions C17_close_proceeds.

(** Idempotence: a Close after the first one returns nil and changes nothing. *)
Theorem C17_close_idempotent : forall s e t g,
  gs s g = GClose -> closed s = true -> lstep s e t -> (exists r, e = EvRet g r) ->
  e = EvRet g RNil /\ inflight t = inflight s /\ closed t = closed s /\ mapped t = mapped s.
Proof.
  intros s e t g Hg Hc Hs [r ->]. inversion Hs; subst; try congruence.
  repeat split; reflexivity.
Qed.
Print Assumptions C17_close_idempotent.

(** Non-vacuity: goroutine 0 runs a lease while goroutine 1 closes; the release follows the leave. *)
Example C17_example : exists s tr, ltrace s tr /\ In (EvRun 0%nat) tr /\ In (EvUnmap 1%nat) tr.
Proof.
  eexists. eexists. split.
  - eapply lt_step. eapply lt_step. eapply lt_step. eapply lt_step. eapply lt_step. eapply lt_step.
    eapply lt_step. eapply lt_step. eapply lt_step. eapply lt_step. apply lt_init.
    + apply (L_start _ 0%nat); reflexivity.
    + apply (L_cas_ok _ 0%nat); reflexivity.
    + apply (L_open _ 0%nat); reflexivity.
    + apply (C_start _ 1%nat); reflexivity.
    + apply (C_first _ 1%nat); reflexivity.
    + apply (C_poller_ok _ 1%nat); reflexivity.
    + apply (L_fn_done _ 0%nat); reflexivity.
    + apply (L_leave _ 0%nat); reflexivity.
    + apply (C_spin_done _ 1%nat); reflexivity.
    + apply (C_ring _ 1%nat); reflexivity.
  - split; repeat (apply in_or_app; try (right; left; reflexivity); left).
Qed.

(** ** C18 (ring buffer half; the perf half is in Perf/Props.v) *)
Theorem C18_ringbuf_error_exactly_once : forall A (s : dst A) tr, dtrace s tr ->
  interrupts tr = reported tr ++ opt_list (drainErr s).
Proof. intros A s tr H. exact (proj1 (drain_once s tr H)). Qed.
Print Assumptions C18_ringbuf_error_exactly_once.

Theorem C18_ringbuf_drained_before_error : forall A (s : dst A) t1 e t2 e' t3,
  dtrace s (t1 ++ Interrupted e :: t2 ++ ReturnedErr e' :: t3) ->
  reported t2 = [] ->
  e' = e /\ exists rest, returned (t1 ++ Interrupted e :: t2) = produced t1 ++ rest.
Proof. intros A. exact drain_all_before_report. Qed.
Print Assumptions C18_ringbuf_drained_before_error.

Theorem C18_ringbuf_nothing_lost : forall A (s : dst A) tr, dtrace s tr -> produced tr = returned tr ++ queue s.
Proof. intros A. exact drain_fifo. Qed.
Print Assumptions C18_ringbuf_nothing_lost.

Theorem C18_ringbuf_pending_error_not_stuck : forall A (s : dst A) tr e, dtrace s tr -> drainErr s = Some e ->
  (exists x t, dstep s (Returned x) t) \/ (exists t, dstep s (ReturnedErr e) t) \/
  (exists t u, dstep s Tau t /\ dstep t (ReturnedErr e) u).
Proof. intros A. exact drain_progress. Qed.
Print Assumptions C18_ringbuf_pending_error_not_stuck.

Example C18_ringbuf_example : exists s : dst nat,
  dtrace s [Tau; Tau; Produced 7%nat; Interrupted Flushed; Returned 7%nat; Tau; ReturnedErr Flushed].
Proof.
  eexists.
  apply (dt_step (mkD [] (Some Flushed) DEmpty) [Tau; Tau; Produced 7%nat; Interrupted Flushed; Returned 7%nat; Tau]); [|apply d_drained].
  apply (dt_step (mkD [] (Some Flushed) DLoop) [Tau; Tau; Produced 7%nat; Interrupted Flushed; Returned 7%nat]); [|apply d_eor].
  apply (dt_step (mkD [7%nat] (Some Flushed) DLoop) [Tau; Tau; Produced 7%nat; Interrupted Flushed]); [|apply d_sample].
  apply (dt_step (mkD [7%nat] None DWait) [Tau; Tau; Produced 7%nat]); [|apply d_interrupt].
  apply (dt_step (mkD [] None DWait) [Tau; Tau]); [|apply (d_produce [])].
  apply (dt_step (mkD [] None DEmpty) [Tau]); [|apply d_wait].
  apply (dt_step (mkD [] None DLoop) []); [apply dt_init|apply d_eor].
Qed.

(** ** C52: AvailableBytes *)
(** Read at one moment it is the number of bytes of the records not yet released by Commit. *)
Theorem C52_available_exact : forall bo sz p0 s, valid_size sz -> reachable bo sz p0 s ->
  exists c, (c <= length (s_log s))%nat /\
    c = length (filter advances (firstn (s_mark s) (s_rets s))) /\
    avail_between s s = total_bytes (skipn c (s_log s)) /\ 0 <= avail_between s s < sz.
Proof. exact avail_exact. Qed.
Print Assumptions C52_available_exact.

(** Called while another goroutine reads, it can return a negative number of bytes (prod_pos is loaded
    before cons_pos). *)
Theorem C52_available_nonnegative_refuted :
  exists s t, reachable LE 16 0 s /\ steps LE 16 0 s t /\ avail_between s t < 0.
Proof. exact avail_negative. Qed.
Print Assumptions C52_available_nonnegative_refuted.

(** ** C53: memory accesses stay inside the life time of the mapping *)
(** Every access to ring memory from inside a lease happens while the memory is mapped ... *)
Theorem C53_lease_access_mapped : forall s tr g t,
  ltrace s tr -> lstep s (EvTouch g) t -> gs s g <> GAvail -> mapped s = true.
Proof.
  intros s tr g t H Hs Hn. apply (callback_mapped s tr g H). inversion Hs; subst; [assumption|contradiction].
Qed.
Print Assumptions C53_lease_access_mapped.

(** ... but AvailableBytes takes no lease: after Close it reads unmapped memory. *)
Theorem C53_available_after_close_refuted : exists s tr t,
  ltrace s tr /\ lstep s (EvTouch 0%nat) t /\ mapped s = false.
Proof.
  eexists. eexists. eexists. split; [|split].
  - eapply lt_step. eapply lt_step. eapply lt_step. eapply lt_step. eapply lt_step. eapply lt_step. apply lt_init.
    + apply (C_start _ 1%nat); reflexivity.
    + apply (C_first _ 1%nat); reflexivity.
    + apply (C_poller_ok _ 1%nat); reflexivity.
    + apply (C_spin_done _ 1%nat); reflexivity.
    + apply (C_ring _ 1%nat); reflexivity.
    + apply (A_start _ 0%nat); reflexivity.
  - apply (A_load _ 0%nat); reflexivity.
  - reflexivity.
Qed.
Print Assumptions C53_available_after_close_refuted.
