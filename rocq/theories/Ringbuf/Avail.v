(** AvailableBytes (ringbuf/ring.go:51-53): two separate atomic loads, prod_pos first, then cons_pos.
    [avail_between s t]: the producer position was loaded in state [s], the consumer position in state [t]. *)
From Coq Require Import ZArith List Lia Bool.
From Verif.Base Require Import GoInt.
From Verif.Ringbuf Require Import Spec Model Proof Concurrent ConcProof.
Import ListNotations.
Open Scope Z_scope.

Definition avail_between (s t : sys) : Z := i64 (u64 (s_prod s - s_cons t)).

Inductive steps bo sz p0 : sys -> sys -> Prop :=
| steps_refl s : steps bo sz p0 s s
| steps_snoc s t u : steps bo sz p0 s t -> step bo sz p0 t u -> steps bo sz p0 s u.

Lemma steps_reachable bo sz p0 s t : reachable bo sz p0 s -> steps bo sz p0 s t -> reachable bo sz p0 t.
Proof. intros H S. induction S as [s|s t u S IH Hu]; [assumption|]. eapply reach_step; [apply IH; assumption|exact Hu]. Qed.

Lemma skipn_total l n : total_bytes l = total_bytes (firstn n l) + total_bytes (skipn n l).
Proof. rewrite <- total_app, firstn_skipn. reflexivity. Qed.

(** Both loads see the same moment: the bytes of the records not yet released. *)
Lemma avail_exact bo sz p0 s : valid_size sz -> reachable bo sz p0 s ->
  exists c, (c <= length (s_log s))%nat /\
    c = length (filter advances (firstn (s_mark s) (s_rets s))) /\
    avail_between s s = total_bytes (skipn c (s_log s)) /\ 0 <= avail_between s s < sz.
Proof.
  intros (k & Hk & ->) H. destruct (reachable_inv bo k p0 Hk s H) as (c & n & I).
  exists c. pose proof (I_cn _ _ _ _ _ _ I) as Hcn. split; [lia|].
  split; [symmetry; apply (I_mark _ _ _ _ _ _ I)|].
  unfold avail_between. rewrite (I_prod _ _ _ _ _ _ I), (I_cons _ _ _ _ _ _ I), u64_sub.
  pose proof (I_room _ _ _ _ _ _ I) as R. pose proof (sz_hi k Hk) as SH.
  unfold pos_of in *. rewrite firstn_all in *.
  pose proof (skipn_total (s_log s) c) as T.
  assert (T0 : 0 <= total_bytes (skipn c (s_log s))).
  { apply total_nonneg. pose proof (I_valid _ _ _ _ _ _ I) as V. rewrite Forall_forall in *.
    intros x Hx. apply V. rewrite <- (firstn_skipn c). apply in_or_app. right. assumption. }
  rewrite u64_small by (change (2 ^ 64) with 18446744073709551616; lia).
  rewrite i64_small by (change (2 ^ 63) with 9223372036854775808; lia). lia.
Qed.

(** With the reader running in between, the result can be negative. *)
Section Witness.
Let m0 : Z -> Z := fun _ => 0.
Let st0 := mkSys m0 0 0 [] 0 Idle [] 0.
Let st1 := mkSys (write 16 m0 0 (put LE 4 (2 ^ 31 + 0) ++ [0;0;0;0])) (u64 (0 + 8)) 0 [mkRec 0 KBusy] 0 Idle [] 0.
Let st2 := mkSys (write 16 (s_mem st1) 0 (put LE 4 0)) (s_prod st1) 0
             [mkRec 0 (KSubmitted [])] 0 Idle [] 0.
Let st3 := mkSys (s_mem st2) (s_prod st2) 0 (s_log st2) 0 (Polling (s_prod st2)) [] 0.
Let st4 := mkSys (s_mem st2) (s_prod st2) 0 (s_log st2) 8 Idle [RetSample 8 0 0] 0.
Let st5 := mkSys (s_mem st2) (s_prod st2) 8 (s_log st2) 8 Idle [RetSample 8 0 0] 1.

Lemma witness_run : steps LE 16 0 st0 st5 /\ reachable LE 16 0 st0.
Proof.
  split; [|apply reach_init; repeat split; reflexivity].
  eapply steps_snoc; [eapply steps_snoc; [eapply steps_snoc; [eapply steps_snoc; [eapply steps_snoc;
    [apply steps_refl|]|]|]|]|].
  - apply (KReserve LE 16 0 st0 0 [0;0;0;0]); try (vm_compute; intuition congruence).
    repeat constructor; vm_compute; intuition congruence.
  - apply (KSubmit LE 16 0 st1 0 (mkRec 0 KBusy)); reflexivity.
  - apply (ULoad LE 16 0 st2); reflexivity.
  - apply (UFinish LE 16 0 st3 (s_prod st2)); reflexivity.
  - apply (UCommit LE 16 0 st4). reflexivity.
Qed.

Lemma avail_negative : exists s t, reachable LE 16 0 s /\ steps LE 16 0 s t /\ avail_between s t < 0.
Proof.
  exists st0, st5. destruct witness_run as [A B]. split; [exact B|]. split; [exact A|]. vm_compute. reflexivity.
Qed.

Lemma witness_delivered : exists s, reachable LE 16 0 s /\
  s_log s = [mkRec 0 (KSubmitted [])] /\ s_rets s = [RetSample 8 0 0].
Proof. exists st5. split; [eapply steps_reachable; apply witness_run|]. split; reflexivity. Qed.
End Witness.
