(** Lease.ReadSample's waiting loop (ringbuf/raw_reader.go:157-190) as a labelled transition system.
    The ring is abstracted to the queue of records that readSample would return (Model.v/ConcProof.v justify
    this: records are returned in order, EOR exactly when there are none); the kernel may append to it at any
    moment. [A] is the type of what readSample returns on success. *)
From Coq Require Import List Lia.
Import ListNotations.

Section D.
Context {A : Type}.

(** The two errors that interrupt a wait but are reported only once the ring is empty
    (os.ErrDeadlineExceeded, ErrFlushed), and other errors of the poller. *)
Inductive ierr := Deadline | Flushed.

Inductive dpc := DLoop      (* top of the for loop: about to call ring.readSample *)
               | DEmpty     (* readSample returned errEOR: about to look at drainErr *)
               | DWait.     (* in poller.Wait *)

Record dst := mkD { queue : list A; drainErr : option ierr; pc : dpc }.

Inductive dlabel :=
| Produced (x : A)          (* kernel side: a record becomes readable *)
| Returned (x : A)          (* ReadSample returns a record *)
| Interrupted (e : ierr)    (* poller.Wait returned a deadline / flush error *)
| ReturnedErr (e : ierr)    (* ReadSample returns that error *)
| Failed                    (* poller.Wait failed otherwise: ReadSample returns the error *)
| Tau.

Inductive dstep : dst -> dlabel -> dst -> Prop :=
| d_produce q d p x : dstep (mkD q d p) (Produced x) (mkD (q ++ [x]) d p)
| d_sample x q d : dstep (mkD (x :: q) d DLoop) (Returned x) (mkD q d DLoop)          (* 164-167 *)
| d_eor d : dstep (mkD [] d DLoop) Tau (mkD [] d DEmpty)                              (* 169-171 *)
| d_drained q e : dstep (mkD q (Some e) DEmpty) (ReturnedErr e) (mkD q None DLoop)    (* 173-176 *)
| d_wait q : dstep (mkD q None DEmpty) Tau (mkD q None DWait)                         (* 178 *)
| d_wakeup q d : dstep (mkD q d DWait) Tau (mkD q d DLoop)                            (* Wait returned nil *)
| d_interrupt q d e : dstep (mkD q d DWait) (Interrupted e) (mkD q (Some e) DLoop)    (* 179-182 *)
| d_fail q d : dstep (mkD q d DWait) Failed (mkD q d DLoop).                          (* 184-186 *)

Inductive dtrace : dst -> list dlabel -> Prop :=
| dt_init : dtrace (mkD [] None DLoop) []
| dt_step s tr l t : dtrace s tr -> dstep s l t -> dtrace t (tr ++ [l]).

Definition produced (tr : list dlabel) : list A :=
  flat_map (fun l => match l with Produced x => [x] | _ => [] end) tr.
Definition returned (tr : list dlabel) : list A :=
  flat_map (fun l => match l with Returned x => [x] | _ => [] end) tr.
Definition interrupts (tr : list dlabel) : list ierr :=
  flat_map (fun l => match l with Interrupted e => [e] | _ => [] end) tr.
Definition reported (tr : list dlabel) : list ierr :=
  flat_map (fun l => match l with ReturnedErr e => [e] | _ => [] end) tr.

Definition opt_list {B} (o : option B) : list B := match o with Some x => [x] | None => [] end.

Definition is_wait (p : dpc) : bool := match p with DWait => true | _ => false end.

Lemma drain_fifo s tr : dtrace s tr -> produced tr = returned tr ++ queue s.
Proof.
  induction 1 as [|s tr l t H IH Hs]; [reflexivity|].
  unfold produced, returned in *. rewrite !flat_map_app, IH.
  destruct Hs; cbn; rewrite ?app_nil_r, <- ?app_assoc; reflexivity.
Qed.

Lemma drain_once s tr : dtrace s tr ->
  interrupts tr = reported tr ++ opt_list (drainErr s) /\ (pc s = DWait -> drainErr s = None).
Proof.
  induction 1 as [|s tr l t H [IH1 IH2] Hs]; [split; [reflexivity|discriminate]|].
  unfold interrupts, reported in *. rewrite !flat_map_app, IH1.
  destruct Hs; cbn in *; rewrite ?app_nil_r; (split; [|try discriminate; try assumption; auto]); try reflexivity.
  rewrite IH2 by reflexivity. cbn. rewrite !app_nil_r. reflexivity.
Qed.

(** Between the interruption and the report every record that was there is handed out. *)
Lemma drain_before s tr : dtrace s tr ->
  (forall t1 e t2, tr = t1 ++ Interrupted e :: t2 -> reported t2 = [] -> interrupts t2 = [] ->
     drainErr s = Some e /\
     (pc s = DEmpty -> exists rest, returned tr = produced t1 ++ rest)) /\
  True.
Proof.
  intros H. split; [|exact I]. induction H as [|s tr l t H IH Hs]; intros t1 e t2 E Hr Hi.
  - destruct t1; discriminate.
  - pose proof (drain_fifo _ _ H) as Hf.
    destruct t2 as [|y t2 _] using rev_ind.
    + apply app_inj_tail in E. destruct E as [-> ->]. inversion Hs; subst; cbn. split; [reflexivity|discriminate].
    + change (t1 ++ Interrupted e :: t2 ++ [y]) with (t1 ++ (Interrupted e :: t2) ++ [y]) in E.
      rewrite app_assoc in E. apply app_inj_tail in E. destruct E as [-> ->].
      unfold reported, interrupts in Hr, Hi. rewrite flat_map_app in Hr, Hi.
      apply app_eq_nil in Hr. apply app_eq_nil in Hi. destruct Hr as [Hr Hr'], Hi as [Hi Hi'].
      destruct (IH t1 e t2 eq_refl Hr Hi) as [D P]. unfold returned, produced in *.
      destruct Hs; cbn in D, P, Hr', Hi' |- *; try discriminate; (split; [assumption|]); try discriminate.
      * intros ->. rewrite (flat_map_app _ (t1 ++ _) [Produced x]). cbn. rewrite app_nil_r. apply P; reflexivity.
      * intros _. rewrite (flat_map_app _ (t1 ++ _) [Tau]). cbn. rewrite app_nil_r.
        cbn in Hf. rewrite app_nil_r in Hf. rewrite <- Hf, flat_map_app. eexists; reflexivity.
Qed.

Lemma dtrace_snoc s tr l : dtrace s (tr ++ [l]) -> exists s1, dtrace s1 tr /\ dstep s1 l s.
Proof.
  intros H. remember (tr ++ [l]) as k eqn:E. destruct H as [|s1 tr' e' t H1 H2]; [destruct tr; discriminate|].
  apply app_inj_tail in E. destruct E as [-> ->]. eauto.
Qed.
Lemma dtrace_prefix s a b : dtrace s (a ++ b) -> exists s1, dtrace s1 a.
Proof.
  revert s. induction b as [|x b IH] using rev_ind; intros s H; [rewrite app_nil_r in H; eauto|].
  rewrite app_assoc in H. apply dtrace_snoc in H. destruct H as (s1 & H & _). eauto.
Qed.

(** The error comes out only after everything that was in the ring when the wait was interrupted. *)
Lemma drain_all_before_report s t1 e t2 e' t3 :
  dtrace s (t1 ++ Interrupted e :: t2 ++ ReturnedErr e' :: t3) ->
  reported t2 = [] ->
  e' = e /\ exists rest, returned (t1 ++ Interrupted e :: t2) = produced t1 ++ rest.
Proof.
  intros H Hr.
  replace (t1 ++ Interrupted e :: t2 ++ ReturnedErr e' :: t3)
    with (((t1 ++ Interrupted e :: t2) ++ [ReturnedErr e']) ++ t3) in H
    by (rewrite <- !app_assoc; reflexivity).
  apply dtrace_prefix in H. destruct H as [s1 H]. apply dtrace_snoc in H. destruct H as (s2 & H & Hs).
  pose proof (drain_once _ _ H) as [Ho _].
  assert (Hi : interrupts t2 = []).
  { unfold interrupts, reported in *. rewrite !flat_map_app in Ho. cbn in Ho. rewrite Hr in Ho.
    rewrite app_nil_r in Ho.
    (* interrupts and reports alternate: at the interruption everything earlier was reported *)
    assert (H0 : exists s0, dtrace s0 (t1 ++ [Interrupted e])).
    { replace (t1 ++ Interrupted e :: t2) with ((t1 ++ [Interrupted e]) ++ t2) in H by (rewrite <- app_assoc; reflexivity).
      eapply dtrace_prefix; eassumption. }
    destruct H0 as [s0 H0]. pose proof (drain_once _ _ H0) as [Ho0 _].
    apply dtrace_snoc in H0. destruct H0 as (s3 & H3 & Hs3). pose proof (drain_once _ _ H3) as [Ho3 Hw3].
    unfold interrupts, reported in Ho3, Ho0.
    inversion Hs3; subst. cbn in Hw3, Ho3. rewrite (Hw3 eq_refl) in Ho3. cbn in Ho3. rewrite app_nil_r in Ho3.
    rewrite Ho3 in Ho. destruct (drainErr s2) as [d'|]; cbn in Ho.
    - apply app_inv_head in Ho. apply (f_equal (@tl ierr)) in Ho. exact Ho.
    - apply app_inv_head in Ho. discriminate. }
  destruct (proj1 (drain_before _ _ H) t1 e t2 eq_refl Hr Hi) as [D P].
  inversion Hs; subst. cbn in D, P. split; [congruence|]. apply P. reflexivity.
Qed.

(** The reader never goes back to waiting while an error is pending. *)
Lemma drain_no_wait s tr : dtrace s tr -> drainErr s <> None -> pc s <> DWait.
Proof. intros H Hd E. apply Hd. apply (proj2 (drain_once _ _ H)); assumption. Qed.

(** Progress: with an error pending, a call returns after at most two steps of the reader itself. *)
Lemma drain_progress s tr e : dtrace s tr -> drainErr s = Some e ->
  (exists x t, dstep s (Returned x) t) \/ (exists t, dstep s (ReturnedErr e) t) \/
  (exists t u, dstep s Tau t /\ dstep t (ReturnedErr e) u).
Proof.
  intros H Hd. pose proof (drain_no_wait _ _ H) as Hw. destruct s as [q d p]; cbn in *. subst d.
  destruct p.
  - destruct q as [|x q].
    + right; right. do 2 eexists. split; [apply d_eor|apply d_drained].
    + left. do 2 eexists. apply d_sample.
  - right; left. eexists. apply d_drained.
  - exfalso. apply Hw; [discriminate|reflexivity].
Qed.
End D.
Arguments dst : clear implicits.
Arguments dlabel : clear implicits.
