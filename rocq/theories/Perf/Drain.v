(** perf.Reader.ReadInto (perf/reader.go:334-398), Pause/Resume, as a labelled transition system.
    Each per-CPU ring is abstracted to the queue of unread records (Proof.v justifies this for one ring);
    [loaded] is pr.epollRings: ring index and number of records below the head loaded by loadHead.
    pr.mu: only one ReadInto at a time. pr.pauseMu: Pause/Resume only between calls or while Wait blocks. *)
From Coq Require Import List Lia Bool PeanoNat.
Import ListNotations.

Section D.
Context {A : Type}.
Variable N : nat.                  (* number of rings *)
Variable overwritable : bool.

Inductive ierr := Deadline | Flushed.
Inductive ppc := PIdle | PTop | PWaiting | PCheck.

Record pst := mkP {
  rings : nat -> list A; loaded : list (nat * nat); pendingErr : option ierr; paused : bool; pc : ppc }.

Inductive plabel :=
| Produced (i : nat) (x : A) | Returned (i : nat) (x : A)
| Interrupted (e : ierr) | ReturnedErr (e : ierr)
| MustBePaused | Failed | Tau.

Definition upd (f : nat -> list A) (i : nat) (q : list A) : nat -> list A :=
  fun j => if Nat.eqb j i then q else f j.

Definition load_all (rs : nat -> list A) : list (nat * nat) :=
  map (fun i => (i, length (rs i))) (seq 0 N).

Inductive pstep : pst -> plabel -> pst -> Prop :=
| p_produce rs l d pa p i x : i < N ->
    pstep (mkP rs l d pa p) (Produced i x) (mkP (upd rs i (rs i ++ [x])) l d pa p)
| p_pause rs l d pa p : p = PIdle \/ p = PWaiting ->
    pstep (mkP rs l d pa p) Tau (mkP rs l d true p)
| p_resume rs l d pa p : p = PIdle \/ p = PWaiting ->
    pstep (mkP rs l d pa p) Tau (mkP rs l d false p)
(* call; 341-343 *)
| p_call_err rs l d pa : overwritable && negb pa = true ->
    pstep (mkP rs l d pa PIdle) MustBePaused (mkP rs l d pa PIdle)
| p_call rs l d pa : overwritable && negb pa = false ->
    pstep (mkP rs l d pa PIdle) Tau (mkP rs l d pa PTop)
(* 350-356 *)
| p_report rs pa e : pstep (mkP rs [] (Some e) pa PTop) (ReturnedErr e) (mkP rs [] None pa PIdle)
(* 360 *)
| p_wait rs pa : pstep (mkP rs [] None pa PTop) Tau (mkP rs [] None pa PWaiting)
(* 361-370: Wait returned *)
| p_wakeup rs l d pa : pstep (mkP rs l d pa PWaiting) Tau (mkP rs l d pa PCheck)
| p_interrupt rs l d pa e : pstep (mkP rs l d pa PWaiting) (Interrupted e) (mkP rs l (Some e) pa PCheck)
| p_fail rs l d pa : pstep (mkP rs l d pa PWaiting) Failed (mkP rs l d pa PIdle)
(* 373-375 *)
| p_check_err rs l d pa : overwritable && negb pa = true ->
    pstep (mkP rs l d pa PCheck) MustBePaused (mkP rs l d pa PIdle)
(* 379-382 *)
| p_load rs l d pa : overwritable && negb pa = false ->
    pstep (mkP rs l d pa PCheck) Tau (mkP rs (l ++ load_all rs) d pa PTop)
(* 388-396 *)
| p_eor rs l d pa i : pstep (mkP rs (l ++ [(i, 0)]) d pa PTop) Tau (mkP rs l d pa PTop)
| p_record rs l d pa i n x q : rs i = x :: q ->
    pstep (mkP rs (l ++ [(i, S n)]) d pa PTop) (Returned i x) (mkP (upd rs i q) (l ++ [(i, n)]) d pa PIdle).

Inductive ptrace : pst -> list plabel -> Prop :=
| pt_init pa : ptrace (mkP (fun _ => []) [] None pa PIdle) []
| pt_step s tr l t : ptrace s tr -> pstep s l t -> ptrace t (tr ++ [l]).

Definition produced (i : nat) (tr : list plabel) : list A :=
  flat_map (fun l => match l with Produced j x => if Nat.eqb j i then [x] else [] | _ => [] end) tr.
Definition returned (i : nat) (tr : list plabel) : list A :=
  flat_map (fun l => match l with Returned j x => if Nat.eqb j i then [x] else [] | _ => [] end) tr.
Definition interrupts (tr : list plabel) : list ierr :=
  flat_map (fun l => match l with Interrupted e => [e] | _ => [] end) tr.
Definition reported (tr : list plabel) : list ierr :=
  flat_map (fun l => match l with ReturnedErr e => [e] | _ => [] end) tr.
Definition opt_list {B} (o : option B) : list B := match o with Some x => [x] | None => [] end.

Lemma upd_same f i q : upd f i q i = q.
Proof. unfold upd. rewrite Nat.eqb_refl. reflexivity. Qed.
Lemma upd_other f i q j : j <> i -> upd f i q j = f j.
Proof. unfold upd. intros. destruct (Nat.eqb_spec j i); [contradiction|reflexivity]. Qed.

Lemma fifo s tr i : ptrace s tr -> produced i tr = returned i tr ++ rings s i.
Proof.
  induction 1 as [|s tr l t H IH Hs]; [reflexivity|].
  unfold produced, returned in *. rewrite !flat_map_app, IH.
  destruct Hs; cbn in *; rewrite ?app_nil_r; try reflexivity.
  - destruct (Nat.eqb_spec i0 i) as [->|Ne].
    + rewrite upd_same, <- app_assoc. reflexivity.
    + rewrite upd_other by congruence. rewrite !app_nil_r. reflexivity.
  - destruct (Nat.eqb_spec i0 i) as [->|Ne].
    + rewrite upd_same, H0, <- app_assoc. reflexivity.
    + rewrite upd_other by congruence. rewrite !app_nil_r. reflexivity.
Qed.

Lemma once s tr : ptrace s tr ->
  interrupts tr = reported tr ++ opt_list (pendingErr s) /\
  (pc s = PWaiting -> pendingErr s = None /\ loaded s = []) /\ (pc s = PCheck -> loaded s = []).
Proof.
  induction 1 as [|s tr l t H (IH1 & IH2 & IH3) Hs]; [repeat split; discriminate|].
  unfold interrupts, reported in *. rewrite !flat_map_app, IH1.
  destruct Hs; cbn in *; rewrite ?app_nil_r; (split; [try reflexivity|split; try discriminate; auto]).
  all: try (intros _; apply IH2; reflexivity).
  all: try (destruct (IH2 eq_refl) as [-> _]; cbn; rewrite ?app_nil_r; reflexivity).
Qed.

Definition avail (i : nat) (l : list (nat * nat)) : nat :=
  fold_right (fun x a => (if Nat.eqb (fst x) i then snd x else 0) + a) 0 l.
Lemma avail_app i a b : avail i (a ++ b) = avail i a + avail i b.
Proof. unfold avail. induction a as [|x a IH]; cbn [app fold_right]; [reflexivity|]. rewrite IH. lia. Qed.
Lemma avail_cons i x l : avail i (x :: l) = (if Nat.eqb (fst x) i then snd x else 0) + avail i l.
Proof. reflexivity. Qed.
Lemma avail_out i (rs : nat -> list A) n : forall s, i < s \/ s + n <= i -> avail i (map (fun j => (j, length (rs j))) (seq s n)) = 0.
Proof.
  induction n as [|n IH]; intros s Hs; [reflexivity|]. cbn [seq map]. rewrite avail_cons, IH by lia.
  cbn [fst snd]. destruct (Nat.eqb_spec s i); lia.
Qed.
Lemma avail_in i (rs : nat -> list A) n : forall s, s <= i < s + n ->
  avail i (map (fun j => (j, length (rs j))) (seq s n)) = length (rs i).
Proof.
  induction n as [|n IH]; intros s Hs; [lia|]. cbn [seq map]. rewrite avail_cons. cbn [fst snd].
  destruct (Nat.eqb_spec s i) as [->|Ne].
  - rewrite avail_out by lia. lia.
  - rewrite IH by lia. reflexivity.
Qed.
Lemma avail_load i rs : i < N -> avail i (load_all rs) = length (rs i).
Proof. unfold load_all. intros H. apply avail_in. lia. Qed.

(** entries in epollRings never exceed what is in the ring *)
Lemma avail_le s tr i : ptrace s tr -> avail i (loaded s) <= length (rings s i).
Proof.
  induction 1 as [|s tr l t H IH Hs]; [cbn; lia|].
  pose proof (once _ _ H) as (_ & _ & O3).
  destruct Hs; cbn [rings loaded pendingErr paused pc] in *; rewrite ?avail_app, ?avail_cons in *; cbn [fst snd] in *; try lia.
  all: try (destruct (Nat.eqb i0 i); lia).
  - destruct (Nat.eq_dec i i0) as [->|Ne]; [rewrite upd_same, app_length; cbn; lia|rewrite upd_other by assumption; lia].
  - rewrite (O3 eq_refl). change (avail i []) with 0. destruct (Nat.lt_ge_cases i N) as [L|L]; [rewrite avail_load; lia|].
    assert (avail i (load_all rs) = 0); [|lia].
    unfold load_all. apply avail_out. lia.
  - change (avail i []) with 0 in *. revert IH. destruct (Nat.eqb_spec i0 i) as [->|Ne]; intros IH.
    + rewrite upd_same. rewrite H0 in IH. cbn [length] in IH. lia.
    + rewrite upd_other by congruence. lia.
Qed.

Lemma drained_before s tr : overwritable = false -> ptrace s tr ->
  forall t1 e t2, tr = t1 ++ Interrupted e :: t2 -> reported t2 = [] -> interrupts t2 = [] ->
     pendingErr s = Some e /\ pc s <> PWaiting /\
     (pc s = PCheck \/ forall i, i < N -> length (produced i t1) <= length (returned i tr) + avail i (loaded s)).
Proof.
  intros Ho H. induction H as [|s tr l t H IH Hs]; intros t1 e t2 E Hr Hi.
  - destruct t1; discriminate.
  - destruct t2 as [|y t2 _] using rev_ind.
    + apply app_inj_tail in E. destruct E as [-> ->]. inversion Hs; subst; cbn.
      split; [reflexivity|]. split; [discriminate|left; reflexivity].
    + change (t1 ++ Interrupted e :: t2 ++ [y]) with (t1 ++ (Interrupted e :: t2) ++ [y]) in E.
      rewrite app_assoc in E. apply app_inj_tail in E. destruct E as [-> ->].
      unfold reported, interrupts in Hr, Hi. rewrite flat_map_app in Hr, Hi.
      apply app_eq_nil in Hr. apply app_eq_nil in Hi. destruct Hr as [Hr Hr'], Hi as [Hi Hi'].
      destruct (IH t1 e t2 eq_refl Hr Hi) as (D & Nw & P).
      assert (Hf : forall i, produced i (t1 ++ Interrupted e :: t2) = returned i (t1 ++ Interrupted e :: t2) ++ rings s i)
        by (intros i; apply fifo; assumption).
      assert (Hlen : forall i, length (produced i t1) <= length (returned i (t1 ++ Interrupted e :: t2)) + length (rings s i)).
      { intros i. specialize (Hf i). apply (f_equal (@length A)) in Hf. rewrite app_length in Hf.
        unfold produced in Hf |- *. rewrite flat_map_app, app_length in Hf. lia. }
      assert (Hret : forall i y0, (forall j x, y0 <> Returned j x) ->
                 returned i ((t1 ++ Interrupted e :: t2) ++ [y0]) = returned i (t1 ++ Interrupted e :: t2)).
      { intros i y0 Hy. unfold returned. rewrite (flat_map_app _ (t1 ++ _) [y0]). destruct y0; cbn; rewrite ?app_nil_r; try reflexivity.
        exfalso. eapply Hy; reflexivity. }
      destruct Hs; cbn [pendingErr pc loaded rings] in *; cbn in Hr', Hi'; try discriminate;
        try rewrite Ho in *; cbn in *; try discriminate; try contradiction;
        try (split; [assumption|split; [assumption || discriminate|]];
             destruct P as [P|P]; [try (left; assumption); try discriminate|right; intros k Hk; rewrite Hret by discriminate; apply P; assumption]).
      all: try (split; [assumption|split; [discriminate|]]; right; intros k Hk; rewrite ?Hret by discriminate).
      * rewrite avail_app, avail_load by assumption. specialize (Hlen k). lia.
      * destruct P as [P|P]; [discriminate|]. specialize (P k Hk). rewrite avail_app in P. cbn in P.
        destruct (Nat.eqb i k); cbn in P; lia.
      * destruct P as [P|P]; [discriminate|]. specialize (P k Hk). rewrite avail_app in *. cbn in *.
        unfold returned in *. rewrite (flat_map_app _ (t1 ++ _) [Returned i x]), app_length. cbn.
        destruct (Nat.eqb_spec i k); cbn in *; lia.
Qed.

Lemma ptrace_snoc s tr l : ptrace s (tr ++ [l]) -> exists s1, ptrace s1 tr /\ pstep s1 l s.
Proof.
  intros H. remember (tr ++ [l]) as k eqn:E. destruct H as [|s1 tr' e' t H1 H2]; [destruct tr; discriminate|].
  apply app_inj_tail in E. destruct E as [-> ->]. eauto.
Qed.
Lemma ptrace_prefix s a b : ptrace s (a ++ b) -> exists s1, ptrace s1 a.
Proof.
  revert s. induction b as [|x b IH] using rev_ind; intros s H; [rewrite app_nil_r in H; eauto|].
  rewrite app_assoc in H. apply ptrace_snoc in H. destruct H as (s1 & H & _). eauto.
Qed.

Lemma report_after_drain s t1 e t2 e' t3 : overwritable = false ->
  ptrace s (t1 ++ Interrupted e :: t2 ++ ReturnedErr e' :: t3) ->
  reported t2 = [] ->
  e' = e /\ forall i, i < N -> exists rest, returned i (t1 ++ Interrupted e :: t2) = produced i t1 ++ rest.
Proof.
  intros Ho H Hr.
  replace (t1 ++ Interrupted e :: t2 ++ ReturnedErr e' :: t3)
    with (((t1 ++ Interrupted e :: t2) ++ [ReturnedErr e']) ++ t3) in H
    by (rewrite <- !app_assoc; reflexivity).
  apply ptrace_prefix in H. destruct H as [s1 H]. apply ptrace_snoc in H. destruct H as (s2 & H & Hs).
  pose proof (once _ _ H) as [Hon _].
  assert (Hi : interrupts t2 = []).
  { unfold interrupts, reported in *. rewrite !flat_map_app in Hon. cbn in Hon. rewrite Hr in Hon.
    rewrite app_nil_r in Hon.
    assert (H0 : exists s0, ptrace s0 (t1 ++ [Interrupted e])).
    { replace (t1 ++ Interrupted e :: t2) with ((t1 ++ [Interrupted e]) ++ t2) in H by (rewrite <- app_assoc; reflexivity).
      eapply ptrace_prefix; eassumption. }
    destruct H0 as [s0 H0].
    apply ptrace_snoc in H0. destruct H0 as (s3 & H3 & Hs3). pose proof (once _ _ H3) as (Ho3 & Hw3 & _).
    unfold interrupts, reported in Ho3.
    inversion Hs3; subst. cbn in Hw3, Ho3. destruct (Hw3 eq_refl) as [-> _]. cbn in Ho3. rewrite app_nil_r in Ho3.
    rewrite Ho3 in Hon. destruct (pendingErr s2) as [d'|]; cbn in Hon.
    - apply app_inv_head in Hon. apply (f_equal (@tl ierr)) in Hon. exact Hon.
    - apply app_inv_head in Hon. discriminate. }
  destruct (drained_before _ _ Ho H t1 e t2 eq_refl Hr Hi) as (D & _ & P).
  pose proof (fun i => fifo _ _ i H) as F.
  inversion Hs; subst. cbn in D, P. split; [congruence|]. intros i Hlt.
  destruct P as [P|P]; [discriminate|]. specialize (P i Hlt). rewrite Nat.add_0_r in P.
  specialize (F i). unfold produced in F. rewrite flat_map_app in F. fold (produced i t1) in F.
  set (R := returned i (t1 ++ Interrupted e :: t2)) in *.
  set (Q := flat_map _ (Interrupted e :: t2)) in F.
  exists (firstn (length R - length (produced i t1)) Q).
  clear - F P. revert F P. generalize (produced i t1) as a. generalize R as b. intros b a F P.
  assert (E : firstn (length b) (a ++ Q) = b) by (rewrite F, firstn_app, Nat.sub_diag, firstn_all; cbn; apply app_nil_r).
  rewrite firstn_app, firstn_all2 in E by assumption. congruence.
Qed.
End D.
Arguments pst : clear implicits.
Arguments plabel : clear implicits.

(** An overwritable reader that is resumed while a read waits: the pending deadline error survives the
    errMustBePaused return and is reported by the next read although the ring holds a record. *)
Lemma overwritable_undrained : exists s : pst nat,
  ptrace 1 true s [Tau; Tau; Tau; Produced 0 7; Interrupted Deadline; MustBePaused; Tau; Tau; ReturnedErr Deadline]
  /\ rings s 0 = [7].
Proof.
  exists (mkP (upd (fun _ => []) 0 [7]) [] None true PIdle). split; [|reflexivity].
  apply (pt_step _ _ (mkP (upd (fun _ => []) 0 [7]) [] (Some Deadline) true PTop) [Tau; Tau; Tau; Produced 0 7; Interrupted Deadline; MustBePaused; Tau; Tau]); [|apply p_report].
  apply (pt_step _ _ (mkP (upd (fun _ => []) 0 [7]) [] (Some Deadline) true PIdle) [Tau; Tau; Tau; Produced 0 7; Interrupted Deadline; MustBePaused; Tau]); [|apply p_call; reflexivity].
  apply (pt_step _ _ (mkP (upd (fun _ => []) 0 [7]) [] (Some Deadline) false PIdle) [Tau; Tau; Tau; Produced 0 7; Interrupted Deadline; MustBePaused]); [|apply p_pause; left; reflexivity].
  apply (pt_step _ _ (mkP (upd (fun _ => []) 0 [7]) [] (Some Deadline) false PCheck) [Tau; Tau; Tau; Produced 0 7; Interrupted Deadline]); [|apply p_check_err; reflexivity].
  apply (pt_step _ _ (mkP (upd (fun _ => []) 0 [7]) [] None false PWaiting) [Tau; Tau; Tau; Produced 0 7]); [|apply p_interrupt].
  apply (pt_step _ _ (mkP (fun _ => []) [] None false PWaiting) [Tau; Tau; Tau]); [|apply (p_produce _ _ (fun _ => [])); lia].
  apply (pt_step _ _ (mkP (fun _ => []) [] None true PWaiting) [Tau; Tau]); [|apply p_resume; right; reflexivity].
  apply (pt_step _ _ (mkP (fun _ => []) [] None true PTop) [Tau]); [|apply p_wait].
  apply (pt_step _ _ (mkP (fun _ => []) [] None true PIdle) []); [apply pt_init|apply p_call; reflexivity].
Qed.
