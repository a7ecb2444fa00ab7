From Coq Require Import ZArith List Lia Bool.
From Verif.Ringbuf Require Import Lease.
Import ListNotations.

Definition in_section (p : gpc) : bool :=
  match p with GEnterClosed | GEnterFail | GCallback | GLeave => true | _ => false end.
Definition in_close (p : gpc) : bool :=
  match p with GClosePoller | GCloseSpin | GCloseRing => true | _ => false end.

Record LInv (s : lst) : Prop := {
  li_in : forall g, in_section (gs s g) = true -> inflight s = true;
  li_one : forall g h, in_section (gs s g) = true -> in_section (gs s h) = true -> g = h;
  li_close : forall g, in_close (gs s g) = true -> closed s = true /\ mapped s = true;
  li_close1 : forall g h, in_close (gs s g) = true -> in_close (gs s h) = true -> g = h;
  li_ring : forall g h, gs s g = GCloseRing -> gs s h <> GCallback;
  li_unm : mapped s = false -> closed s = true /\ forall h, gs s h <> GCallback /\ in_close (gs s h) = false
}.

Lemma setg_same f g p : setg f g p g = p.
Proof. unfold setg. rewrite Nat.eqb_refl. reflexivity. Qed.
Lemma setg_other f g p h : h <> g -> setg f g p h = f h.
Proof. unfold setg. intros. destruct (Nat.eqb_spec h g); [contradiction|reflexivity]. Qed.

Ltac setg_cases :=
  repeat match goal with
  | H : context[setg ?f ?g ?p ?h] |- _ =>
      first [ rewrite setg_same in H
            | destruct (Nat.eq_dec h g) as [->|?];
              [rewrite setg_same in H | rewrite setg_other in H by assumption] ]
  | |- context[setg ?f ?g ?p ?h] =>
      first [ rewrite setg_same
            | destruct (Nat.eq_dec h g) as [->|?];
              [rewrite setg_same | rewrite setg_other by assumption] ]
  end.

Lemma linv_init : LInv linit.
Proof. constructor; cbn; intros; try discriminate; try congruence. Qed.


Ltac rwpc :=
  repeat match goal with
  | X : gs ?s ?g = _, Y : context[in_section (gs ?s ?g)] |- _ => rewrite X in Y; cbn in Y
  | X : gs ?s ?g = _, Y : context[in_close (gs ?s ?g)] |- _ => rewrite X in Y; cbn in Y
  end.

Ltac base :=
  unfold upd; cbn [inflight closed mapped gs]; intros; setg_cases; cbn in *;
  try discriminate; try congruence; rwpc; try discriminate; eauto.

Lemma linv_step s e t : LInv s -> lstep s e t -> LInv t.
Proof.
  intros I H.
  destruct H as [s g H|s g H Hf|s g H Hf|s g H Hf|s g H Hf|s g H|s g H|s g H|s g H|s g H|s g H Hf|s g H Hf
                |s g H|s g H|s g H Hf|s g H Hf|s g H|s g H|s g H]; try exact I;
  pose proof (li_in s I) as I1; pose proof (li_one s I) as I2; pose proof (li_close s I) as I3;
  pose proof (li_close1 s I) as I4; pose proof (li_ring s I) as I5; pose proof (li_unm s I) as I6;
  assert (Iin : in_section (gs s g) = true -> forall h, in_section (gs s h) = true -> h = g) by (intros; apply I2; assumption);
  assert (Icl : in_close (gs s g) = true -> forall h, in_close (gs s h) = true -> h = g) by (intros; apply I4; assumption);
  assert (Iun : mapped s = false -> in_close (gs s g) = false) by (intros X; apply (proj2 (I6 X)));
  assert (Ia : in_section (gs s g) = true -> inflight s = true) by (apply I1);
  assert (Ib : in_close (gs s g) = true -> closed s = true /\ mapped s = true) by (apply I3);
  assert (Ic : closed s = false -> mapped s = true)
    by (intros X; destruct (mapped s); [reflexivity|destruct (I6 eq_refl); congruence]);
  rewrite H in Iin, Icl, Iun, Ia, Ib; cbn in Iin, Icl, Iun, Ia, Ib;
  assert (Icb : forall h, gs s h = GCallback -> in_section (gs s h) = true) by (intros h ->; reflexivity);
  assert (Irg : forall h, gs s h = GCloseRing -> in_close (gs s h) = true) by (intros h ->; reflexivity).
  all: constructor; unfold upd; cbn [inflight closed mapped gs]; intros; setg_cases; cbn in *;
    try discriminate; try congruence; eauto.
  all: try (match goal with X : mapped _ = false |- _ => specialize (I6 X); destruct I6 as [I6a I6b] end).
  all: try (split; [solve [assumption|reflexivity|congruence]|intros; setg_cases; cbn; try (split; [discriminate|reflexivity]); try apply I6b]).
  all: repeat match goal with
       | X : in_section (gs ?s ?h) = true, I1 : forall g, in_section (gs ?s g) = true -> inflight ?s = true |- _ =>
           match goal with Y : inflight s = true |- _ => fail 1 | _ => pose proof (I1 h X) end
       | X : in_close (gs ?s ?h) = true, I1 : forall g, in_close (gs ?s g) = true -> _ |- _ =>
           match goal with Y : closed s = true, Z : mapped s = true |- _ => fail 1 | _ => destruct (I1 h X) end
       end; try congruence.
  all: try match goal with
      | N : ?h <> ?g, X : in_section (gs ?s ?h) = true |- _ => exfalso; apply N; auto
      | N : ?h <> ?g, X : in_close (gs ?s ?h) = true |- _ => exfalso; apply N; auto
      end.
  all: try (exact (Ia eq_refl)).
  all: try (exact (Ib eq_refl)).
  all: try (match goal with X : gs ?s ?h = GCloseRing, I3 : forall g, in_close (gs ?s g) = true -> _ |- _ =>
              destruct (I3 h (Irg h X)); congruence end).
  all: try (exact (Ic Hf)).
  all: try (destruct (Ib eq_refl); congruence).
  - intros E. rewrite (I1 _ (Icb _ E)) in Hf. discriminate.
  - split; [apply (Ib eq_refl)|]. intros h. setg_cases; cbn; [split; [discriminate|reflexivity]|].
    split; [eapply I5; eassumption|]. destruct (in_close (gs s h)) eqn:E; [|reflexivity].
    exfalso. apply n. apply Icl; [reflexivity|assumption].
Qed.

Lemma ltrace_inv s tr : ltrace s tr -> LInv s.
Proof. induction 1; [apply linv_init|eapply linv_step; eassumption]. Qed.

Definition unmaps (tr : list event) : nat :=
  length (filter (fun e => match e with EvUnmap _ => true | _ => false end) tr).

Lemma unmaps_app a b : unmaps (a ++ b) = (unmaps a + unmaps b)%nat.
Proof. unfold unmaps. rewrite filter_app, app_length. reflexivity. Qed.

Lemma unmap_count s tr : ltrace s tr -> unmaps tr = if mapped s then 0%nat else 1%nat.
Proof.
  induction 1 as [|s tr e t Ht IH Hs]; [reflexivity|].
  pose proof (ltrace_inv _ _ Ht) as I. rewrite unmaps_app, IH.
  destruct Hs; cbn; try lia.
  pose proof (li_close s I g) as J. rewrite H in J. destruct (J eq_refl) as [_ ->]. reflexivity.
Qed.

Lemma ltrace_snoc_inv s tr e : ltrace s (tr ++ [e]) -> exists s1, ltrace s1 tr /\ lstep s1 e s.
Proof.
  intros H. remember (tr ++ [e]) as l eqn:E. destruct H as [|s1 tr' e' t H1 H2]; [destruct tr; discriminate|].
  apply app_inj_tail in E. destruct E as [-> ->]. eauto.
Qed.

(** A step back: what was true when an event of the trace happened. *)
Lemma ltrace_app_inv s tr1 e tr2 : ltrace s (tr1 ++ e :: tr2) ->
  exists s1 s2, ltrace s1 tr1 /\ lstep s1 e s2.
Proof.
  revert s. induction tr2 as [|x tr2 IH] using rev_ind; intros s H.
  - apply ltrace_snoc_inv in H. destruct H as (s1 & H1 & H2). eauto.
  - replace (tr1 ++ e :: tr2 ++ [x]) with ((tr1 ++ e :: tr2) ++ [x]) in H by (rewrite <- app_assoc; reflexivity).
    apply ltrace_snoc_inv in H. destruct H as (s1 & H1 & H2). eauto.
Qed.

Lemma unmap_in_pos tr g : In (EvUnmap g) tr -> (1 <= unmaps tr)%nat.
Proof.
  intros H. apply in_split in H. destruct H as (a & b & ->). rewrite unmaps_app. cbn. lia.
Qed.

(** No callback starts, and no callback runs or touches memory, after the release. *)
Lemma no_run_after_unmap s tr1 g tr2 h :
  ltrace s (tr1 ++ EvRun h :: tr2) -> ~ In (EvUnmap g) tr1.
Proof.
  intros H Hin. destruct (ltrace_app_inv _ _ _ _ H) as (s1 & s2 & H1 & H2).
  pose proof (unmap_count _ _ H1) as C. pose proof (unmap_in_pos _ _ Hin).
  pose proof (ltrace_inv _ _ H1) as I.
  destruct (mapped s1) eqn:Em; [lia|]. destruct (li_unm _ I Em) as [Hc _].
  inversion H2; subst. congruence.
Qed.

Lemma no_callback_after_unmap s tr g h :
  ltrace s tr -> In (EvUnmap g) tr -> gs s h <> GCallback.
Proof.
  intros H Hin. pose proof (unmap_count _ _ H) as C. pose proof (unmap_in_pos _ _ Hin).
  destruct (mapped s) eqn:Em; [lia|]. apply (li_unm _ (ltrace_inv _ _ H) Em).
Qed.

Lemma callback_mapped s tr h : ltrace s tr -> gs s h = GCallback -> mapped s = true.
Proof.
  intros H Hc. destruct (mapped s) eqn:Em; [reflexivity|].
  destruct (proj2 (li_unm _ (ltrace_inv _ _ H) Em) h) as [X _]. contradiction.
Qed.

Lemma one_callback s tr g h : ltrace s tr -> gs s g = GCallback -> gs s h = GCallback -> g = h.
Proof.
  intros H Hg Hh. apply (li_one _ (ltrace_inv _ _ H)); [rewrite Hg|rewrite Hh]; reflexivity.
Qed.

(** inflight is true exactly when some goroutine is between enter and leave *)
Lemma inflight_exact s tr : ltrace s tr -> inflight s = true -> exists g, in_section (gs s g) = true.
Proof.
  intros H. induction H as [|s tr e t Ht IH Hs]; [discriminate|].
  pose proof (ltrace_inv _ _ Ht) as I.
  destruct Hs as [s g H|s g H Hf|s g H Hf|s g H Hf|s g H Hf|s g H|s g H|s g H|s g H|s g H|s g H Hf|s g H Hf
                |s g H|s g H|s g H Hf|s g H Hf|s g H|s g H|s g H]; cbn; intros Hi; try discriminate;
    try (exact (IH Hi));
    try (exists g; rewrite setg_same; reflexivity);
    destruct (IH Hi) as [h Hh]; exists h;
    (destruct (Nat.eq_dec h g) as [->|N]; [rewrite H in Hh; discriminate|rewrite setg_other by assumption; exact Hh]).
Qed.

(** Close can always finish once no lease is active: the spin loop exits. *)
Lemma close_progress s tr g : ltrace s tr -> gs s g = GCloseSpin ->
  (forall h, in_section (gs s h) = false) ->
  exists t, lstep s EvTau t /\ gs t g = GCloseRing.
Proof.
  intros H Hg Hs. assert (Hi : inflight s = false).
  { destruct (inflight s) eqn:E; [|reflexivity]. destruct (inflight_exact s tr H E) as [h Hh]. rewrite Hs in Hh. discriminate. }
  eexists. split; [exact (C_spin_done s g Hg Hi)|]. cbn. apply setg_same.
Qed.
