(** C83: the Poller behind ring buffer and perf event readers, under every schedule. *)
From Coq Require Import List Bool Arith Lia ZArith.
From Verif Require Import Epoll.Poller Epoll.PollerProofs.
Import ListNotations.

(** ** Specification *)

(** Call [i] has returned [r]. *)
Definition waited (ts : list thread) (i m : nat) (d : bool) (r : wres) := nth_error ts i = Some (TWait m d (WDone r)).
Definition closed (ts : list thread) (i : nat) (r : res) := nth_error ts i = Some (TClose (CDone r)).
Definition flushed (ts : list thread) (i : nat) (r : res) := nth_error ts i = Some (TFlush (FDone r)).
Definition added (ts : list thread) (i fd : nat) (r : res) := nth_error ts i = Some (TAdd fd (ADone r)).
Definition finished (t : thread) : Prop :=
  match t with TWait _ _ (WDone _) | TClose (CDone _) | TFlush (FDone _) | TAdd _ (ADone _) => True | _ => False end.
(** Some call of Close (Flush) has at least started. *)
Definition closeCalled (ts : list thread) := exists i c, nth_error ts i = Some (TClose c).
Definition flushCalled (ts : list thread) := exists i f, nth_error ts i = Some (TFlush f).

(** A step that gets a call further: all but an epoll_wait interrupted by a signal. *)
Inductive moves : state -> state -> Prop :=
| mv : forall s ts i t s' t', nth_error ts i = Some t -> tstep i s t s' t' -> t' <> t -> moves (s, ts) (s', set_nth i t' ts).
Inductive movesN : nat -> state -> state -> Prop :=
| mv_0 : forall x, movesN 0 x x
| mv_S : forall n x y z, movesN n x y -> moves y z -> movesN (S n) x z.

(** ** Safety *)

(** No system call is made on a closed descriptor, no descriptor is closed twice and no nil
    eventfd is used, whatever the schedule; and the two locks are exclusive. *)
Theorem C83_safe : forall s ts, reachable (s, ts) -> bad s = false.
Proof. intros s ts R. apply (i_bad _ _ (inv_reachable _ _ R)). Qed.

Lemma woken_called : forall ts, some isWoken ts -> closeCalled ts.
Proof. intros ts (i & t & N & W). destruct t as [| c | |]; try discriminate. exists i, c. exact N. Qed.
Lemma flushed_called : forall ts, some isFlushed ts -> flushCalled ts.
Proof. intros ts (i & t & N & W). destruct t as [| |f|]; try discriminate. exists i, f. exact N. Qed.

(** What Wait returns: distinct fds that were added, as many as fit; ErrFlushed only if Flush
    was called, ErrClosed only if Close was, ErrDeadlineExceeded only with a deadline. *)
Theorem C83_wait : forall s ts i m d r, reachable (s, ts) -> waited ts i m d r ->
  match r with
  | ROk fds => NoDup fds /\ incl fds (regs s) /\ length fds <= m
  | RFlushed fds => NoDup fds /\ incl fds (regs s) /\ length fds < m /\ flushCalled ts
  | RClosed => closeCalled ts
  | RDeadline => d = true
  | RError => m = 0
  end.
Proof.
  intros s ts i m d r R W. pose proof (i_local _ _ (inv_reachable _ _ R) _ _ W) as L. cbn in L.
  destruct r; intuition (auto using woken_called, flushed_called).
Qed.

(** Close, Flush and Add fail with ErrClosed only if Close was called. *)
Theorem C83_errclosed : forall s ts i fd, reachable (s, ts) ->
  closed ts i Closed \/ flushed ts i Closed \/ added ts i fd Closed -> exists j c, nth_error ts j = Some (TClose c) /\ c <> CDone Closed.
Proof.
  intros s ts i fd R H.
  assert (W : some isWoken ts) by (destruct H as [H|[H|H]]; exact (i_local _ _ (inv_reachable _ _ R) _ _ H)).
  destruct W as (j & t & N & W). destruct t as [| c | |]; try discriminate. exists j, c. split; [exact N|]. intros ->. discriminate.
Qed.

Lemma later_inv : forall (P : state -> Prop), (forall x y, reachable x -> P x -> step x y -> P y) ->
  forall x y, reachable x -> P x -> steps x y -> P y.
Proof. intros P H x y R Px K. induction K; auto. eapply H; [| |eassumption]; auto. eapply reachable_steps; eauto. Qed.

(** Wait returns what epoll_wait reported: ErrClosed if the Poller is being closed, else all
    fds in their order, with ErrFlushed if there was a flush. *)
Definition isEv (e x : ev) : bool := match e, x with EClose, EClose | EFlush, EFlush => true | _, _ => false end.
Definition userFds (evs : list ev) : list nat := flat_map (fun e => match e with EUser f => [f] | _ => [] end) evs.
Definition outcome (evs : list ev) : wres :=
  if existsb (isEv EClose) evs then RClosed
  else if existsb (isEv EFlush) evs then RFlushed (userFds evs) else ROk (userFds evs).
Definition handling (evs : list ev) (w : wpc) : Prop :=
  match w with
  | WEvents rest fds fl => exists before, evs = before ++ rest /\ existsb (isEv EClose) before = false /\ fds = userFds before /\ fl = existsb (isEv EFlush) before
  | WRet r | WDone r => r = outcome evs
  | _ => False
  end.
Lemma handling_step : forall evs i m d s w s' w', wstep i m d s w s' w' -> handling evs w -> handling evs w'.
Proof.
  intros evs i m d s w s' w' H I. destruct H; cbn in *; auto; try contradiction.
  - destruct I as (b & -> & _). unfold outcome. rewrite existsb_app. cbn. rewrite orb_true_r. reflexivity.
  - destruct I as (b & -> & C & F & L). exists (b ++ [EFlush]). rewrite <- app_assoc. cbn. split; [reflexivity|]. rewrite !existsb_app, C. cbn.
    split; [reflexivity|]. split; [|rewrite orb_true_r; reflexivity]. unfold userFds in *. rewrite flat_map_app. cbn. rewrite app_nil_r. auto.
  - destruct I as (b & -> & C & F & L). exists (b ++ [EUser f]). rewrite <- app_assoc. cbn. split; [reflexivity|]. rewrite !existsb_app, C. cbn.
    split; [reflexivity|]. split; [|rewrite orb_false_r; auto]. unfold userFds in *. rewrite flat_map_app. cbn. congruence.
  - destruct I as (b & -> & C & F & L). rewrite app_nil_r. unfold outcome. rewrite C, <- L, <- F. destruct fl; reflexivity.
Qed.
Theorem C83_reports : forall s ts j m d evs, reachable (s, ts) -> nth_error ts j = Some (TWait m d WPoll) ->
  k_epoll s = true -> polled s m evs ->
  forall s' ts' r, steps (s, set_nth j (TWait m d (WEvents evs [] false)) ts) (s', ts') -> waited ts' j m d r -> r = outcome evs.
Proof.
  intros s ts j m d evs R N KE PE s' ts' r K W.
  set (x1 := (s, set_nth j (TWait m d (WEvents evs [] false)) ts)) in *.
  assert (R1 : reachable x1) by (eapply steps_next; [exact R|]; econstructor; [exact N|apply t_wait, w_events; auto]).
  set (P := fun x : state => exists w, nth_error (snd x) j = Some (TWait m d w) /\ handling evs w).
  assert (P0 : P x1).
  { exists (WEvents evs [] false). split; [eapply nth_set_same; eauto|]. exists []. repeat split; reflexivity. }
  assert (PS : P (s', ts')).
  { refine (later_inv P _ _ _ R1 P0 K). intros x y _ (w & N1 & H1) H.
    destruct H as [s0 ts0 i t s2 t' Ni H|s0 ts0 t H|s0 ts0 q]; unfold P; cbn [fst snd] in *.
    - destruct (Nat.eq_dec i j) as [<-|D].
      + rewrite Ni in N1. injection N1 as ->. inversion H; subst. exists w'. split; [eapply nth_set_same; eauto|eapply handling_step; eauto].
      + exists w. split; [erewrite nth_set_other by eauto; exact N1|exact H1].
    - exists w. split; [|exact H1]. rewrite nth_error_app1; auto. apply nth_error_Some; congruence.
    - exists w. auto. }
  destruct PS as (w & N1 & H1). unfold waited in W. cbn in N1. rewrite N1 in W. injection W as ->. exact H1.
Qed.

(** ** After Close *)

(** After a Close returned nil all descriptors are closed and stay so, and every call made
    from then on returns ErrClosed. *)
Definition late (n : nat) (x : state) : Prop :=
  p_epoll (fst x) = false /\ n <= length (snd x) /\
  forall j t, n <= j -> nth_error (snd x) j = Some t ->
    match t with
    | TWait _ _ w => w = WStart \/ w = WLocked \/ w = WRet RClosed \/ w = WDone RClosed
    | TClose c => c = CStart \/ c = CWake \/ c = CWakeFail \/ c = CDone Closed
    | TFlush f => f = FStart \/ f = FLocked \/ f = FRet Closed \/ f = FDone Closed
    | TAdd _ a => a = AStart \/ a = ALocked \/ a = ARet Closed \/ a = ADone Closed
    end.
Lemma late_step : forall n x y, reachable x -> late n x -> step x y -> late n y.
Proof.
  intros n x y R (P & Q & L) H. destruct H as [s ts i t s' t' N H|s ts t H|s ts r]; unfold late in *; cbn [fst snd] in *.
  - pose proof (inv_reachable _ _ R) as I. destruct (i_same _ _ I) as (S1 & S2 & _).
    destruct (step_rest _ _ _ _ _ H) as (_ & _ & _ & R4 & _).
    split; [auto|]. split; [erewrite length_set; eauto|]. intros j u Lj Nj. destruct (Nat.eq_dec i j) as [<-|D].
    + erewrite nth_set_same in Nj by eauto. injection Nj as <-. specialize (L i t Lj N).
      destruct H as [m d w s' w' H|c s' c' H|f s' f' H|fd a s' a' H]; destruct H;
        intuition (try discriminate; try congruence); injection H as ->; auto.
    + erewrite nth_set_other in Nj by eauto. exact (L j u Lj Nj).
  - split; [auto|]. split; [rewrite app_length; lia|]. intros j u Lj Nj. destruct (lt_dec j (length ts)) as [B|B].
    + rewrite nth_error_app1 in Nj by auto. exact (L j u Lj Nj).
    + rewrite nth_error_app2 in Nj by lia. destruct (j - length ts) as [|k]; cbn in Nj; [|destruct k; discriminate].
      injection Nj as <-. destruct H; auto.
  - split; auto.
Qed.
Theorem C83_after_close : forall s ts i, reachable (s, ts) -> closed ts i Nil ->
  forall s' ts', steps (s, ts) (s', ts') ->
    k_epoll s' = false /\ k_close s' = false /\ k_flush s' = false /\
    forall j t, length ts <= j -> nth_error ts' j = Some t -> finished t ->
      match t with
      | TWait m d w => w = WDone RClosed
      | TClose c => c = CDone Closed
      | TFlush f => f = FDone Closed
      | TAdd fd a => a = ADone Closed
      end.
Proof.
  intros s ts i R C s' ts' K.
  assert (L0 : late (length ts) (s, ts)).
  { split; [exact (i_local _ _ (inv_reachable _ _ R) _ _ C)|]. split; [cbn; lia|]. intros j t Lj Nj. cbn in Nj.
    assert (nth_error ts j = None) by (apply nth_error_None; auto). congruence. }
  pose proof (later_inv (late (length ts)) (late_step _) _ _ R L0 K) as (P & _ & L). cbn in *.
  destruct (i_same _ _ (inv_reachable _ _ (reachable_steps _ _ R K))) as (S1 & S2 & S3 & S4 & S5).
  repeat split; try congruence. intros j t Lj Nj F. specialize (L j t Lj Nj).
  destruct t as [m d w|c|f|fd a]; destruct L as [-> |[-> |[-> | ->]]]; cbn in F; tauto.
Qed.

(** Close interrupts Wait: a Wait that has not received its events when Close has woken it
    returns ErrClosed, unless its slice is filled with events of others. *)
Definition interrupted (m : nat) (w : wpc) : Prop :=
  match w with
  | WStart | WLocked | WPoll => True
  | WEvents rest fds fl => In EClose rest \/ length fds + length rest + (if fl then 1 else 0) = m
  | WRet (ROk fds) | WDone (ROk fds) => length fds = m
  | WRet (RFlushed fds) | WDone (RFlushed fds) => S (length fds) = m
  | WRet RClosed | WDone RClosed => True
  | WRet RDeadline | WDone RDeadline => False
  | WRet RError | WDone RError => True
  end.
Lemma int_wstep : forall i m d s ts w s' w', wstep i m d s w s' w' -> closeCnt s <> 0 -> local s ts (TWait m d w) -> interrupted m w -> interrupted m w'.
Proof.
  intros i m d s ts w s' w' H C L I. destruct H; cbn in *; auto; try discriminate.
  - exfalso. apply (H2 EClose). exact C.
  - destruct H0 as (_ & _ & _ & _ & [F|F]); [right; lia|left; apply F; exact C].
  - destruct I as [[I|I]|I]; [discriminate|auto|right; destruct fl; [|lia]].
    exfalso. destruct L as (_ & _ & _ & _ & _ & _ & _ & L). apply L; auto.
  - destruct I as [[I|I]|I]; [discriminate|auto|right; rewrite app_length; cbn; destruct fl; lia].
  - destruct I as [[]|I]. cbn in I. destruct fl; cbn; lia.
Qed.
Theorem C83_close_interrupts : forall s ts i j m d w, reachable (s, ts) -> nth_error ts i = Some (TClose CWakeOk) ->
  nth_error ts j = Some (TWait m d w) -> w = WStart \/ w = WLocked \/ w = WPoll -> m <> 0 ->
  forall s' ts' r, steps (s, ts) (s', ts') -> waited ts' j m d r ->
    match r with
    | RClosed => True
    | ROk fds => length fds = m
    | RFlushed fds => S (length fds) = m
    | RDeadline | RError => False
    end.
Proof.
  intros s ts i j m d w R C N W M s' ts' r K F.
  set (P := fun x : state => closeCnt (fst x) <> 0 /\ exists w, nth_error (snd x) j = Some (TWait m d w) /\ interrupted m w).
  assert (P0 : P (s, ts)).
  { split; cbn.
    - apply (i_woken2 _ _ (inv_reachable _ _ R)). exists i, (TClose CWakeOk). auto.
    - exists w. split; [exact N|]. destruct W as [-> |[-> | ->]]; exact I. }
  assert (PS : P (s', ts')).
  { refine (later_inv P _ _ _ R P0 K). clear - M. intros x y R (C & w & N & In) H.
    destruct H as [s ts i t s' t' Ni H|s ts t H|s ts q]; unfold P; cbn [fst snd] in *.
    - destruct (step_rest _ _ _ _ _ H) as (R1 & _). split; [lia|]. destruct (Nat.eq_dec i j) as [<-|D].
      + rewrite Ni in N. injection N as ->. pose proof (i_local _ _ (inv_reachable _ _ R) _ _ Ni) as L.
        inversion H; subst. exists w'. split; [eapply nth_set_same; eauto|]. eapply int_wstep; eauto.
      + exists w. split; [erewrite nth_set_other by eauto; exact N|exact In].
    - split; [exact C|]. exists w. split; [|exact In]. rewrite nth_error_app1; auto. apply nth_error_Some; congruence.
    - split; [exact C|]. exists w. auto. }
  destruct PS as (_ & w1 & N1 & I1). unfold waited in F. cbn in N1. rewrite N1 in F. injection F as ->.
  pose proof (i_local _ _ (inv_reachable _ _ (reachable_steps _ _ R K)) _ _ N1) as L. cbn in L, I1. destruct r; auto.
Qed.

(** ** Flush *)

(** A successful Flush is not lost: after it, a Wait called from then on returns ErrFlushed,
    or ErrClosed, or with a full slice, unless some Wait that had not returned when Flush
    wrote has taken the flush: it returns ErrFlushed or ErrClosed, or is about to. *)
Definition took (w : wpc) : Prop :=
  match w with
  | WEvents _ _ true => True
  | WRet r | WDone r => match r with RFlushed _ | RClosed => True | _ => False end
  | _ => False
  end.
Definition awaits (m : nat) (w : wpc) : Prop :=
  match w with
  | WStart | WLocked | WPoll => True
  | WEvents rest fds fl => fl = true \/ In EFlush rest \/ length fds + length rest = m
  | WRet r | WDone r => match r with ROk fds => length fds = m | RFlushed _ | RClosed | RError => True | RDeadline => False end
  end.
Definition undone (ts : list thread) (k : nat) : Prop := forall m d r, nth_error ts k <> Some (TWait m d (WDone r)).
Definition taken (ts0 ts : list thread) : Prop := exists k m d w, undone ts0 k /\ nth_error ts k = Some (TWait m d w) /\ took w.
Lemma took_step : forall i m d s w s' w', wstep i m d s w s' w' -> took w -> took w'.
Proof.
  intros i m d s w s' w' H T. destruct H; cbn in *; auto; destruct fl; auto.
Qed.
Lemma await_step : forall i m d s w s' w', wstep i m d s w s' w' -> flushCnt s <> 0 -> awaits m w -> awaits m w'.
Proof.
  intros i m d s w s' w' H C I. destruct H; cbn in *; auto; try discriminate.
  - exfalso. apply (H2 EFlush). exact C.
  - destruct H0 as (_ & _ & _ & _ & [F|F]); [right; right; lia|right; left; apply F; exact C].
  - destruct I as [I|[[I|I]|I]]; [auto|discriminate|auto|right; right; rewrite app_length; cbn; lia].
  - destruct fl; cbn; auto. destruct I as [I|[[]|I]]; [discriminate|]. lia.
Qed.
Lemma taken_step : forall ts0 x y, taken ts0 (snd x) -> step x y -> taken ts0 (snd y).
Proof.
  intros ts0 x y (k & m & d & w & U & N & T) H. destruct H as [s ts i t s' t' Ni H|s ts t H|s ts q]; cbn [fst snd] in *.
  - destruct (Nat.eq_dec i k) as [<-|D].
    + rewrite Ni in N. injection N as ->. inversion H; subst. exists i, m, d, w'.
      split; [exact U|]. split; [eapply nth_set_same; eauto|eapply took_step; eauto].
    + exists k, m, d, w. split; [exact U|]. split; [erewrite nth_set_other by eauto; exact N|exact T].
  - exists k, m, d, w. split; [exact U|]. split; [|exact T]. rewrite nth_error_app1; auto. apply nth_error_Some; congruence.
  - exists k, m, d, w. auto.
Qed.
Theorem C83_flush : forall s ts i s1 ts1, reachable (s, ts) -> nth_error ts i = Some (TFlush FLocked) ->
  tstep i s (TFlush FLocked) s1 (TFlush (FRet Nil)) -> ts1 = set_nth i (TFlush (FRet Nil)) ts ->
  forall s' ts' j m d r, steps (s1, ts1) (s', ts') -> length ts1 <= j -> waited ts' j m d r ->
    match r with
    | RFlushed _ | RClosed => True
    | ROk fds => length fds = m
    | RError => m = 0
    | RDeadline => False
    end \/ taken ts1 ts'.
Proof.
  intros s ts i s1 ts1 R N T E s' ts' j m d r K J W.
  assert (R1 : reachable (s1, ts1)) by (subst ts1; eapply steps_next; [exact R|]; econstructor; eauto).
  set (P := fun x : state => (forall k m d r, nth_error ts1 k = Some (TWait m d (WDone r)) -> nth_error (snd x) k = Some (TWait m d (WDone r))) /\
    (taken ts1 (snd x) \/
     flushCnt (fst x) <> 0 /\ forall j m d w, length ts1 <= j -> nth_error (snd x) j = Some (TWait m d w) -> awaits m w)).
  assert (P0 : P (s1, ts1)).
  { split; [auto|]. right. split.
    - cbn. inversion T; subst. match goal with H : fstep _ _ _ _ _ |- _ => inversion H; subst end. cbn. lia.
    - intros j0 m0 d0 w0 L0 N0. exfalso. apply nth_error_None in L0. cbn in N0. congruence. }
  assert (PS : P (s', ts')).
  { refine (later_inv P _ _ _ R1 P0 K). clear - E. intros x y R (U & In) H. split.
    - intros k m d r Nk. specialize (U k m d r Nk). destruct H as [s0 ts0 i0 t s2 t' Ni H|s0 ts0 t H|s0 ts0 q]; cbn [fst snd] in *; auto.
      + destruct (Nat.eq_dec i0 k) as [<-|D]; [|erewrite nth_set_other by eauto; exact U].
        rewrite Ni in U. injection U as ->. inversion H; subst. match goal with H : wstep _ _ _ _ _ _ _ |- _ => inversion H end.
      + rewrite nth_error_app1; auto. apply nth_error_Some; congruence.
    - destruct In as [In|(C & In)]; [left; eapply taken_step; eauto|].
      destruct H as [s0 ts0 k t s2 t' Nk H|s0 ts0 t H|s0 ts0 q]; cbn [fst snd] in *.
      + destruct (Nat.eq_dec (flushCnt s2) 0) as [Z|Z].
        * left. assert (Q : exists m d rest fds fl, t = TWait m d (WEvents (EFlush :: rest) fds fl) /\ t' = TWait m d (WEvents rest fds true)).
          { clear - Z C H. destruct H as [m d w s' w' H|c s' c' H|f s' f' H|fd a s' a' H]; destruct H; cbn in *; try congruence; eauto 10.
            - destruct (p_close s0); cbn in *; congruence.
            - destruct (p_close s0 && p_flush s0); cbn in *; congruence. }
          destruct Q as (m & d & rest & fds & fl & -> & ->).
          exists k, m, d, (WEvents rest fds true). split; [|split; [eapply nth_set_same; eauto|exact I]].
          intros m1 d1 r1 N1. apply U in N1. congruence.
        * right. split; [exact Z|]. intros j m d w Lj Nj. destruct (Nat.eq_dec k j) as [<-|D].
          -- erewrite nth_set_same in Nj by eauto. injection Nj as ->. inversion H; subst. eapply await_step; eauto.
          -- erewrite nth_set_other in Nj by eauto. eauto.
      + right. split; [exact C|]. intros j m d w Lj Nj. destruct (lt_dec j (length ts0)) as [B|B].
        * rewrite nth_error_app1 in Nj by auto. eauto.
        * rewrite nth_error_app2 in Nj by lia. destruct (j - length ts0) as [|k]; cbn in Nj; [|destruct k; discriminate].
          injection Nj as ->. inversion H; subst. exact I.
      + right. auto. }
  destruct PS as (_ & [PS|(_ & PS)]); [right; exact PS|]. left.
  pose proof (i_local _ _ (inv_reachable _ _ (reachable_steps _ _ R1 K)) _ _ W) as L. specialize (PS _ _ _ _ J W). cbn in PS, L. destruct r; auto.
Qed.

(** ** Progress *)

(** If no call can get further, all have returned, except that a Wait without deadline may be
    blocked in epoll_wait because nothing is ready, and calls of Wait, Add and Close may wait
    for it. *)
Definition blocked (s : shared) (t : thread) : Prop :=
  exists m, t = TWait m false WPoll /\ (forall e, ~ pending s e).

Lemma ev_eq_dec : forall a b : ev, {a = b} + {a <> b}.
Proof. repeat decide equality. Qed.
Lemma pending_dec : forall s e, {pending s e} + {~ pending s e}.
Proof.
  intros s [| |f]; cbn.
  - destruct (closeCnt s); [right; congruence|left; discriminate].
  - destruct (flushCnt s); [right; congruence|left; discriminate].
  - destruct (in_dec Nat.eq_dec f (regs s)), (in_dec Nat.eq_dec f (ready s)); tauto.
Qed.
Definition allPending (s : shared) : list ev :=
  nodup ev_eq_dec (filter (fun e => if pending_dec s e then true else false) (EClose :: EFlush :: map EUser (regs s))).
Lemma allPending_ok : forall s e, In e (allPending s) <-> pending s e.
Proof.
  intros s e. unfold allPending. rewrite nodup_In, filter_In. destruct (pending_dec s e) as [Q|Q]; [|split; [intros [_ X]; discriminate|tauto]].
  split; [tauto|]. intros _. split; [|reflexivity]. destruct e as [| |f]; cbn; auto. right; right. apply in_map. apply Q.
Qed.
Lemma poll_possible : forall s m, m <> 0 -> (exists e, pending s e) -> exists evs, polled s m evs.
Proof.
  intros s m M (e & P). exists (firstn m (allPending s)).
  assert (F : forall x, In x (firstn m (allPending s)) -> In x (allPending s)).
  { intros x H. rewrite <- (firstn_skipn m (allPending s)). apply in_or_app. auto. }
  repeat split.
  - apply allPending_ok in P. destruct m; [congruence|]. destruct (allPending s); [destruct P|discriminate].
  - assert (ND : NoDup (firstn m (allPending s) ++ skipn m (allPending s))) by (rewrite firstn_skipn; apply NoDup_nodup).
    clear - ND. induction (firstn m (allPending s)) as [|a l IH]; [constructor|]. cbn in ND. inversion ND; subst. constructor; auto.
    intro. apply H1. apply in_or_app; auto.
  - rewrite firstn_length. lia.
  - intros x H. apply allPending_ok. auto.
  - rewrite firstn_length. destruct (le_lt_dec m (length (allPending s))); [left; lia|right].
    intros x H. rewrite firstn_all2 by lia. apply allPending_ok; auto.
Qed.

Lemma thread_eq_dec : forall a b : thread, {a = b} + {a <> b}.
Proof. repeat decide equality. Qed.

Theorem C83_no_deadlock : forall s ts, reachable (s, ts) -> (forall y, ~ moves (s, ts) y) ->
  (forall i t, nth_error ts i = Some t -> finished t) \/
  exists i t, nth_error ts i = Some t /\ blocked s t /\
    forall j u, nth_error ts j = Some u -> j <> i ->
      finished u \/ (exists m d, u = TWait m d WStart) \/ (exists fd, u = TAdd fd AStart) \/ u = TClose CWoken.
Proof.
  intros s ts R ST. pose proof (inv_reachable _ _ R) as I.
  assert (NM : forall i t s' t', nth_error ts i = Some t -> tstep i s t s' t' -> t' = t).
  { intros i t s' t' N H. 
    destruct (thread_eq_dec t' t) as [D|D]; [exact D|]. exfalso. apply (ST (s', set_nth i t' ts)). econstructor; eauto. }
  destruct (i_same _ _ I) as (S1 & S2 & S3 & S4 & S5).
  (* nobody holds eventMu *)
  assert (V : eventMu s = None).
  { destruct (eventMu s) as [i|] eqn:E; [|reflexivity]. exfalso. apply (i_V _ _ I) in E. destruct E as (t & N & H).
    assert (G : exists s' t', tstep i s t s' t' /\ t' <> t).
    { destruct t as [m d w|c|f|fd a]; [discriminate| | |discriminate].
      - destruct c; try discriminate.
        + destruct (p_close s) eqn:P; eexists; eexists; (split; [apply t_close|]); [eapply c_add; auto|discriminate|eapply c_nil; auto|discriminate].
        + eexists; eexists; split; [apply t_close, c_fail|discriminate].
        + eexists; eexists; split; [apply t_close, c_woken|discriminate].
        + eexists; eexists; split; [apply t_close, c_close|discriminate].
        + eexists; eexists; split; [apply t_close, c_unlockV|discriminate].
      - destruct f; try discriminate.
        + destruct (p_flush s) eqn:P; eexists; eexists; (split; [apply t_flush|]); [eapply f_add; auto|discriminate|eapply f_nil; auto|discriminate].
        + eexists; eexists; split; [apply t_flush, f_unlock|discriminate]. }
    destruct G as (s' & t' & G & D). apply D. eapply NM; eauto. }
  assert (NOV : forall j u, nth_error ts j = Some u -> holdsV u = false).
  { intros j u N. destruct (holdsV u) eqn:H; [|reflexivity]. assert (eventMu s = Some j) by (apply (i_V _ _ I); eauto). congruence. }
  destruct (epollMu s) as [i|] eqn:E.
  - right. apply (i_E _ _ I) in E as E'. destruct E' as (t & N & H). exists i, t. split; [exact N|]. split.
    + pose proof (i_local _ _ I _ _ N) as L. destruct t as [m d w|c|f|fd a]; [| |discriminate|].
      * destruct w as [| | |rest fds fl|r|r]; try discriminate.
        -- exfalso. destruct (p_epoll s) eqn:P; [assert (X := NM _ _ _ _ N (t_wait _ _ _ _ _ _ _ (w_open _ _ _ _ P)))|assert (X := NM _ _ _ _ N (t_wait _ _ _ _ _ _ _ (w_closed _ _ _ _ P)))]; discriminate.
        -- cbn in L. rewrite L in S3. destruct m as [|m].
           { exfalso. assert (X := NM _ _ _ _ N (t_wait _ _ _ _ _ _ _ (w_einval i 0 d s S3 eq_refl))); discriminate. }
           assert (NP : forall e, ~ pending s e).
           { intros e P. destruct (poll_possible s (S m)) as (evs & Q); [discriminate|eauto|].
             assert (X := NM _ _ _ _ N (t_wait _ _ _ _ _ _ _ (w_events i (S m) d s evs S3 Q))); discriminate. }
           destruct d; [|exists (S m); auto].
           exfalso. assert (X := NM _ _ _ _ N (t_wait _ _ _ _ _ _ _ (w_timeout i (S m) true s S3 ltac:(discriminate) eq_refl NP))); discriminate.
        -- exfalso. destruct rest as [|e rest].
           ++ assert (X := NM _ _ _ _ N (t_wait _ _ _ _ _ _ _ (w_end i m d s fds fl))). discriminate.
           ++ destruct e as [| |u].
              ** assert (X := NM _ _ _ _ N (t_wait _ _ _ _ _ _ _ (w_close i m d s rest fds fl))). discriminate.
              ** assert (Q : flushCnt s <> 0) by (apply L; left; reflexivity).
                 assert (X := NM _ _ _ _ N (t_wait _ _ _ _ _ _ _ (w_flush i m d s rest fds fl Q))). injection X as X _.
                 clear - X. assert (length rest = length (EFlush :: rest)) by congruence. cbn in *. lia.
              ** assert (X := NM _ _ _ _ N (t_wait _ _ _ _ _ _ _ (w_user i m d s u rest fds fl))). injection X as X _.
                 clear - X. assert (length rest = length (EUser u :: rest)) by congruence. cbn in *. lia.
        -- exfalso. assert (X := NM _ _ _ _ N (t_wait _ _ _ _ _ _ _ (w_unlock i m d s r))). discriminate.
      * exfalso. pose proof (NOV _ _ N) as HV. destruct c; try discriminate.
        -- assert (X := NM _ _ _ _ N (t_close _ _ _ _ _ (c_lockV2 i s V))). discriminate.
        -- assert (X := NM _ _ _ _ N (t_close _ _ _ _ _ (c_unlockE i s))). discriminate.
      * exfalso. destruct a; try discriminate.
        -- destruct (p_epoll s) eqn:P; [assert (X := NM _ _ _ _ N (t_add _ _ _ _ _ _ (a_add i fd s P)))|assert (X := NM _ _ _ _ N (t_add _ _ _ _ _ _ (a_closed i fd s P)))]; discriminate.
        -- assert (X := NM _ _ _ _ N (t_add _ _ _ _ _ _ (a_unlock i fd s r))). discriminate.
    + intros j u Nj D. pose proof (NOV _ _ Nj) as HV.
      assert (HE : holdsE u = false).
      { destruct (holdsE u) eqn:Hu; [|reflexivity]. exfalso. apply D. eapply holder_excl; eauto. }
      destruct u as [m d w|c|f|fd a].
      * destruct w; try discriminate; [right; left; eauto|left; exact Logic.I].
      * destruct c; try discriminate; [|right; right; right; reflexivity|left; exact Logic.I].
        exfalso. assert (X := NM _ _ _ _ Nj (t_close _ _ _ _ _ (c_lockV j s V))). discriminate.
      * destruct f; try discriminate; [|left; exact Logic.I].
        exfalso. assert (X := NM _ _ _ _ Nj (t_flush _ _ _ _ _ (f_lock j s V))). discriminate.
      * destruct a; try discriminate; [right; right; left; eauto|left; exact Logic.I].
  - left. intros j u Nj. pose proof (NOV _ _ Nj) as HV.
    assert (HE : holdsE u = false).
    { destruct (holdsE u) eqn:Hu; [|reflexivity]. assert (epollMu s = Some j) by (apply (i_E _ _ I); eauto). congruence. }
    destruct u as [m d w|c|f|fd a].
    + destruct w; try discriminate; [|exact Logic.I]. assert (X := NM _ _ _ _ Nj (t_wait _ _ _ _ _ _ _ (w_lock j m d s E))). discriminate.
    + destruct c; try discriminate; [| |exact Logic.I].
      * assert (X := NM _ _ _ _ Nj (t_close _ _ _ _ _ (c_lockV j s V))). discriminate.
      * assert (X := NM _ _ _ _ Nj (t_close _ _ _ _ _ (c_lockE j s E))). discriminate.
    + destruct f; try discriminate; [|exact Logic.I]. assert (X := NM _ _ _ _ Nj (t_flush _ _ _ _ _ (f_lock j s V))). discriminate.
    + destruct a; try discriminate; [|exact Logic.I]. assert (X := NM _ _ _ _ Nj (t_add _ _ _ _ _ _ (a_lock j fd s E))). discriminate.
Qed.

(** The calls made so far take a bounded number of steps, interrupted epoll_waits aside; and
    once a Close has woken the others, they all return. *)
Definition rank (t : thread) : nat :=
  match t with
  | TWait m _ w => match w with WStart => m + 5 | WLocked => m + 4 | WPoll => m + 3 | WEvents rest _ _ => length rest + 2 | WRet _ => 1 | WDone _ => 0 end
  | TClose c => match c with CStart => 9 | CWake => 8 | CWakeFail => 1 | CWakeOk => 7 | CWoken => 6 | CEpoll => 5 | CBoth => 4 | CClosed => 3 | CUnlocked => 2 | CDone _ => 0 end
  | TFlush f => match f with FStart => 3 | FLocked => 2 | FRet _ => 1 | FDone _ => 0 end
  | TAdd _ a => match a with AStart => 3 | ALocked => 2 | ARet _ => 1 | ADone _ => 0 end
  end.
Definition work (ts : list thread) : nat := list_sum (map rank ts).
Lemma rank_step : forall i s t s' t', tstep i s t s' t' -> t' <> t -> rank t' < rank t.
Proof.
  intros i s t s' t' H D; destruct H as [m d w s' w' H|c s' c' H|f s' f' H|fd a s' a' H]; destruct H; cbn; try lia; try congruence.
  destruct H0 as (_ & _ & L & _). lia.
Qed.
Lemma work_set : forall ts i t t', nth_error ts i = Some t -> work (set_nth i t' ts) + rank t = work ts + rank t'.
Proof.
  induction ts as [|a ts IH]; intros [|i] t t' H; try discriminate.
  - injection H as ->. unfold work, set_nth. cbn. lia.
  - specialize (IH _ _ t' H). change (set_nth (S i) t' (a :: ts)) with (a :: set_nth i t' ts).
    change (work (a :: set_nth i t' ts)) with (rank a + work (set_nth i t' ts)). change (work (a :: ts)) with (rank a + work ts). lia.
Qed.
Theorem C83_bounded : forall n s ts y, movesN n (s, ts) y -> n + work (snd y) <= work ts.
Proof.
  intros n s ts y H. remember (s, ts) as x eqn:E. revert E. induction H as [x|n x y z H IH K]; intros ->; [cbn [snd]; lia|].
  specialize (IH eq_refl). destruct K as [s0 ts0 i t s' t' N T D]. cbn [snd] in *. pose proof (work_set _ _ _ t' N). pose proof (rank_step _ _ _ _ _ T D). lia.
Qed.
Theorem C83_close_ends : forall s ts i, reachable (s, ts) -> nth_error ts i = Some (TClose CWakeOk) ->
  forall s' ts', steps (s, ts) (s', ts') -> (forall y, ~ moves (s', ts') y) -> forall j t, nth_error ts' j = Some t -> finished t.
Proof.
  intros s ts i R N s' ts' K S.
  assert (C : closeCnt s' <> 0).
  { assert (C0 : closeCnt (fst (s, ts)) <> 0) by (apply (i_woken2 _ _ (inv_reachable _ _ R)); exists i, (TClose CWakeOk); auto).
    refine (later_inv (fun x => closeCnt (fst x) <> 0) _ _ _ R C0 K). intros x y _ C1 H. destruct H as [s0 ts0 i0 t s2 t' Ni H| |]; cbn in *; auto.
    destruct (step_rest _ _ _ _ _ H) as (R1 & _). lia. }
  destruct (C83_no_deadlock _ _ (reachable_steps _ _ R K) S) as [F|(k & t & _ & (m & _ & P) & _)]; [exact F|].
  exfalso. apply (P EClose). exact C.
Qed.

(** ** Deadlines *)

(** For a deadline less than 2^31 ms away epoll_wait is given the time that remains, less the
    part below a millisecond; for one that has passed it does not block. *)
Theorem C83_deadline : forall ns, (ns < 2 ^ 31 * 1000000)%Z ->
  (let t := kernelTimeout (timeout ns) in
   0 <= t /\ (ns <= 0 -> t = 0) /\ (0 <= ns -> t * 1000000 <= ns < (t + 1) * 1000000))%Z.
Proof.
  intros ns H t. subst t. unfold timeout.
  destruct (Z_le_gt_dec ns 0) as [N|N].
  - assert (Q : (Z.quot (Z.max (- 2 ^ 63) (Z.min ns (2 ^ 63 - 1))) 1000000 <= 0)%Z).
    { rewrite <- (Z.opp_involutive (Z.max _ _)). rewrite Z.quot_opp_l by lia. pose proof (Z.quot_pos (- Z.max (- 2 ^ 63) (Z.min ns (2 ^ 63 - 1))) 1000000). lia. }
    rewrite Z.max_r by exact Q. cbn. lia.
  - replace (Z.max (- 2 ^ 63) (Z.min ns (2 ^ 63 - 1))) with ns by lia.
    rewrite Z.quot_div_nonneg by lia. pose proof (Z.div_mod ns 1000000). pose proof (Z.mod_pos_bound ns 1000000).
    assert (B : (0 <= ns / 1000000 < 2 ^ 31)%Z) by (split; [apply Z.div_pos; lia|apply Z.div_lt_upper_bound; lia]).
    rewrite Z.max_l by lia. rewrite Z.min_l by lia. unfold kernelTimeout. rewrite Z.mod_small by lia.
    destruct (Z.ltb_spec (ns / 1000000) (2 ^ 31)); lia.
Qed.
(** So Wait may report that the deadline is reached up to a millisecond before it is. *)
Theorem C83_early_refuted : ~ forall ns, (0 < ns -> 0 < kernelTimeout (timeout ns))%Z.
Proof. intro H. specialize (H 999999%Z eq_refl). vm_compute in H. discriminate. Qed.
(** A deadline 2^31 ms (25 days) away blocks forever, and one 2^32 ms (50 days) away does not
    block at all: the argument of epoll_wait has 32 bits. *)
Theorem C83_far_refuted : (kernelTimeout (timeout (2 ^ 31 * 1000000)) = - 2 ^ 31 /\ kernelTimeout (timeout (2 ^ 32 * 1000000)) = 0)%Z.
Proof. split; reflexivity. Qed.

(** ** Examples *)

(** A blocked Wait, an fd and a flush received, and Close. *)
Definition t1 : list thread := [TAdd 7 (ADone Nil); TWait 3 false (WDone (RFlushed [7])); TFlush (FDone Nil); TWait 2 true (WDone RClosed); TClose (CDone Nil)].
Lemma next : forall x y, reachable x -> step x y -> reachable y.
Proof. intros x y R H. eapply steps_next; eauto. Qed.
Theorem C83_session : exists s, reachable (s, t1) /\ k_epoll s = false /\ closed t1 4 Nil.
Proof.
  assert (R : reachable new) by constructor.
  apply next with (y := (fst new, [TAdd 7 AStart])) in R; [|apply (st_call _ [] _ (s_add 7))].
  eapply next in R; [|eapply (st_thread _ _ 0); [reflexivity|apply t_add, a_lock; reflexivity]].
  eapply next in R; [|eapply (st_thread _ _ 0); [reflexivity|apply t_add, a_add; reflexivity]].
  eapply next in R; [|eapply (st_thread _ _ 0); [reflexivity|apply t_add, a_unlock]].
  eapply next in R; [|eapply st_call, (s_wait 3 false)].
  eapply next in R; [|eapply (st_thread _ _ 1); [reflexivity|apply t_wait, w_lock; reflexivity]].
  eapply next in R; [|eapply (st_thread _ _ 1); [reflexivity|apply t_wait, w_open; reflexivity]].
  eapply next in R; [|eapply (st_thread _ _ 1); [reflexivity|apply t_wait, w_eintr; reflexivity]].
  eapply next in R; [|eapply st_call, s_flush].
  eapply next in R; [|eapply (st_thread _ _ 2); [reflexivity|apply t_flush, f_lock; reflexivity]].
  eapply next in R; [|eapply (st_thread _ _ 2); [reflexivity|apply t_flush, f_add; reflexivity]].
  eapply next in R; [|eapply (st_thread _ _ 2); [reflexivity|apply t_flush, f_unlock]].
  eapply next in R; [|eapply (st_ready _ _ [7])].
  eapply next in R; [|eapply (st_thread _ _ 1); [reflexivity|apply t_wait, (w_events _ _ _ _ [EUser 7; EFlush]); [reflexivity|]]].
  2:{ split; [discriminate|]. split; [repeat constructor; cbn; intuition discriminate|]. split; [cbn; lia|]. split.
      - intros e [<-|[<-|[]]]; cbn; auto.
      - right. intros [| |f]; cbn; intuition (subst; auto). }
  eapply next in R; [|eapply (st_thread _ _ 1); [reflexivity|apply t_wait, w_user]].
  eapply next in R; [|eapply (st_thread _ _ 1); [reflexivity|apply t_wait, w_flush; cbn; discriminate]].
  eapply next in R; [|eapply (st_thread _ _ 1); [reflexivity|apply t_wait, w_end]].
  eapply next in R; [|eapply (st_thread _ _ 1); [reflexivity|apply t_wait, w_unlock]].
  eapply next in R; [|eapply st_call, (s_wait 2 true)].
  eapply next in R; [|eapply (st_thread _ _ 3); [reflexivity|apply t_wait, w_lock; reflexivity]].
  eapply next in R; [|eapply (st_thread _ _ 3); [reflexivity|apply t_wait, w_open; reflexivity]].
  eapply next in R; [|eapply st_call, s_close].
  eapply next in R; [|eapply (st_thread _ _ 4); [reflexivity|apply t_close, c_lockV; reflexivity]].
  eapply next in R; [|eapply (st_thread _ _ 4); [reflexivity|apply t_close, c_add; reflexivity]].
  eapply next in R; [|eapply (st_thread _ _ 4); [reflexivity|apply t_close, c_woken]].
  eapply next in R; [|eapply (st_thread _ _ 3); [reflexivity|apply t_wait, (w_events _ _ _ _ [EUser 7; EClose]); [reflexivity|]]].
  2:{ split; [discriminate|]. split; [repeat constructor; cbn; intuition discriminate|]. split; [cbn; lia|]. split.
      - intros e [<-|[<-|[]]]; cbn; auto.
      - left. reflexivity. }
  eapply next in R; [|eapply (st_thread _ _ 3); [reflexivity|apply t_wait, w_user]].
  eapply next in R; [|eapply (st_thread _ _ 3); [reflexivity|apply t_wait, w_close]].
  eapply next in R; [|eapply (st_thread _ _ 3); [reflexivity|apply t_wait, w_unlock]].
  eapply next in R; [|eapply (st_thread _ _ 4); [reflexivity|apply t_close, c_lockE; reflexivity]].
  eapply next in R; [|eapply (st_thread _ _ 4); [reflexivity|apply t_close, c_lockV2; reflexivity]].
  eapply next in R; [|eapply (st_thread _ _ 4); [reflexivity|apply t_close, c_close]].
  eapply next in R; [|eapply (st_thread _ _ 4); [reflexivity|apply t_close, c_unlockV]].
  eapply next in R; [|eapply (st_thread _ _ 4); [reflexivity|apply t_close, c_unlockE]].
  eexists. split; [exact R|]. split; reflexivity.
Qed.

(** Two calls of Close at the same time may both return nil. *)
Theorem C83_both_nil_refuted : ~ forall s ts i j, reachable (s, ts) -> closed ts i Nil -> closed ts j Nil -> i = j.
Proof.
  intro H. assert (R : reachable new) by constructor.
  eapply next in R; [|eapply st_call, s_close].
  eapply next in R; [|eapply st_call, s_close].
  eapply next in R; [|eapply (st_thread _ _ 0); [reflexivity|apply t_close, c_lockV; reflexivity]].
  eapply next in R; [|eapply (st_thread _ _ 0); [reflexivity|apply t_close, c_add; reflexivity]].
  eapply next in R; [|eapply (st_thread _ _ 0); [reflexivity|apply t_close, c_woken]].
  eapply next in R; [|eapply (st_thread _ _ 1); [reflexivity|apply t_close, c_lockV; reflexivity]].
  eapply next in R; [|eapply (st_thread _ _ 1); [reflexivity|apply t_close, c_add; reflexivity]].
  eapply next in R; [|eapply (st_thread _ _ 1); [reflexivity|apply t_close, c_woken]].
  eapply next in R; [|eapply (st_thread _ _ 0); [reflexivity|apply t_close, c_lockE; reflexivity]].
  eapply next in R; [|eapply (st_thread _ _ 0); [reflexivity|apply t_close, c_lockV2; reflexivity]].
  eapply next in R; [|eapply (st_thread _ _ 0); [reflexivity|apply t_close, c_close]].
  eapply next in R; [|eapply (st_thread _ _ 0); [reflexivity|apply t_close, c_unlockV]].
  eapply next in R; [|eapply (st_thread _ _ 0); [reflexivity|apply t_close, c_unlockE]].
  eapply next in R; [|eapply (st_thread _ _ 1); [reflexivity|apply t_close, c_lockE; reflexivity]].
  eapply next in R; [|eapply (st_thread _ _ 1); [reflexivity|apply t_close, c_lockV2; reflexivity]].
  eapply next in R; [|eapply (st_thread _ _ 1); [reflexivity|apply t_close, c_close]].
  eapply next in R; [|eapply (st_thread _ _ 1); [reflexivity|apply t_close, c_unlockV]].
  eapply next in R; [|eapply (st_thread _ _ 1); [reflexivity|apply t_close, c_unlockE]].
  assert (0 = 1) by (eapply H; [exact R|reflexivity|reflexivity]). discriminate.
Qed.

Print Assumptions C83_safe.
Print Assumptions C83_wait.
Print Assumptions C83_errclosed.
Print Assumptions C83_reports.
Print Assumptions C83_after_close.
Print Assumptions C83_close_interrupts.
Print Assumptions C83_flush.
Print Assumptions C83_no_deadlock.
Print Assumptions C83_bounded.
Print Assumptions C83_close_ends.
Print Assumptions C83_deadline.
Print Assumptions C83_early_refuted.
Print Assumptions C83_far_refuted.
Print Assumptions C83_both_nil_refuted.
Print Assumptions C83_session.
