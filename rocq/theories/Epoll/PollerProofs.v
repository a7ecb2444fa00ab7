(** Invariant of the Poller. *)
From Coq Require Import List Bool Arith Lia.
From Verif Require Import Epoll.Poller.
Import ListNotations.

Definition holdsE (t : thread) : bool :=
  match t with
  | TWait _ _ (WLocked | WPoll | WEvents _ _ _ | WRet _) => true
  | TClose (CEpoll | CBoth | CClosed | CUnlocked) => true
  | TAdd _ (ALocked | ARet _) => true
  | _ => false
  end.
Definition holdsV (t : thread) : bool :=
  match t with
  | TClose (CWake | CWakeFail | CWakeOk | CBoth | CClosed) => true
  | TFlush (FLocked | FRet _) => true
  | _ => false
  end.

(** Some Close got past its wake-up; some Flush succeeded. *)
Definition isWoken (t : thread) : bool :=
  match t with TClose (CWakeOk | CWoken | CEpoll | CBoth | CClosed | CUnlocked | CDone Nil) => true | _ => false end.
Definition isFlushed (t : thread) : bool := match t with TFlush (FRet Nil | FDone Nil) => true | _ => false end.
Definition some (f : thread -> bool) (ts : list thread) : Prop := exists i t, nth_error ts i = Some t /\ f t = true.

Fixpoint users (l : list ev) : list nat :=
  match l with [] => [] | EUser f :: r => f :: users r | _ :: r => users r end.

Definition local (s : shared) (ts : list thread) (t : thread) : Prop :=
  match t with
  | TWait m d WPoll => p_epoll s = true
  | TWait m d (WEvents rest fds fl) =>
      p_epoll s = true /\ NoDup rest /\ (In EClose rest -> closeCnt s <> 0) /\ (In EFlush rest -> flushCnt s <> 0) /\
      incl (fds ++ users rest) (regs s) /\ NoDup (fds ++ users rest) /\ length fds + length rest + (if fl then 1 else 0) <= m /\
      (fl = true -> some isFlushed ts /\ ~ In EFlush rest)
  | TWait m d (WRet (ROk fds) | WDone (ROk fds)) => incl fds (regs s) /\ NoDup fds /\ length fds <= m
  | TWait m d (WRet (RFlushed fds) | WDone (RFlushed fds)) => incl fds (regs s) /\ NoDup fds /\ S (length fds) <= m /\ some isFlushed ts
  | TWait m d (WRet RClosed | WDone RClosed) => some isWoken ts
  | TWait m d (WRet RDeadline | WDone RDeadline) => d = true
  | TWait m d (WRet RError | WDone RError) => m = 0
  | TClose CWakeFail | TClose (CDone Closed) => some isWoken ts
  | TClose (CClosed | CUnlocked | CDone Nil) => p_epoll s = false
  | TClose (CDone Refused) => False
  | TFlush (FRet Closed | FDone Closed) => some isWoken ts
  | TFlush (FRet Refused | FDone Refused) => False
  | TAdd fd (ARet Nil | ADone Nil) => In fd (regs s)
  | TAdd fd (ARet Closed | ADone Closed) => some isWoken ts
  | _ => True
  end.

Record inv (s : shared) (ts : list thread) : Prop := {
  i_E : forall i, epollMu s = Some i <-> exists t, nth_error ts i = Some t /\ holdsE t = true;
  i_V : forall i, eventMu s = Some i <-> exists t, nth_error ts i = Some t /\ holdsV t = true;
  i_same : p_close s = p_epoll s /\ p_flush s = p_epoll s /\ k_epoll s = p_epoll s /\ k_close s = p_epoll s /\ k_flush s = p_epoll s;
  i_open : p_epoll s = false -> closeCnt s <> 0;
  i_woken : closeCnt s <> 0 -> some isWoken ts;
  i_woken2 : some isWoken ts -> closeCnt s <> 0;
  i_flushed : flushCnt s <> 0 -> some isFlushed ts;
  i_local : forall i t, nth_error ts i = Some t -> local s ts t;
  i_bad : bad s = false }.

Lemma nth_set_same : forall A (x : A) l i y, nth_error l i = Some y -> nth_error (set_nth i x l) i = Some x.
Proof.
  induction l as [|a l IH]; intros [|i] y H; cbn in *; try discriminate; [reflexivity|].
  unfold set_nth in *. cbn. eapply IH; eauto.
Qed.
Lemma nth_set_other : forall A (x : A) l i j y, nth_error l i = Some y -> i <> j -> nth_error (set_nth i x l) j = nth_error l j.
Proof.
  induction l as [|a l IH]; intros [|i] [|j] y H N; cbn in *; try discriminate; try congruence; try reflexivity.
  unfold set_nth in *. cbn. eapply IH; eauto.
Qed.
Lemma length_set : forall A (x : A) l i y, nth_error l i = Some y -> length (set_nth i x l) = length l.
Proof.
  induction l as [|a l IH]; intros [|i] y H; cbn in *; try discriminate; [reflexivity|].
  f_equal. unfold set_nth in *. eapply IH; eauto.
Qed.

(** What a step does to the mutexes *)
Lemma step_E : forall i s t s' t', tstep i s t s' t' ->
  match holdsE t, holdsE t' with
  | false, true => epollMu s = None /\ epollMu s' = Some i
  | true, false => epollMu s' = None
  | _, _ => epollMu s' = epollMu s
  end.
Proof.
  intros i s t s' t' H; destruct H as [m d w s' w' H|c s' c' H|f s' f' H|fd a s' a' H]; destruct H; cbn; auto;
    try (destruct (p_close s); cbn; auto); try (destruct (p_flush s); cbn; auto); destruct fl; auto.
Qed.
Lemma step_V : forall i s t s' t', tstep i s t s' t' ->
  match holdsV t, holdsV t' with
  | false, true => eventMu s = None /\ eventMu s' = Some i
  | true, false => eventMu s' = None
  | _, _ => eventMu s' = eventMu s
  end.
Proof.
  intros i s t s' t' H; destruct H as [m d w s' w' H|c s' c' H|f s' f' H|fd a s' a' H]; destruct H; cbn; auto;
    try (destruct (p_close s); cbn; auto); try (destruct (p_flush s); cbn; auto); destruct fl; auto.
Qed.
(** and to the rest *)
Lemma step_rest : forall i s t s' t', tstep i s t s' t' ->
  closeCnt s <= closeCnt s' /\ incl (regs s) (regs s') /\
  (holdsE t = false -> p_epoll s' = p_epoll s /\ flushCnt s <= flushCnt s') /\ (p_epoll s = false -> p_epoll s' = false) /\
  (isWoken t = true -> isWoken t' = true) /\ (isFlushed t = true -> isFlushed t' = true) /\
  (closeCnt s' <> closeCnt s -> isWoken t' = true) /\ (flushCnt s' <> flushCnt s -> flushCnt s' <> 0 -> isFlushed t' = true) /\
  (isWoken t' = true -> isWoken t = true \/ closeCnt s' <> 0).
Proof.
  intros i s t s' t' H; destruct H as [m d w s' w' H|c s' c' H|f s' f' H|fd a s' a' H]; destruct H;
    try (destruct (p_close s)); try (destruct (p_flush s));
    unfold fault; cbn; repeat split; auto with datatypes; intros; auto with datatypes; try discriminate; try lia; try congruence.
Qed.

Lemma some_set : forall f i t t' ts, nth_error ts i = Some t -> (f t = true -> f t' = true) -> some f ts -> some f (set_nth i t' ts).
Proof.
  intros f i t t' ts N M (j & u & Nj & F). destruct (Nat.eq_dec i j) as [<-|D].
  - exists i, t'. split; [eapply nth_set_same; eauto|]. apply M. congruence.
  - exists j, u. split; [|exact F]. erewrite nth_set_other; eauto.
Qed.
Lemma some_app : forall f t ts, some f ts -> some f (ts ++ [t]).
Proof.
  intros f t ts (j & u & Nj & F). exists j, u. split; [|exact F]. rewrite nth_error_app1; [exact Nj|]. apply nth_error_Some; congruence.
Qed.

(** The facts about one thread survive what others do. *)
Lemma local_stable : forall s ts s' ts' t, local s ts t ->
  closeCnt s <= closeCnt s' -> incl (regs s) (regs s') -> (some isWoken ts -> some isWoken ts') -> (some isFlushed ts -> some isFlushed ts') ->
  (p_epoll s = false -> p_epoll s' = false) ->
  (holdsE t = true -> p_epoll s' = p_epoll s /\ flushCnt s <= flushCnt s') -> local s' ts' t.
Proof.
  intros s ts s' ts' t L HC HR HW HF HP HE.
  destruct t as [m d w|c|f|fd a]; [destruct w as [| | |rest fds fl|r|r]; try destruct r|destruct c as [| | | | | | | | |r]; try destruct r|destruct f as [| |r|r]; try destruct r|destruct a as [| |r|r]; try destruct r];
    cbn in *; auto;
    try (destruct HE as [HE1 HE2]; [reflexivity|]); try congruence;
    try (destruct L as (L1 & L2 & L3)); repeat split; intuition (eauto using incl_tran; try congruence; try lia).
Qed.

Lemma users_sub : forall l f, In f (users l) <-> In (EUser f) l.
Proof.
  induction l as [|e l IH]; intro f; cbn; [tauto|]. destruct e; cbn; rewrite IH; split; intros; intuition (try discriminate; try congruence; auto).
Qed.
Lemma users_nodup : forall l, NoDup l -> NoDup (users l).
Proof.
  induction l as [|e l IH]; intro H; cbn; [constructor|]. inversion H; subst. destruct e; auto. constructor; auto. rewrite users_sub. auto.
Qed.

Lemma holder_excl : forall s ts i j t u, inv s ts -> nth_error ts i = Some t -> nth_error ts j = Some u -> holdsE t = true -> holdsE u = true -> i = j.
Proof.
  intros s ts i j t u I Ni Nj Hi Hj.
  assert (A : epollMu s = Some i) by (apply (i_E _ _ I); eauto).
  assert (B : epollMu s = Some j) by (apply (i_E _ _ I); eauto). congruence.
Qed.
Lemma holder_exclV : forall s ts i j t u, inv s ts -> nth_error ts i = Some t -> nth_error ts j = Some u -> holdsV t = true -> holdsV u = true -> i = j.
Proof.
  intros s ts i j t u I Ni Nj Hi Hj.
  assert (A : eventMu s = Some i) by (apply (i_V _ _ I); eauto).
  assert (B : eventMu s = Some j) by (apply (i_V _ _ I); eauto). congruence.
Qed.

Lemma mutex_set : forall (mu mu' : option nat) (h : thread -> bool) i t t' ts,
  nth_error ts i = Some t ->
  (forall j, mu = Some j <-> exists u, nth_error ts j = Some u /\ h u = true) ->
  match h t, h t' with
  | false, true => mu = None /\ mu' = Some i
  | true, false => mu' = None
  | _, _ => mu' = mu
  end ->
  forall j, mu' = Some j <-> exists u, nth_error (set_nth i t' ts) j = Some u /\ h u = true.
Proof.
  intros mu mu' h i t t' ts N I M j.
  assert (ND : i <> j -> (exists u, nth_error (set_nth i t' ts) j = Some u /\ h u = true) <-> mu = Some j)
    by (intro D; rewrite I; erewrite nth_set_other by eauto; tauto).
  assert (SM : (exists u, nth_error (set_nth i t' ts) i = Some u /\ h u = true) <-> h t' = true).
  { erewrite nth_set_same by eauto. split; [intros (u & E & H); congruence|intro H; exists t'; auto]. }
  assert (OT : h t = true <-> mu = Some i).
  { rewrite I. split; [intro H; exists t; auto|intros (u & E & H); congruence]. }
  destruct (Nat.eq_dec i j) as [<-|D].
  - rewrite SM. destruct (h t) eqn:Ht, (h t') eqn:Ht'.
    + rewrite M, <- OT. tauto.
    + split; [congruence|discriminate].
    + split; [auto|intro; apply M].
    + rewrite M, <- OT. split; discriminate.
  - rewrite (ND D). destruct (h t) eqn:Ht, (h t') eqn:Ht'.
    + rewrite M. tauto.
    + assert (mu = Some i) by (apply OT; auto). split; congruence.
    + destruct M as [M1 M2]. split; congruence.
    + rewrite M. tauto.
Qed.

Lemma local_self : forall s ts i t s' t', inv s ts -> nth_error ts i = Some t -> tstep i s t s' t' ->
  local s' (set_nth i t' ts) t'.
Proof.
  intros s ts i t s' t' I N H.
  pose proof (i_local _ _ I _ _ N) as L. destruct (i_same _ _ I) as (S1 & S2 & S3 & S4 & S5).
  destruct (step_rest _ _ _ _ _ H) as (_ & _ & _ & _ & W & F & _).
  pose proof (some_set isWoken i t t' ts N W) as MW. pose proof (some_set isFlushed i t t' ts N F) as MF.
  assert (CW : closeCnt s <> 0 -> some isWoken (set_nth i t' ts)) by (intro; apply MW, (i_woken _ _ I); auto).
  assert (PW : p_epoll s = false -> some isWoken (set_nth i t' ts)) by (intro; apply CW, (i_open _ _ I); auto).
  assert (FF : flushCnt s <> 0 -> some isFlushed (set_nth i t' ts)) by (intro; apply MF, (i_flushed _ _ I); auto).
  clear W F.
  destruct H as [m d w s' w' H|c s' c' H|f s' f' H|fd a s' a' H]; destruct H; cbn in L |- *; auto; try congruence.
  - destruct H0 as (P1 & P2 & P3 & P4 & P5). repeat split; auto.
    + intro HI. apply (P4 _ HI).
    + intro HI. apply (P4 _ HI).
    + intros x Hx. apply users_sub in Hx. apply (P4 _ Hx).
    + apply users_nodup; auto.
    + cbn. rewrite Nat.add_0_r. exact P3.
    + discriminate.
    + discriminate.
  - apply CW. apply L. left; reflexivity.
  - cbn in L. destruct L as (L1 & L2 & L3 & L4 & L5 & L6 & L7 & L8). inversion L2; subst.
    repeat split; auto with datatypes.
    destruct fl; lia.
  - cbn in L. destruct L as (L1 & L2 & L3 & L4 & L5 & L6 & L7 & L8). inversion L2; subst.
    rewrite S1, S2, L1. cbn. rewrite <- app_assoc; cbn. repeat split; auto with datatypes.
    + rewrite app_length; cbn. lia.
    + apply MF, L8; auto.
    + intro HI. apply L8; auto with datatypes.
  - destruct L as (L1 & L2 & L3 & L4 & L5 & L6 & L7 & L8). cbn in *. rewrite app_nil_r in *. destruct fl; cbn; repeat split; auto; try lia. apply MF, L8; auto.
  - destruct r; cbn in *; intuition auto.
  - apply PW; congruence.
  - apply PW; congruence.
  - destruct r; cbn in *; intuition auto.
  - destruct r; cbn in *; intuition auto.
Qed.

(** The invariant holds initially and is preserved. *)
Lemma inv_new : inv (fst new) (snd new).
Proof.
  cbn. constructor; cbn; auto; try (intros i; split; [discriminate|intros (t & E & _); destruct i; discriminate]); try congruence.
  - intros (i & t & E & _); destruct i; discriminate.
  - intros i t E; destruct i; discriminate.
Qed.

Lemma same_step : forall s ts i t s' t', inv s ts -> nth_error ts i = Some t -> tstep i s t s' t' ->
  p_close s' = p_epoll s' /\ p_flush s' = p_epoll s' /\ k_epoll s' = p_epoll s' /\ k_close s' = p_epoll s' /\ k_flush s' = p_epoll s' /\ bad s' = false.
Proof.
  intros s ts i t s' t' I N H.
  pose proof (i_local _ _ I _ _ N) as L. destruct (i_same _ _ I) as (S1 & S2 & S3 & S4 & S5). pose proof (i_bad _ _ I) as B.
  destruct H as [m d w s' w' H|c s' c' H|f s' f' H|fd a s' a' H]; destruct H; cbn in L |- *;
    try destruct L as (L1 & _); rewrite ?S1, ?S2, ?S3, ?S4, ?S5, ?B in *; try rewrite L1 in *; cbn; rewrite ?S1, ?S2, ?S3, ?S4, ?S5, ?B; auto; try congruence;
    try (repeat split; congruence).
  all: destruct (p_epoll s); cbn; repeat split; congruence.
Qed.

Lemma inv_step : forall x y, inv (fst x) (snd x) -> step x y -> inv (fst y) (snd y).
Proof.
  intros x y I H. destruct H as [s ts i t s' t' N H|s ts t H|s ts r]; cbn in *.
  - destruct (step_rest _ _ _ _ _ H) as (R1 & R2 & R3 & R4 & R5 & R6 & R7 & R8 & R9).
    destruct (same_step _ _ _ _ _ _ I N H) as (S1 & S2 & S3 & S4 & S5 & S6).
    pose proof (some_set isWoken i t t' ts N R5) as MW. pose proof (some_set isFlushed i t t' ts N R6) as MF.
    constructor; auto.
    + eapply mutex_set; eauto. exact (i_E _ _ I). exact (step_E _ _ _ _ _ H).
    + eapply mutex_set; eauto. exact (i_V _ _ I). exact (step_V _ _ _ _ _ H).
    + intro P. destruct (p_epoll s) eqn:E.
      * (* only Close does this, after its wake-up *)
        assert (W : some isWoken ts).
        { exists i, t. split; [exact N|]. clear - H E P.
          destruct H as [m d w s' w' H|c s' c' H|f s' f' H|fd a s' a' H]; destruct H; cbn in *; auto; try congruence;
            destruct (p_close s); cbn in *; try congruence; destruct (p_flush s); cbn in *; congruence. }
        pose proof (i_woken2 _ _ I W). lia.
      * pose proof (i_open _ _ I E). lia.
    + intro C. destruct (Nat.eq_dec (closeCnt s') (closeCnt s)) as [E|E].
      * apply MW, (i_woken _ _ I). congruence.
      * exists i, t'. split; [eapply nth_set_same; eauto|auto].
    + intros (j & u & Nj & W). destruct (Nat.eq_dec i j) as [<-|D].
      * erewrite nth_set_same in Nj by eauto. injection Nj as <-. destruct (R9 W) as [W0|W0]; [|exact W0].
        assert (closeCnt s <> 0) by (apply (i_woken2 _ _ I); exists i, t; auto). lia.
      * erewrite nth_set_other in Nj by eauto. assert (closeCnt s <> 0) by (apply (i_woken2 _ _ I); exists j, u; auto). lia.
    + intro C. destruct (Nat.eq_dec (flushCnt s') (flushCnt s)) as [E|E].
      * apply MF, (i_flushed _ _ I). congruence.
      * exists i, t'. split; [eapply nth_set_same; eauto|auto].
    + intros j u Nj. destruct (Nat.eq_dec i j) as [<-|D].
      * erewrite nth_set_same in Nj by eauto. injection Nj as <-. eapply local_self; eauto.
      * erewrite nth_set_other in Nj by eauto. eapply local_stable; eauto using (i_local _ _ I).
        intro Hu. apply R3. destruct (holdsE t) eqn:Ht; [|reflexivity]. exfalso. apply D. eapply holder_excl; eauto.
  - assert (NT : forall (h : thread -> bool) j, (forall x, starts x -> h x = false) ->
      (exists u, nth_error (ts ++ [t]) j = Some u /\ h u = true) <-> (exists u, nth_error ts j = Some u /\ h u = true)).
    { intros h j Hh. split; intros (u & E & T).
      - destruct (lt_dec j (length ts)) as [Q|Q].
        + rewrite nth_error_app1 in E by auto. eauto.
        + rewrite nth_error_app2 in E by lia. destruct (j - length ts) as [|k]; cbn in E; [|destruct k; discriminate].
          injection E as <-. rewrite Hh in T by auto. discriminate.
      - exists u. split; [|exact T]. rewrite nth_error_app1; auto. apply nth_error_Some; congruence. }
    constructor; try apply I.
    + intro j. rewrite NT by (intros x []; auto). apply (i_E _ _ I).
    + intro j. rewrite NT by (intros x []; auto). apply (i_V _ _ I).
    + intro. apply some_app, (i_woken _ _ I); auto.
    + intros (j & W). apply NT in W; [|intros x []; auto]. apply (i_woken2 _ _ I). exists j. exact W.
    + intro. apply some_app, (i_flushed _ _ I); auto.
    + intros j u E. destruct (lt_dec j (length ts)) as [Q|Q].
      * rewrite nth_error_app1 in E by auto. apply (local_stable s ts); auto using some_app, incl_refl. apply (i_local _ _ I _ _ E).
      * rewrite nth_error_app2 in E by lia. destruct (j - length ts) as [|k]; cbn in E; [|destruct k; discriminate].
        injection E as <-. destruct H; cbn; auto.
  - constructor; try apply I.
Qed.

Lemma inv_steps : forall x y, steps x y -> inv (fst x) (snd x) -> inv (fst y) (snd y).
Proof. induction 1; intros; auto. eapply inv_step; [|eassumption]; auto. Qed.
Lemma inv_reachable : forall s ts, reachable (s, ts) -> inv s ts.
Proof. intros s ts H. apply (inv_steps _ _ H inv_new). Qed.

Lemma steps_trans : forall x y z, steps x y -> steps y z -> steps x z.
Proof. intros x y z H K. induction K; auto. eapply steps_next; [|eassumption]; auto. Qed.
Lemma reachable_steps : forall x y, reachable x -> steps x y -> reachable y.
Proof. intros x y H K. eapply steps_trans; eauto. Qed.
