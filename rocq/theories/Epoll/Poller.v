(** Model of internal/epoll/poller.go: any number of goroutines calling Wait, Close, Flush and
    Add of one Poller, under every schedule.

    A goroutine runs one call and is identified by the order in which calls are made. Steps are
    the operations on shared state: locking and unlocking, system calls, and accesses to the
    fields of the Poller. *)
From Coq Require Import List Bool Arith Lia ZArith.
Import ListNotations.

(** What epoll_wait reports: the close and flush eventfds, or an fd of the user. *)
Inductive ev := EClose | EFlush | EUser (fd : nat).
(** What Wait returns: events, events and ErrFlushed, ErrClosed, ErrDeadlineExceeded, or an
    error of the kernel. *)
Inductive wres := ROk (fds : list nat) | RFlushed (fds : list nat) | RClosed | RDeadline | RError.
(** What the other methods return: nil, ErrClosed, or an error of the kernel. *)
Inductive res := Nil | Closed | Refused.

(** Shared state: the two mutexes with their owner, the fields of the Poller (true if epollFd
    is not -1, if the pointers are not nil), the state of the file descriptors in the kernel
    (true if open), the counters of the eventfds, the fds added to the epoll, those which are
    ready; [bad] is set by a system call on a closed fd and by using a nil pointer. *)
Record shared := Shared {
  epollMu : option nat; eventMu : option nat;
  p_epoll : bool; p_close : bool; p_flush : bool;
  k_epoll : bool; k_close : bool; k_flush : bool;
  closeCnt : nat; flushCnt : nat;
  regs : list nat; ready : list nat; bad : bool }.

(** Wait (poller.go:165-219). [WEvents rest fds fl] is the loop over the events. *)
Inductive wpc := WStart | WLocked | WPoll | WEvents (rest : list ev) (fds : list nat) (fl : bool) | WRet (r : wres) | WDone (r : wres).
(** Close (poller.go:86-120), with wakeWaitForClose (227-236) *)
Inductive cpc := CStart | CWake | CWakeFail | CWakeOk | CWoken | CEpoll | CBoth | CClosed | CUnlocked | CDone (r : res).
(** Flush (239-248) *)
Inductive fpc := FStart | FLocked | FRet (r : res) | FDone (r : res).
(** Add (128-155) *)
Inductive apc := AStart | ALocked | ARet (r : res) | ADone (r : res).
(** A call: the length of events and whether there is a deadline for Wait, the fd for Add. *)
Inductive thread := TWait (maxev : nat) (deadline : bool) (w : wpc) | TClose (c : cpc) | TFlush (f : fpc) | TAdd (fd : nat) (a : apc).

Definition lockE (o : option nat) (s : shared) := Shared o (eventMu s) (p_epoll s) (p_close s) (p_flush s) (k_epoll s) (k_close s) (k_flush s) (closeCnt s) (flushCnt s) (regs s) (ready s) (bad s).
Definition lockV (o : option nat) (s : shared) := Shared (epollMu s) o (p_epoll s) (p_close s) (p_flush s) (k_epoll s) (k_close s) (k_flush s) (closeCnt s) (flushCnt s) (regs s) (ready s) (bad s).
Definition counters (c f : nat) (ok : bool) (s : shared) := Shared (epollMu s) (eventMu s) (p_epoll s) (p_close s) (p_flush s) (k_epoll s) (k_close s) (k_flush s) c f (regs s) (ready s) (bad s || negb ok).
Definition setRegs (r : list nat) (ok : bool) (s : shared) := Shared (epollMu s) (eventMu s) (p_epoll s) (p_close s) (p_flush s) (k_epoll s) (k_close s) (k_flush s) (closeCnt s) (flushCnt s) r (ready s) (bad s || negb ok).
Definition setReady (r : list nat) (s : shared) := Shared (epollMu s) (eventMu s) (p_epoll s) (p_close s) (p_flush s) (k_epoll s) (k_close s) (k_flush s) (closeCnt s) (flushCnt s) (regs s) r (bad s).
Definition fault (s : shared) := counters (closeCnt s) (flushCnt s) false s.

(** poller.go:103-118: each descriptor is closed if the Poller still has it; closing one that
    is not open is a fault. *)
Definition closeAll (s : shared) : shared :=
  let once (p k : bool) := p && negb k in
  Shared (epollMu s) (eventMu s) false false false
    (k_epoll s && negb (p_epoll s)) (k_close s && negb (p_close s)) (k_flush s && negb (p_flush s))
    (closeCnt s) (flushCnt s) (regs s) (ready s)
    (bad s || once (p_epoll s) (k_epoll s) || once (p_close s) (k_close s) || once (p_flush s) (k_flush s)).

(** The file descriptors which epoll_wait finds ready. *)
Definition pending (s : shared) (e : ev) : Prop :=
  match e with
  | EClose => closeCnt s <> 0
  | EFlush => flushCnt s <> 0
  | EUser f => In f (regs s) /\ In f (ready s)
  end.
(** The events epoll_wait may return: pending, without duplicates, and all of them if there
    is room. *)
Definition polled (s : shared) (maxev : nat) (evs : list ev) : Prop :=
  evs <> [] /\ NoDup evs /\ length evs <= maxev /\ (forall e, In e evs -> pending s e) /\
  (length evs = maxev \/ forall e, pending s e -> In e evs).

(** Steps of goroutine [i] *)
Inductive wstep (i maxev : nat) (dl : bool) (s : shared) : wpc -> shared -> wpc -> Prop :=
| w_lock : epollMu s = None -> wstep i maxev dl s WStart (lockE (Some i) s) WLocked
| w_closed : p_epoll s = false -> wstep i maxev dl s WLocked s (WRet RClosed)
| w_open : p_epoll s = true -> wstep i maxev dl s WLocked s WPoll
| w_ebadf : k_epoll s = false -> wstep i maxev dl s WPoll (fault s) (WRet RClosed)
| w_eintr : k_epoll s = true -> wstep i maxev dl s WPoll s WPoll
    (* EINVAL if there is no room for events *)
| w_einval : k_epoll s = true -> maxev = 0 -> wstep i maxev dl s WPoll s (WRet RError)
| w_timeout : k_epoll s = true -> maxev <> 0 -> dl = true -> (forall e, ~ pending s e) -> wstep i maxev dl s WPoll s (WRet RDeadline)
| w_events : forall evs, k_epoll s = true -> polled s maxev evs -> wstep i maxev dl s WPoll s (WEvents evs [] false)
| w_close : forall rest fds fl, wstep i maxev dl s (WEvents (EClose :: rest) fds fl) (if p_close s then s else fault s) (WRet RClosed)
    (* flushEvent.read(): waits for the counter to be non-zero *)
| w_flush : forall rest fds fl, flushCnt s <> 0 ->
    wstep i maxev dl s (WEvents (EFlush :: rest) fds fl) (counters (closeCnt s) 0 (p_flush s && k_flush s) s) (WEvents rest fds true)
| w_user : forall f rest fds fl, wstep i maxev dl s (WEvents (EUser f :: rest) fds fl) (if p_close s && p_flush s then s else fault s) (WEvents rest (fds ++ [f]) fl)
| w_end : forall fds (fl : bool), wstep i maxev dl s (WEvents [] fds fl) s (WRet (if fl then RFlushed fds else ROk fds))
| w_unlock : forall r, wstep i maxev dl s (WRet r) (lockE None s) (WDone r).

Inductive cstep (i : nat) (s : shared) : cpc -> shared -> cpc -> Prop :=
| c_lockV : eventMu s = None -> cstep i s CStart (lockV (Some i) s) CWake
| c_nil : p_close s = false -> cstep i s CWake s CWakeFail
| c_add : p_close s = true -> cstep i s CWake (counters (S (closeCnt s)) (flushCnt s) (k_close s) s) CWakeOk
| c_fail : cstep i s CWakeFail (lockV None s) (CDone Closed)
| c_woken : cstep i s CWakeOk (lockV None s) CWoken
| c_lockE : epollMu s = None -> cstep i s CWoken (lockE (Some i) s) CEpoll
| c_lockV2 : eventMu s = None -> cstep i s CEpoll (lockV (Some i) s) CBoth
| c_close : cstep i s CBoth (closeAll s) CClosed
| c_unlockV : cstep i s CClosed (lockV None s) CUnlocked
| c_unlockE : cstep i s CUnlocked (lockE None s) (CDone Nil).

Inductive fstep (i : nat) (s : shared) : fpc -> shared -> fpc -> Prop :=
| f_lock : eventMu s = None -> fstep i s FStart (lockV (Some i) s) FLocked
| f_nil : p_flush s = false -> fstep i s FLocked s (FRet Closed)
| f_add : p_flush s = true -> fstep i s FLocked (counters (closeCnt s) (S (flushCnt s)) (k_flush s) s) (FRet Nil)
| f_unlock : forall r, fstep i s (FRet r) (lockV None s) (FDone r).

Inductive astep (i fd : nat) (s : shared) : apc -> shared -> apc -> Prop :=
| a_lock : epollMu s = None -> astep i fd s AStart (lockE (Some i) s) ALocked
| a_closed : p_epoll s = false -> astep i fd s ALocked s (ARet Closed)
| a_add : p_epoll s = true -> astep i fd s ALocked (setRegs (fd :: regs s) (k_epoll s) s) (ARet Nil)
| a_refused : p_epoll s = true -> astep i fd s ALocked (setRegs (regs s) (k_epoll s) s) (ARet Refused)
| a_unlock : forall r, astep i fd s (ARet r) (lockE None s) (ADone r).

Inductive tstep (i : nat) (s : shared) : thread -> shared -> thread -> Prop :=
| t_wait : forall m d w s' w', wstep i m d s w s' w' -> tstep i s (TWait m d w) s' (TWait m d w')
| t_close : forall c s' c', cstep i s c s' c' -> tstep i s (TClose c) s' (TClose c')
| t_flush : forall f s' f', fstep i s f s' f' -> tstep i s (TFlush f) s' (TFlush f')
| t_add : forall fd a s' a', astep i fd s a s' a' -> tstep i s (TAdd fd a) s' (TAdd fd a').

Definition set_nth {A} (i : nat) (x : A) (l : list A) : list A := firstn i l ++ x :: skipn (S i) l.

(** A call that is made *)
Inductive starts : thread -> Prop :=
| s_wait : forall m d, starts (TWait m d WStart)
| s_close : starts (TClose CStart)
| s_flush : starts (TFlush FStart)
| s_add : forall fd, starts (TAdd fd AStart).

Definition state := (shared * list thread)%type.
Inductive step : state -> state -> Prop :=
| st_thread : forall s ts i t s' t', nth_error ts i = Some t -> tstep i s t s' t' -> step (s, ts) (s', set_nth i t' ts)
| st_call : forall s ts t, starts t -> step (s, ts) (s, ts ++ [t])
| st_ready : forall s ts r, step (s, ts) (setReady r s, ts).
Inductive steps : state -> state -> Prop :=
| steps_refl : forall x, steps x x
| steps_next : forall x y z, steps x y -> step y z -> steps x z.

(** New (poller.go:40-80) *)
Definition new : state := (Shared None None true true true true true true 0 0 [] [] false, []).
Definition reachable (x : state) : Prop := steps new x.

(** ** Deadlines *)
Local Open Scope Z_scope.
(** poller.go:174-178: the timeout of epoll_wait in milliseconds, for a deadline [ns]
    nanoseconds from now (time.Until saturates at int64). int has 64 bits. *)
Definition timeout (ns : Z) : Z :=
  let d := Z.max (- 2 ^ 63) (Z.min ns (2 ^ 63 - 1)) in
  Z.min (Z.max (Z.quot d 1000000) 0) (2 ^ 63 - 1).
(** The argument is an int of 32 bits in the kernel (fs/eventpoll.c, epoll_wait). *)
Definition kernelTimeout (t : Z) : Z := let y := t mod 2 ^ 32 in if y <? 2 ^ 31 then y else y - 2 ^ 32.
