(** RawReader's lease protocol (ringbuf/raw_reader.go:33-127) as a transition system over the atomic
    operations each goroutine performs. Any number of goroutines (identified by [nat]); each, when idle, may
    start any call at any time. One step = one atomic operation on shared state. *)
From Coq Require Import ZArith List Lia Bool.
Import ListNotations.

(** Program counter of a goroutine. *)
Inductive gpc :=
| GIdle
(* WithLease (raw_reader.go:100-107) / enter (44-55) / leave (58-60) *)
| GEnter            (* about to CompareAndSwap inflight *)
| GEnterClosed      (* CAS succeeded, about to load closed *)
| GEnterFail        (* saw closed, about to leave() and return ErrClosed *)
| GCallback         (* fn(Lease) is running: may touch ring memory *)
| GLeave            (* fn returned or panicked: deferred leave() about to store inflight=false *)
(* Close (raw_reader.go:113-127) *)
| GClose            (* about to CompareAndSwap closed *)
| GClosePoller      (* about to close the poller *)
| GCloseSpin        (* for inflight.Load() { Gosched } *)
| GCloseRing        (* about to call ring.close(): munmap *)
(* AvailableBytes (raw_reader.go:213-215): loads from the mapped producer/consumer pages *)
| GAvail.

Inductive result := RErrConcurrent | RErrClosed | RNil | RErrPoller.

(** Observable events. *)
Inductive event :=
| EvRun (g : nat)              (* callback of goroutine g started *)
| EvRet (g : nat) (r : result) (* call returned *)
| EvUnmap (g : nat)            (* ring memory released *)
| EvTouch (g : nat)            (* ring memory accessed *)
| EvTau.

Record lst := mkL { inflight : bool; closed : bool; mapped : bool; gs : nat -> gpc }.

Definition setg (f : nat -> gpc) (g : nat) (p : gpc) : nat -> gpc :=
  fun h => if Nat.eqb h g then p else f h.

Definition upd (s : lst) (i c m : bool) (g : nat) (p : gpc) : lst := mkL i c m (setg (gs s) g p).

Inductive lstep : lst -> event -> lst -> Prop :=
(* WithLease *)
| L_start s g : gs s g = GIdle ->
    lstep s EvTau (upd s (inflight s) (closed s) (mapped s) g GEnter)
| L_cas_fail s g : gs s g = GEnter -> inflight s = true ->
    lstep s (EvRet g RErrConcurrent) (upd s (inflight s) (closed s) (mapped s) g GIdle)
| L_cas_ok s g : gs s g = GEnter -> inflight s = false ->
    lstep s EvTau (upd s true (closed s) (mapped s) g GEnterClosed)
| L_closed s g : gs s g = GEnterClosed -> closed s = true ->
    lstep s EvTau (upd s (inflight s) (closed s) (mapped s) g GEnterFail)
| L_open s g : gs s g = GEnterClosed -> closed s = false ->
    lstep s (EvRun g) (upd s (inflight s) (closed s) (mapped s) g GCallback)
| L_fail_leave s g : gs s g = GEnterFail ->
    lstep s (EvRet g RErrClosed) (upd s false (closed s) (mapped s) g GIdle)
| L_touch s g : gs s g = GCallback -> lstep s (EvTouch g) s
| L_fn_done s g : gs s g = GCallback ->
    lstep s EvTau (upd s (inflight s) (closed s) (mapped s) g GLeave)
| L_leave s g : gs s g = GLeave ->
    lstep s (EvRet g RNil) (upd s false (closed s) (mapped s) g GIdle)
(* Close *)
| C_start s g : gs s g = GIdle ->
    lstep s EvTau (upd s (inflight s) (closed s) (mapped s) g GClose)
| C_again s g : gs s g = GClose -> closed s = true ->
    lstep s (EvRet g RNil) (upd s (inflight s) (closed s) (mapped s) g GIdle)
| C_first s g : gs s g = GClose -> closed s = false ->
    lstep s EvTau (upd s (inflight s) true (mapped s) g GClosePoller)
| C_poller_err s g : gs s g = GClosePoller ->
    lstep s (EvRet g RErrPoller) (upd s (inflight s) (closed s) (mapped s) g GIdle)
| C_poller_ok s g : gs s g = GClosePoller ->
    lstep s EvTau (upd s (inflight s) (closed s) (mapped s) g GCloseSpin)
| C_spin s g : gs s g = GCloseSpin -> inflight s = true -> lstep s EvTau s
| C_spin_done s g : gs s g = GCloseSpin -> inflight s = false ->
    lstep s EvTau (upd s (inflight s) (closed s) (mapped s) g GCloseRing)
| C_ring s g : gs s g = GCloseRing ->
    lstep s (EvUnmap g) (upd s (inflight s) (closed s) false g GIdle)
(* AvailableBytes *)
| A_start s g : gs s g = GIdle ->
    lstep s EvTau (upd s (inflight s) (closed s) (mapped s) g GAvail)
| A_load s g : gs s g = GAvail ->
    lstep s (EvTouch g) (upd s (inflight s) (closed s) (mapped s) g GIdle).

Definition linit : lst := mkL false false true (fun _ => GIdle).

Inductive ltrace : lst -> list event -> Prop :=
| lt_init : ltrace linit []
| lt_step s tr e t : ltrace s tr -> lstep s e t -> ltrace t (tr ++ [e]).
