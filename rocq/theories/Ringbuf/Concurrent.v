(** The ring buffer reader running concurrently with BPF programs that reserve, fill, submit and discard
    records on any number of CPUs.  Kernel side: Linux kernel/bpf/ringbuf.c (__bpf_ringbuf_reserve,
    bpf_ringbuf_commit), which is the environment.  User side: ringbuf/ring.go readSample split at its two
    shared memory accesses (load of prod_pos, atomic load of the length word), and commit. *)
From Coq Require Import ZArith List Lia Bool.
From Verif.Base Require Import GoInt.
From Verif.Ringbuf Require Import Spec Model.
Import ListNotations.
Open Scope Z_scope.

(** Where the user thread is inside Lease.ReadSample. *)
Inductive rpc := Idle                      (* between calls *)
               | Polling (prod : Z).       (* prod_pos loaded, waiting for the busy bit to clear *)

(** What a call returned. *)
Inductive ret := RetSample (start len remain : Z) | RetDiscard (remain : Z) | RetErr (e : rerr) | RetPanic.

Record sys := mkSys {
  s_mem : Z -> Z; s_prod : Z; s_cons : Z;    (* shared memory *)
  s_log : list krec;                         (* history: every record reserved so far, in order *)
  s_local : Z; s_pc : rpc;                   (* user thread *)
  s_rets : list ret;                         (* history: results of the ReadSample calls, in order *)
  s_mark : nat                               (* history: number of results at the last Commit *)
}.

Section System.
Variables (bo : byteorder) (sz p0 : Z).

(** Stream position of record [i]: positions start at [p0], records are contiguous. *)
Definition pos_of (log : list krec) (i : nat) : Z := p0 + total_bytes (firstn i log).

(** Bytes [l] stored at stream position [pos]. *)
Definition write (mem : Z -> Z) (pos : Z) (l : list Z) : Z -> Z :=
  fun a => let d := (a - pos) mod sz in
           if d <? Z.of_nat (length l) then nth (Z.to_nat d) l 0 else mem a.

Fixpoint set_nth {A} (i : nat) (x : A) (l : list A) : list A :=
  match l, i with
  | [], _ => []
  | _ :: t, O => x :: t
  | y :: t, S j => y :: set_nth j x t
  end.

Inductive step : sys -> sys -> Prop :=
(** a BPF program reserves [len] bytes: refused unless it fits in the space the consumer has released;
    header (length word with the busy bit, then 4 bytes of page offset) written, producer position moved *)
| KReserve s len pg :
    0 <= len < 2 ^ 30 -> length pg = 4%nat -> bytes_ok pg ->
    8 + round8 len <= sz ->
    u64 (u64 (s_prod s + (8 + round8 len)) - s_cons s) <= sz - 1 ->
    step s (mkSys (write (s_mem s) (s_prod s) (put bo 4 (2 ^ 31 + len) ++ pg))
                  (u64 (s_prod s + (8 + round8 len))) (s_cons s)
                  (s_log s ++ [mkRec len KBusy]) (s_local s) (s_pc s) (s_rets s) (s_mark s))
(** a BPF program writes one byte of a record it holds *)
| KWrite s i r off b :
    nth_error (s_log s) i = Some r -> k_status r = KBusy -> 0 <= off < k_len r -> is_byte b ->
    step s (mkSys (write (s_mem s) (pos_of (s_log s) i + 8 + off) [b])
                  (s_prod s) (s_cons s) (s_log s) (s_local s) (s_pc s) (s_rets s) (s_mark s))
(** submit: the length word is exchanged for one without the busy bit; the payload is what is there now *)
| KSubmit s i r :
    nth_error (s_log s) i = Some r -> k_status r = KBusy ->
    step s (mkSys (write (s_mem s) (pos_of (s_log s) i) (put bo 4 (k_len r)))
                  (s_prod s) (s_cons s)
                  (set_nth i (mkRec (k_len r)
                     (KSubmitted (stream_at sz (s_mem s) (pos_of (s_log s) i + 8) (k_len r)))) (s_log s))
                  (s_local s) (s_pc s) (s_rets s) (s_mark s))
(** discard: same with the discard bit set *)
| KDiscard s i r :
    nth_error (s_log s) i = Some r -> k_status r = KBusy ->
    step s (mkSys (write (s_mem s) (pos_of (s_log s) i) (put bo 4 (k_len r + 2 ^ 30)))
                  (s_prod s) (s_cons s) (set_nth i (mkRec (k_len r) KDiscarded) (s_log s))
                  (s_local s) (s_pc s) (s_rets s) (s_mark s))
(** user: readSample loads prod_pos (ring.go:76-84); on EOR/short header it returns at once *)
| ULoadErr s e :
    s_pc s = Idle -> rs_check (s_prod s) (s_local s) = Some e ->
    step s (mkSys (s_mem s) (s_prod s) (s_cons s) (s_log s) (s_local s) Idle (s_rets s ++ [RetErr e]) (s_mark s))
| ULoad s :
    s_pc s = Idle -> rs_check (s_prod s) (s_local s) = None ->
    step s (mkSys (s_mem s) (s_prod s) (s_cons s) (s_log s) (s_local s) (Polling (s_prod s)) (s_rets s) (s_mark s))
(** user: atomic load of the length word, busy: goto retry (ring.go:94-104) *)
| URetry s p :
    s_pc s = Polling p -> isBusy (load_len bo sz (s_mem s) (s_local s)) = true -> step s s
(** user: not busy, rest of readSample (ring.go:106-130) *)
| UFinish s p :
    s_pc s = Polling p -> isBusy (load_len bo sz (s_mem s) (s_local s)) = false ->
    step s (match rs_finish sz p (s_local s) (load_len bo sz (s_mem s) (s_local s)) with
            | RSErr e => mkSys (s_mem s) (s_prod s) (s_cons s) (s_log s) (s_local s) Idle
                               (s_rets s ++ [RetErr e]) (s_mark s)
            | RSPanic => mkSys (s_mem s) (s_prod s) (s_cons s) (s_log s) (s_local s) Idle
                               (s_rets s ++ [RetPanic]) (s_mark s)
            | RSOk (Some (st, n)) rem l' =>
                mkSys (s_mem s) (s_prod s) (s_cons s) (s_log s) l' Idle
                      (s_rets s ++ [RetSample st n rem]) (s_mark s)
            | RSOk None rem l' =>
                mkSys (s_mem s) (s_prod s) (s_cons s) (s_log s) l' Idle
                      (s_rets s ++ [RetDiscard rem]) (s_mark s)
            end)
(** user: Lease.Commit between reads (ring.go:57-59, raw_reader.go:194-196) *)
| UCommit s :
    s_pc s = Idle ->
    step s (mkSys (s_mem s) (s_prod s) (s_local s) (s_log s) (s_local s) Idle (s_rets s) (length (s_rets s))).

(** A fresh, empty ring at any position, with any memory content. *)
Definition initial (s : sys) : Prop :=
  s_prod s = u64 p0 /\ s_cons s = u64 p0 /\ s_local s = u64 p0 /\ s_log s = [] /\ s_pc s = Idle /\
  s_rets s = [] /\ s_mark s = O.

Inductive reachable : sys -> Prop :=
| reach_init s : initial s -> reachable s
| reach_step s t : reachable s -> step s t -> reachable t.
End System.

(** The part of the result history that advanced the reader. *)
Definition advances (r : ret) : bool :=
  match r with RetSample _ _ _ | RetDiscard _ => true | _ => false end.

(** Result [x] is the right one for record [r]. *)
Definition right_result (r : krec) (x : ret) : Prop :=
  match k_status r with
  | KBusy => False
  | KSubmitted p => exists st rem, x = RetSample st (Z.of_nat (length p)) rem
  | KDiscarded => exists rem, x = RetDiscard rem
  end.
