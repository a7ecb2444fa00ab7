(** Model of rlimit/ (detectMemcgAccounting and RemoveMemlock in rlimit_linux.go) and of what Linux does for them: prlimit (kernel/sys.c do_prlimit), and the memory that a map locks (kernel/bpf/syscall.c bpf_map_charge_init before 5.11). *)
From Coq Require Import List Bool Arith NArith Lia.
Import ListNotations.
Open Scope N_scope.

Definition RLIM_INFINITY : N := 18446744073709551615.
Definition EPERM : N := 1.
Definition EINVAL : N := 22.
Record limit := Limit { cur : N; max : N }.
(** The process: limit of locked memory, probes that are still open *)
Record proc := Proc { lim : limit; probes : nat }.
(** Kernel and privileges. [memcg]: maps don't count against the limit (5.11); [resource]: CAP_SYS_RESOURCE; [refuses]: making an array is refused for another reason: errno, and whether it wraps ErrTokenCapabilities; [locked]: memory locked by the user already; [size]: that of the probe *)
Record kernel := Kernel { memcg : bool; resource : bool; refuses : option (N * bool); locked : N; size : N }.

Section K.
Variable k : kernel.
(** prlimit to set; [other]: fails for another reason *)
Definition setLimit (other : option N) (l : limit) (p : proc) : option N * proc :=
  match other with
  | Some e => (Some e, p)
  | None =>
      if max l <? cur l then (Some EINVAL, p)
      else if (max (lim p) <? max l) && negb (resource k) then (Some EPERM, p)
      else (None, Proc l (probes p))
  end.
Definition getLimit (other : option N) (p : proc) : option N := other.
(** Does a map of this size exceed the limit *)
Definition exceeds (n : N) (p : proc) : bool := negb (memcg k) && (cur (lim p) <? locked k + n).
Definition mapCreate (p : proc) : option (N * bool) * proc :=
  match refuses k with
  | Some e => (Some e, p)
  | None => if exceeds (size k) p then (Some (EPERM, false), p) else (None, Proc (lim p) (S (probes p)))
  end.

Inductive have := Supported | Unsupported | Failed.
(** rlimit_linux.go:40-96; [o1], [o2], [o3]: failures of prlimit *)
Definition detectMemcgAccounting (o1 o2 o3 : option N) (p : proc) : have * proc :=
  match getLimit o1 p with
  | Some _ => (Failed, p)
  | None =>
      let oldLimit := lim p in
      let zeroLimit := Limit 0 (max oldLimit) in
      let '(e, p1) := setLimit o2 zeroLimit p in
      match e with
      | Some _ => (Failed, p1)
      | None =>
          let oldLimit := lim p in
          let '(mapErr, p2) := mapCreate p1 in
          let '(e, p3) := setLimit o3 oldLimit p2 in
          match e with
          | Some _ => (Failed, p3)
          | None =>
              match mapErr with
              | None => (Supported, Proc (lim p3) (pred (probes p3)))
              | Some (errno, caps) => if caps then (Supported, p3) else if errno =? EPERM then (Unsupported, p3) else (Failed, p3)
              end
          end
      end
  end.
(** 112-133; None: nil *)
Inductive error := ENotDetected | ENotSet (e : N).
Definition RemoveMemlock (h : have) (o : option N) (p : proc) : option error * proc :=
  match h with
  | Supported => (None, p)
  | Failed => (Some ENotDetected, p)
  | Unsupported => let '(e, p) := setLimit o (Limit RLIM_INFINITY RLIM_INFINITY) p in match e with Some e => (Some (ENotSet e), p) | None => (None, p) end
  end.
(** Any number of calls *)
Fixpoint removes (h : have) (os : list (option N)) (p : proc) : list (option error) * proc :=
  match os with [] => ([], p) | o :: os => let '(r, p) := RemoveMemlock h o p in let '(rs, p) := removes h os p in (r :: rs, p) end.
End K.
