(** Model of internal/sys/fd.go and fd_other.go (newFD, Close, Disown, Dup, File, Int) with the garbage collector.

    Descriptors have numbers, which are reused, and identities, which are not. [tab] says which descriptor a number stands for. What happens between two steps of
    a method is arbitrary: other code opens and closes descriptors, and the collector may run the cleanup of an FD that is unreachable. An FD is reachable
    while the program holds it, or while a method still needs it: Go doesn't keep the receiver of a method until it returns. *)
From Verif Require Import Base.GoInt.
Open Scope nat_scope.

(** Cleanups (runtime.AddCleanup): Stop has no effect once they are queued. *)
Inductive cleanup := Armed | Stopped | Queued | Done.
Inductive release := RClose | RDisown | RFile.
(** Where a method is. [Start]: at its beginning, still using the FD; [Stop v]: the number was taken, before cleanup.Stop;
    [Sys v]: before close(2); [Use v], [Dup v]: the number was read, before a system call. *)
Inductive pc := Start (r : release) | Stop (r : release) (v : nat) | Sys (v : nat) | StartUse | Use (v : nat) | StartDup | Dup (v : nat).
Record fd := FD { raw : option nat; num : nat; ident : nat; cl : cleanup; held : bool; busy : option pc }.
Record state := St { tab : nat -> option nat; next : nat; others : list nat; objs : nat -> option fd; nobj : nat }.
Definition upd {A} (f : nat -> A) (k : nat) (a : A) (j : nat) : A := if j =? k then a else f j.
Definition setObj (s : state) (k : nat) (x : fd) : state := St (tab s) (next s) (others s) (upd (objs s) k (Some x)) (nobj s).
Definition withTab (s : state) (t : nat -> option nat) : state := St t (next s) (others s) (objs s) (nobj s).
Definition withOthers (s : state) (l : list nat) : state := St (tab s) (next s) l (objs s) (nobj s).
Definition at_ (x : fd) (p : option pc) : fd := FD (raw x) (num x) (ident x) (cl x) (held x) p.
(** fd.go:18-28 *)
Definition newFD (s : state) (n i : nat) : state := St (tab s) (next s) (others s) (upd (objs s) (nobj s) (Some (FD (Some n) n i Armed true None))) (S (nobj s)).
(** Events: the library closes a number; a number is passed to a system call; what it stands for *)
Inductive event := EClose (k n : nat) (hit : option nat) | EUse (k n : nat) (hit : option nat) | ENone.
Definition reachable (x : fd) : bool := held x || match busy x with Some (Start _) | Some StartUse | Some StartDup => true | _ => false end.
Definition remove (i : nat) (l : list nat) : list nat := filter (fun j => negb (j =? i)) l.
Inductive step : state -> event -> state -> Prop :=
(** other code *)
| OtherOpen : forall s n, tab s n = None ->
    step s ENone (St (upd (tab s) n (Some (next s))) (S (next s)) (next s :: others s) (objs s) (nobj s))
| OtherClose : forall s n i, tab s n = Some i -> In i (others s) ->
    step s ENone (withTab (withOthers s (remove i (others s))) (upd (tab s) n None))
(** fd_other.go:22-35: the descriptor now belongs to the FD *)
| New : forall s n i, tab s n = Some i -> In i (others s) -> step s ENone (newFD (withOthers s (remove i (others s))) n i)
(** A method is called by who holds the FD; not by two at once *)
| Begin : forall s k x p, objs s k = Some x -> held x = true -> busy x = None -> p = StartUse \/ p = StartDup \/ (exists r, p = Start r) ->
    step s ENone (setObj s k (at_ x (Some p)))
(** The program doesn't use its variable any more. *)
| Drop : forall s k x, objs s k = Some x -> step s ENone (setObj s k (FD (raw x) (num x) (ident x) (cl x) false (busy x)))
(** The collector *)
| Collect : forall s k x, objs s k = Some x -> cl x = Armed -> reachable x = false ->
    step s ENone (setObj s k (FD (raw x) (num x) (ident x) Queued (held x) (busy x)))
| Cleanup : forall s k x, objs s k = Some x -> cl x = Queued ->
    step s (EClose k (num x) (tab s (num x))) (withTab (setObj s k (FD (raw x) (num x) (ident x) Done (held x) (busy x))) (upd (tab s) (num x) None))
(** fd_other.go:37-43, 65-71, fd.go:50-60 *)
| Released : forall s k x r, objs s k = Some x -> busy x = Some (Start r) -> raw x = None -> step s ENone (setObj s k (at_ x None))
| Take : forall s k x r v, objs s k = Some x -> busy x = Some (Start r) -> raw x = Some v ->
    step s ENone (setObj s k (FD None (num x) (ident x) (cl x) (held x) (Some (Stop r v))))
| StopClose : forall s k x v, objs s k = Some x -> busy x = Some (Stop RClose v) ->
    step s ENone (setObj s k (FD (raw x) (num x) (ident x) (match cl x with Armed => Stopped | c => c end) (held x) (Some (Sys v))))
| StopDisown : forall s k x r v, objs s k = Some x -> busy x = Some (Stop r v) -> r <> RClose ->
    step s ENone (setObj (withOthers s (ident x :: others s)) k (FD (raw x) (num x) (ident x) (match cl x with Armed => Stopped | c => c end) (held x) None))
| SysClose : forall s k x v, objs s k = Some x -> busy x = Some (Sys v) ->
    step s (EClose k v (tab s v)) (withTab (setObj s k (at_ x None)) (upd (tab s) v None))
(** fd.go:34-45 and a system call with the number *)
| NoUse : forall s k x p, objs s k = Some x -> busy x = Some p -> p = StartUse \/ p = StartDup -> raw x = None -> step s ENone (setObj s k (at_ x None))
| ReadUse : forall s k x v, objs s k = Some x -> busy x = Some StartUse -> raw x = Some v -> step s ENone (setObj s k (at_ x (Some (Use v))))
| CallUse : forall s k x v, objs s k = Some x -> busy x = Some (Use v) -> step s (EUse k v (tab s v)) (setObj s k (at_ x None))
(** fd_other.go:45-58 *)
| ReadDup : forall s k x v, objs s k = Some x -> busy x = Some StartDup -> raw x = Some v -> step s ENone (setObj s k (at_ x (Some (Dup v))))
| FailDup : forall s k x v, objs s k = Some x -> busy x = Some (Dup v) -> step s (EUse k v (tab s v)) (setObj s k (at_ x None))
| CallDup : forall s k x v i n, objs s k = Some x -> busy x = Some (Dup v) -> tab s v = Some i -> tab s n = None -> 1 <= n ->
    step s (EUse k v (tab s v)) (newFD (let s := setObj s k (at_ x None) in St (upd (tab s) n (Some (next s))) (S (next s)) (others s) (objs s) (nobj s)) n (next s)).
