(** Specification of C102: what histories of system calls look like. *)
From Coq Require Import List Bool Arith NArith ZArith.
From Verif Require Import Sys.Token.
Import ListNotations.
Open Scope N_scope.

(** Is SIGPROF blocked, how often is the thread locked *)
Definition blocked (b : bool) (h : history) : bool := fold_left (fun b (e : event) => match fst e with CBlock => true | CUnblock => false | _ => b end) h b.
Definition locked (h : history) : Z := fold_right (fun (e : event) z => match fst e with CLock => z + 1 | CUnlock => z - 1 | _ => z end)%Z 0%Z h.
Definition isSignal (e : event) : Prop := match fst e with CBlock | CUnblock | CLock | CUnlock => True | _ => False end.
(** How often a descriptor is opened, less how often it is closed *)
Definition opened (fd : N) (h : history) : Z :=
  fold_right (fun (e : event) z => match e with
    | (COpen _, Ret v _) | (CDup _, Ret v _) => if (v =? fd)%N then z + 1 else z
    | (CBpf c _, Ret v _) => if ((c =? TOKEN_CREATE) || (c =? MAP_CREATE) || (c =? PROG_LOAD) || (c =? BTF_LOAD))%N then if (v =? fd)%N then z + 1 else z else z
    | (CClose v, _) => if (v =? fd)%N then z - 1 else z
    | _ => z end)%Z 0%Z h.
(** The mounts that are opened *)
Definition mountsOf (h : history) : list (list nat) := flat_map (fun e : event => match fst e with COpen m => [m] | _ => [] end) h.

(** What a token allows *)
Definition allows (i : tokinfo) (cmd : N) (a : attr) : Prop :=
  N.testbit (i_cmds i) cmd = true /\
  (cmd = MAP_CREATE -> N.testbit (i_maps i) (a_type a) = true) /\
  (cmd = PROG_LOAD -> N.testbit (i_progs i) (a_type a) = true /\ N.testbit (i_attachs i) (a_attach a) = true).
Definition wfInfo (i : tokinfo) : Prop := i_cmds i < 2^64 /\ i_maps i < 2^64 /\ i_progs i < 2^64 /\ i_attachs i < 2^64.
(** The error may be due to the token: it is not known what it allows, or it doesn't allow this. *)
Definition suspect (t : option tok) (cmd : N) (a : attr) : Prop :=
  match t with None => False | Some t => match t_info t with None => True | Some i => ~ allows i cmd a end end.
Definition withToken (t : option tok) (a : attr) : attr :=
  match t with None => a | Some t => Attr (t_fd t) (N.lor (a_flags a) F_TOKEN_FD) (a_type a) (a_attach a) (a_rest a) end.
(** What the caller gets, if the kernel answers [ans] in the end *)
Definition outcome (t : option tok) (cmd : N) (a : attr) (ans : answer) (r : res (N * tokinfo)) : Prop :=
  match ans with
  | Ret v i => r = Ok (v, i)
  | Fail e => exists x, r = Err x /\ (forall y, isErrno x y = true <-> y = e) /\ (isCaps x = true <-> e = EPERM /\ suspect t cmd a)
  end.
(** The system calls of a command: it is repeated only if the verifier was interrupted. *)
Definition tries (t : option tok) (cmd : N) (a : attr) (h : history) (r : res (N * tokinfo)) : Prop :=
  exists n ans, h = repeat (CBpf cmd a, Fail EAGAIN) n ++ [(CBpf cmd a, ans)] /\ (n <> O -> cmd = PROG_LOAD) /\ ~ (cmd = PROG_LOAD /\ ans = Fail EAGAIN) /\ outcome t cmd a ans r.

(** One attempt to get a token from a mount *)
Definition bpf_ (cmd fd : N) : call := CBpf cmd (Attr 0 0 0 0 [fd]).
(** The descriptor of the token is never 0. *)
Inductive created (fs : N) : history -> res N -> Prop :=
| cr_no e : created fs [(bpf_ TOKEN_CREATE fs, Fail e)] (Err (EErrno e))
| cr_yes fd i : fd <> 0 -> created fs [(bpf_ TOKEN_CREATE fs, Ret fd i)] (Ok fd)
| cr_dup i fd j x : created fs [(bpf_ TOKEN_CREATE fs, Ret 0 i); (CDup 0, Ret fd j); (CClose 0, x)] (Ok fd)
| cr_nodup i e x : created fs [(bpf_ TOKEN_CREATE fs, Ret 0 i); (CDup 0, Fail e); (CClose 0, x)] (Err EOther).
Inductive asked (fd : N) : history -> res tok -> Prop :=
| as_info v i : asked fd [(bpf_ OBJ_GET_INFO_BY_FD fd, Ret v i)] (Ok (Tok fd (Some i)))
| as_old : asked fd [(bpf_ OBJ_GET_INFO_BY_FD fd, Fail EINVAL)] (Ok (Tok fd None))
| as_fail e x : e <> EINVAL -> asked fd [(bpf_ OBJ_GET_INFO_BY_FD fd, Fail e); (CClose fd, x)] (Err (EErrno e)).
Inductive attempt (m : list nat) : history -> res tok -> Prop :=
| at_noopen e : attempt m [(COpen m, Fail e)] (Err (EErrno e))
| at_nocreate fs i h e x : created fs h (Err e) -> attempt m ((COpen m, Ret fs i) :: h ++ [(CClose fs, x)]) (Err e)
| at_create fs i h fd h' r x : created fs h (Ok fd) -> asked fd h' r -> attempt m ((COpen m, Ret fs i) :: h ++ h' ++ [(CClose fs, x)]) r.
(** Errors that say that there is no token to be had from a mount *)
Definition refusal (e : err) : Prop := e = EErrno EACCES \/ e = EErrno EINVAL \/ e = EErrno EPERM \/ e = EErrno EOPNOTSUPP \/ e = EErrno ENOENT.
(** The search goes on exactly while it is refused. *)
Inductive searched : list (list nat) -> history -> res (option tok) -> Prop :=
| se_none : searched [] [] (Ok None)
| se_found m l h t : attempt m h (Ok t) -> searched (m :: l) h (Ok (Some t))
| se_fails m l h e : attempt m h (Err e) -> ~ refusal e -> searched (m :: l) h (Err e)
| se_next m l h e h' r : attempt m h (Err e) -> refusal e -> searched l h' r -> searched (m :: l) (h ++ h') r.
Definition search (mounts : option (list (list nat))) (h : history) (r : res (option tok)) : Prop :=
  match mounts with None => h = [] /\ r = Err EOther | Some l => searched l h r end.

(** Is a signal in a set of words of [w] bits *)
Definition member (w : N) (set : list N) (signal : N) : bool := N.testbit (nth (N.to_nat ((signal - 1) / w)) set 0) ((signal - 1) mod w).
