(** Model of BPF (internal/sys/syscall_other.go), internal/sys/token.go, internal/sys/signals.go, and NewFD and Close (internal/sys/fd_other.go) as far as they are used there.
    A system call is an event; the answers come from any function of the events so far. Masks of signals and locks of threads are events, too. *)
From Coq Require Import List Bool Arith NArith ZArith Lia.
Import ListNotations.
Open Scope N_scope.

(** internal/sys/types.go: numbers of commands *)
Definition MAP_CREATE : N := 0.
Definition PROG_LOAD : N := 5.
Definition PROG_RUN : N := 10.
Definition OBJ_GET_INFO_BY_FD : N := 15.
Definition BTF_LOAD : N := 18.
Definition TOKEN_CREATE : N := 36.
Definition F_TOKEN_FD : N := 65536.
(** errno *)
Definition EPERM : N := 1.
Definition ENOENT : N := 2.
Definition EAGAIN : N := 11.
Definition EACCES : N := 13.
Definition EINVAL : N := 22.
Definition EOPNOTSUPP : N := 95.

(** The parts of MapCreateAttr, ProgLoadAttr and BtfLoadAttr that are used here: token, flags, type of map or program, expected attach type; other commands: [a_rest] *)
Record attr := Attr { a_token : N; a_flags : N; a_type : N; a_attach : N; a_rest : list N }.
(** TokenInfo *)
Record tokinfo := TokInfo { i_cmds : N; i_maps : N; i_progs : N; i_attachs : N }.
Inductive call := COpen (mount : list nat) | CClose (fd : N) | CDup (fd : N) | CBpf (cmd : N) (a : attr) | CBlock | CUnblock | CLock | CUnlock.
(** [Ret]: value, and for OBJ_GET_INFO_BY_FD the info *)
Inductive answer := Ret (v : N) (i : tokinfo) | Fail (errno : N).
Definition event := (call * answer)%type.
Definition history := list event.
Definition kernel := history -> call -> answer.

(** Errors: [EErrno]: an error that wraps an errno; [ECaps]: additionally ErrTokenCapabilities; [EOther]: neither *)
Inductive err := EErrno (e : N) | ECaps (e : N) | EOther.
(** errors.Is *)
Definition isErrno (x : err) (e : N) : bool := match x with EErrno y | ECaps y => y =? e | EOther => false end.
Definition isCaps (x : err) : bool := match x with ECaps _ => true | _ => false end.
Inductive res (A : Type) := Ok (a : A) | Err (e : err).
Arguments Ok {A} a. Arguments Err {A} e.

Record tok := Tok { t_fd : N; t_info : option tokinfo }.
(** sync.Once with token and tokenErr; [Running]: while findToken runs *)
Inductive once := NotYet | Running | Done (r : res (option tok)).
Record st := St { hist : history; tokenOnce : once }.

(** The calling convention: None is "does not return" *)
Definition M (A : Type) := st -> option (A * st).
Definition ret {A} (a : A) : M A := fun s => Some (a, s).
Definition bind {A B} (m : M A) (f : A -> M B) : M B := fun s => match m s with None => None | Some (a, s) => f a s end.
Notation "x <- m ;; k" := (bind m (fun x => k)) (at level 61, m at next level, right associativity).

Section Kernel.
Variable K : kernel.
Definition do (c : call) : M answer := fun s => let a := K (hist s) c in Some (a, St (hist s ++ [(c, a)]) (tokenOnce s)).

(** token.go:69-99; Go: shifting by 64 or more gives 0 *)
Definition one_shl (n : N) : N := if n <? 64 then N.shiftl 1 n else 0.
Definition has (set n : N) : bool := negb (N.land set (one_shl n) =? 0).
(** token.go:39-67; true: nil *)
Definition capable (t : tok) (cmd : N) (a : attr) : bool :=
  match t_info t with
  | None => true
  | Some i =>
      if negb (has (i_cmds i) cmd) then false
      else if cmd =? MAP_CREATE then has (i_maps i) (a_type a)
      else if cmd =? PROG_LOAD then if negb (has (i_progs i) (a_type a)) then false else has (i_attachs i) (a_attach a)
      else true
  end.

(** signals.go:28-50; pthread_sigmask doesn't fail *)
Definition maskProfilerSignal : M unit := _ <- do CLock ;; _ <- do CBlock ;; ret tt.
Definition unmaskProfilerSignal : M unit := _ <- do CUnblock ;; _ <- do CUnlock ;; ret tt.

(** token.go:183-228; [getToken]: parameter *)
Definition hasTokenAttr (cmd : N) : bool := (cmd =? MAP_CREATE) || (cmd =? PROG_LOAD) || (cmd =? BTF_LOAD).
Definition tokenAttr (getToken : M (res (option tok))) (cmd : N) (a : attr) : M (res (option tok * attr)) :=
  if hasTokenAttr cmd then
    r <- getToken ;;
    ret match r with
        | Err e => Err e
        | Ok None => Ok (None, a)
        | Ok (Some t) => Ok (Some t, Attr (t_fd t) (N.lor (a_flags a) F_TOKEN_FD) (a_type a) (a_attach a) (a_rest a))
        end
  else ret (Ok (None, a)).

(** syscall_other.go:34-73; [fuel]: bound on the number of attempts *)
Fixpoint loop (fuel : nat) (t : option tok) (cmd : N) (a : attr) : M (res (N * tokinfo)) :=
  match fuel with
  | O => fun _ => None
  | S fuel =>
      r <- do (CBpf cmd a) ;;
      match r with
      | Ret v i => ret (Ok (v, i))
      | Fail e =>
          if (e =? EAGAIN) && (cmd =? PROG_LOAD) then loop fuel t cmd a
          else match t with
               | Some t =>
                   if e =? EPERM then
                     match t_info t with
                     | None => ret (Err (ECaps e))
                     | Some _ => if capable t cmd a then ret (Err (EErrno e)) else ret (Err (ECaps e))
                     end
                   else ret (Err (EErrno e))
               | None => ret (Err (EErrno e))
               end
      end
  end.
(** syscall_other.go:18-33 *)
Definition masks (cmd : N) : bool := (cmd =? PROG_LOAD) || (cmd =? PROG_RUN).
Definition BPF_ (getToken : M (res (option tok))) (fuel : nat) (cmd : N) (a : attr) : M (res (N * tokinfo)) :=
  _ <- (if masks cmd then maskProfilerSignal else ret tt) ;;
  t <- tokenAttr getToken cmd a ;;
  r <- match t with Err e => ret (Err e) | Ok (t, a) => loop fuel t cmd a end ;;
  _ <- (if masks cmd then unmaskProfilerSignal else ret tt) ;;
  ret r.

(** getToken while findToken runs: waits for itself *)
Definition getTokenAgain : M (res (option tok)) := fun s => match tokenOnce s with Done r => Some (r, s) | _ => None end.
(** fd_other.go:22-38, 40-46; a file descriptor isn't negative *)
Definition NewFD (v : N) : M (res N) :=
  if v =? 0 then d <- do (CDup 0) ;; _ <- do (CClose 0) ;; ret match d with Ret v _ => Ok v | Fail _ => Err EOther end
  else ret (Ok v).
(** token.go:154-181; types.go TokenCreate; syscall.go ObjInfo *)
Definition newToken (fuel : nat) (mount : list nat) : M (res tok) :=
  o <- do (COpen mount) ;;
  match o with
  | Fail e => ret (Err (EErrno e))
  | Ret fsfd _ =>
      c <- BPF_ getTokenAgain fuel TOKEN_CREATE (Attr 0 0 0 0 [fsfd]) ;;
      f <- match c with Err e => ret (Err e) | Ok (v, _) => NewFD v end ;;
      r <- match f with
           | Err e => ret (Err e)
           | Ok tfd =>
               i <- BPF_ getTokenAgain fuel OBJ_GET_INFO_BY_FD (Attr 0 0 0 0 [tfd]) ;;
               match i with
               | Ok (_, i) => ret (Ok (Tok tfd (Some i)))
               | Err e => if isErrno e EINVAL then ret (Ok (Tok tfd None)) else (_ <- do (CClose tfd) ;; ret (Err e))
               end
           end ;;
      _ <- do (CClose fsfd) ;;
      ret r
  end.
(** token.go:119-152 *)
Definition skips (e : err) : bool := isErrno e EACCES || isErrno e EINVAL || isErrno e EPERM || isErrno e EOPNOTSUPP || isErrno e ENOENT.
Fixpoint tryMounts (fuel : nat) (mounts : list (list nat)) : M (res (option tok)) :=
  match mounts with
  | [] => ret (Ok None)
  | m :: rest =>
      r <- newToken fuel m ;;
      match r with
      | Ok t => ret (Ok (Some t))
      | Err e => if skips e then tryMounts fuel rest else ret (Err e)
      end
  end.
(** [mounts]: mountinfo.FindByFSType("bpf") *)
Definition findToken (mounts : option (list (list nat))) (fuel : nat) : M (res (option tok)) :=
  match mounts with None => ret (Err EOther) | Some l => tryMounts fuel l end.
(** token.go:101-117 *)
Definition getToken (mounts : option (list (list nat))) (fuel : nat) : M (res (option tok)) := fun s =>
  match tokenOnce s with
  | Done r => Some (r, s)
  | Running => None
  | NotYet => match findToken mounts fuel (St (hist s) Running) with None => None | Some (r, s) => Some (r, St (hist s) (Done r)) end
  end.
Definition BPF (mounts : option (list (list nat))) (fuel : nat) : N -> attr -> M (res (N * tokinfo)) := BPF_ (getToken mounts fuel) fuel.
(** Any sequence of calls *)
Fixpoint calls (mounts : option (list (list nat))) (fuel : nat) (l : list (N * attr)) : M (list (res (N * tokinfo))) :=
  match l with
  | [] => ret []
  | (c, a) :: l => r <- BPF mounts fuel c a ;; rs <- calls mounts fuel l ;; ret (r :: rs)
  end.
End Kernel.

(** signals.go:61-92: a set is a list of words of [w] bits; profSet: 21-25 *)
Fixpoint setWord (set : list N) (n : nat) (f : N -> N) : list N :=
  match set, n with [], _ => [] | x :: r, O => f x :: r | x :: r, S n => x :: setWord r n f end.
Definition sigsetAdd (w : N) (set : list N) (signal : Z) : option (list N) :=
  if (signal <? 1)%Z then None
  else let bit := Z.to_N (signal - 1) in let word := bit / w in
    if N.of_nat (length set) <=? word then None
    else Some (setWord set (N.to_nat word) (fun x => N.lor x (N.shiftl 1 (bit mod w)))).
