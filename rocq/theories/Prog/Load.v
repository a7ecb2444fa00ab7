(** Model of the part of prog.go and btf/handle.go which talks to the verifier: loading a
    program or BTF and retrieving the log.

    The system call is a function from the number of the call (1, 2, ...) and the log
    attributes to a reply, so that nothing is assumed about how the kernel behaves over time.
    sys.BPF repeats BPF_PROG_LOAD on EAGAIN (internal/sys/syscall_other.go:38-46): a reply is
    the first one that is not EAGAIN. *)
From Coq Require Import List Bool Arith Lia Ascii String ZArith.
From Verif Require Import Base.GoInt Internal.Math Prog.VerifierError.
Import ListNotations.
Open Scope list_scope. Open Scope Z_scope.

Definition EPERM := 1. Definition EACCES := 13. Definition EFAULT := 14. Definition EINVAL := 22. Definition ENOSPC := 28.

(** The error of a system call: an errno, or EPERM attributed to the BPF token in use
    (sys.ErrTokenCapabilities, internal/sys/syscall_other.go:53-69). *)
Inductive err := Errno (n : Z) | TokenErr.
(** errors.Is(err, errno) *)
Definition is (e : err) (n : Z) : bool := match e with Errno m => m =? n | TokenErr => n =? EPERM end.

(** the log related fields of sys.ProgLoadAttr / sys.BtfLoadAttr; [a_buf] is the pointer
    LogBuf: the length of the buffer it points at, or None for nil *)
Record attr := Attr { a_level : Z; a_size : Z; a_true : Z; a_buf : option Z }.
(** what the kernel does: the error, the bytes it stores at the start of the log buffer, and
    the value it stores in LogTrueSize, if any *)
Record reply := Reply { r_err : option err; r_data : bytes; r_true : option Z }.
Definition kernel := nat -> attr -> reply.

(** A Go byte slice of zeroes but for the data at its front. *)
Record buffer := Buffer { b_len : Z; b_data : bytes }.
Definition nilbuf := Buffer 0 [].
Definition makebuf (n : Z) := Buffer n [].
(** The kernel writes to the buffer it was given, within its bounds. *)
Definition store (a : attr) (b : buffer) (data : bytes) : buffer :=
  match a_buf a with Some _ => Buffer (b_len b) (firstn (Z.to_nat (b_len b)) data) | None => b end.
Definition hint (a : attr) (t : option Z) : attr :=
  match t with Some t => Attr (a_level a) (a_size a) t (a_buf a) | None => a end.

(** prog.go:54-67 *)
Definition minVerifierLogSize := 64 * 1024.
Definition maxVerifierLogSize := Z.shiftr (2 ^ 32 - 1) 2.
Definition maxVerifierAttempts := 30%nat.
Definition LogLevelBranch := 1.

(** prog.go:581-617 retryLogAttrs: Some a = retry with a *)
Definition retryLogAttrs (a : attr) (startSize : Z) (e : err) : option attr :=
  if a_size a =? maxVerifierLogSize then None
  else if is e ENOSPC then
    if negb (a_true a =? 0) then Some (Attr (a_level a) (a_true a) (a_true a) (a_buf a))
    else if a_size a >=? maxVerifierLogSize / 2 then Some (Attr (a_level a) maxVerifierLogSize (a_true a) (a_buf a))
    else Some (Attr (a_level a) (u32 (Between (a_size a) minVerifierLogSize (maxVerifierLogSize / 2) * 2)) (a_true a) (a_buf a))
  else if a_level a =? 0 then
    Some (Attr LogLevelBranch (Between startSize minVerifierLogSize maxVerifierLogSize) (a_true a) (a_buf a))
  else None.

(** The outcome of the loop: a loaded program with its log, an error with the log buffer, or
    the error after too many attempts. *)
Inductive outcome := Loaded (log : bytes) | Failed (e : err) (buf : buffer) | TooMany (e : err).

(** prog.go:497-518, the loop; [attempts] is the number of the load about to be made. The
    result also lists the attributes of all loads. None = out of fuel. *)
Fixpoint loop (k : kernel) (start : Z) (fuel attempts : nat) (a : attr) (logBuf : buffer) : option (outcome * list attr) :=
  match fuel with
  | O => None
  | S fuel =>
    let '(logBuf, a) := if a_level a =? 0 then (logBuf, a)
                        else (makebuf (a_size a), Attr (a_level a) (a_size a) (a_true a) (Some (a_size a))) in
    let r := k attempts a in
    let logBuf := store a logBuf (r_data r) in
    match r_err r with
    | None => Some (Loaded (cstr (b_data logBuf)), [a])
    | Some e =>
      match retryLogAttrs (hint a (r_true r)) start e with
      | None => Some (Failed e logBuf, [a])
      | Some a' =>
        if (maxVerifierAttempts <=? attempts)%nat then Some (TooMany e, [a])
        else match loop k start fuel (S attempts) a' logBuf with
             | Some (o, tr) => Some (o, a :: tr)
             | None => None
             end
      end
    end
  end.

(** The options of ProgramOptions (prog.go:70-92) for the log *)
Record options := Options { o_level : Z; o_start : Z; o_disabled : bool }.

(** prog.go:480-518. LogLevel is a uint32, so is LogSizeStart. *)
Definition load (k : kernel) (o : options) : option (outcome * list attr) :=
  if o_disabled o then
    let a := Attr 0 0 0 None in
    match r_err (k 1%nat a) with None => Some (Loaded [], [a]) | Some e => Some (Failed e nilbuf, [a]) end
  else
    let a := if o_level o =? 0 then Attr 0 0 0 None
             else Attr (o_level o) (Between (o_start o) minVerifierLogSize maxVerifierLogSize) 0 None in
    loop k (o_start o) 40 1 a nilbuf.

(** bytes.Contains *)
Fixpoint contains (l p : bytes) : bool :=
  hasPrefix l p || match l with [] => false | _ :: l' => contains l' p end.

(** prog.go:278-285; the sentinels are 0xbad2310 (btf/core.go:23) and 0xdedc0de (linker.go:252) *)
Definition coreBadLoad := lit "(18) r10 = 0xbad2310" ++ [NL].
Definition coreBadCall := lit "invalid func unknown#195896080" ++ [NL].
Definition kfuncBadCall := lit "invalid func unknown#233685214" ++ [NL].

(** The Cause of a load error *)
Inductive cause := CErr (e : err) | BadRelocation | UnknownKfunc | CallsUnsupported.

(** What loading reports to the user: the program's log; "token" errors; EPERM with the hint
    that MEMLOCK may be too low; a verifier error, where [true] stands for the hint to
    increase LogSizeStart; missing support for bpf2bpf calls; or the internal error. *)
Inductive report :=
| RLoaded (log : bytes) | RToken (e : err) | RMemlock (e : err)
| RVerifier (hint : bool) (e : verifierError cause) | RCalls | RBug (e : err).

(** logBuf[max(end-256, 0):end] *)
Definition tail (b : buffer) : bytes := lastn 256 (cstr (b_data b)).

(** prog.go:527-579 programLoadError. [calls]: the instructions have function references;
    [haveCalls]: the kernel supports them (haveBPFToBPFCalls returns nil).
    errors.Is(err, unix.EINVAL) is asked again after the switch: a replaced err is neither
    EINVAL nor EPERM. *)
Definition programLoadError (e : err) (b : buffer) (calls haveCalls : bool) : report :=
  let rest (c : cause) :=
    let again := match c with CErr e => is e EINVAL || is e EPERM | _ => false end in
    if again && calls && negb haveCalls then RCalls else RVerifier false (ErrorWithLog (lit "load program") c (b_data b)) in
  if is e EPERM then
    if (0 <? b_len b) && (match b_data b with [] => true | c :: _ => Ascii.eqb c NUL end) then RMemlock e else rest (CErr e)
  else if is e EFAULT then RVerifier true (ErrorWithLog (lit "hit verifier bug") (CErr e) (b_data b))
  else if is e EINVAL then
    if contains (tail b) coreBadCall then rest BadRelocation
    else if contains (tail b) kfuncBadCall then rest UnknownKfunc
    else rest (CErr e)
  else if is e EACCES then
    if contains (tail b) coreBadLoad then rest BadRelocation else rest (CErr e)
  else rest (CErr e).

(** prog.go:480-525 *)
Definition newProgram (k : kernel) (o : options) (calls haveCalls : bool) : option (report * list attr) :=
  match load k o with
  | None => None
  | Some (Loaded log, tr) => Some (RLoaded log, tr)
  | Some (TooMany e, tr) => Some (RBug e, tr)
  | Some (Failed TokenErr _, tr) => Some (RToken TokenErr, tr)
  | Some (Failed e b, tr) => Some (programLoadError e b calls haveCalls, tr)
  end.

(** ** BTF *)
(** btf/handle.go:45 *)
Definition minLogSize := 64 * 1024.
Inductive btf_outcome := BtfLoaded | BtfFailed (e : err) (buf : buffer) | BtfOverflow.
(** btf/handle.go:62-100, the loop *)
Fixpoint btfLoop (k : kernel) (fuel calls : nat) (a : attr) (logBuf : buffer) : option (btf_outcome * list attr) :=
  match fuel with
  | O => None
  | S fuel =>
    let r := k calls a in
    let logBuf := store a logBuf (r_data r) in
    match r_err r with
    | None => Some (BtfLoaded, [a])
    | Some e =>
      let a' := hint a (r_true r) in
      if negb (a_true a' =? 0) && (a_size a' >=? a_true a') then Some (BtfFailed e logBuf, [a])
      else if negb (a_size a' =? 0) && negb (is e ENOSPC) then Some (BtfFailed e logBuf, [a])
      else
        let logSize := u32 (Z.max (b_len logBuf * 2) minLogSize) in
        if logSize <? b_len logBuf then Some (BtfOverflow, [a])
        else
          let logSize := if negb (a_true a' =? 0) then a_true a' else logSize in
          match btfLoop k fuel (S calls) (Attr 1 logSize (a_true a') (Some logSize)) (makebuf logSize) with
          | Some (o, tr) => Some (o, a :: tr)
          | None => None
          end
    end
  end.
Definition btfLoad (k : kernel) (fuel : nat) : option (btf_outcome * list attr) := btfLoop k fuel 1 (Attr 0 0 0 None) nilbuf.
Inductive btf_report := BHandle | BToken | BUnsupported | BOverflow | BVerifier (e : verifierError err).
(** btf/handle.go:102-111; [haveBTF]: the kernel supports BTF *)
Definition newHandle (k : kernel) (fuel : nat) (haveBTF : bool) : option (btf_report * list attr) :=
  match btfLoad k fuel with
  | None => None
  | Some (BtfLoaded, tr) => Some (BHandle, tr)
  | Some (BtfOverflow, tr) => Some (BOverflow, tr)
  | Some (BtfFailed TokenErr _, tr) => Some (BToken, tr)
  | Some (BtfFailed e b, tr) => Some (if haveBTF then BVerifier (ErrorWithLog (lit "load btf") e (b_data b)) else BUnsupported, tr)
  end.
