(** What the kernel does with the log attributes of BPF_PROG_LOAD. *)
From Coq Require Import List Bool Arith Lia Ascii String ZArith.
From Verif Require Import Base.GoInt Prog.VerifierError Prog.VerifierErrorSpec Prog.Load.
Import ListNotations.
Open Scope list_scope. Open Scope Z_scope.

(** bpf_verifier_log_attr_valid of the kernel: level, size and buffer come together, and the
    size is at most UINT_MAX >> 2. *)
Definition valid (a : attr) : Prop :=
  a_level a = 0 /\ a_size a = 0 /\ a_buf a = None \/
  a_level a <> 0 /\ 0 < a_size a <= 1073741823 /\ a_buf a = Some (a_size a).

(** The verifier's view of one program: the text it logs at each level, what it decides, and
    whether it fills in LogTrueSize (Linux 6.4). *)
Record verifier := Verifier { v_log : Z -> bytes; v_verdict : option err; v_hints : bool }.
(** the room the log takes, with the final zero byte *)
Definition need (v : verifier) (level : Z) : Z := Z.of_nat (List.length (v_log v level)) + 1.
Definition hints (v : verifier) (level : Z) (t : option Z) : Prop :=
  if v_hints v then t = Some (need v level) else t = None.

Inductive answers (v : verifier) (a : attr) : reply -> Prop :=
| ans_invalid : ~ valid a -> answers v a (Reply (Some (Errno EINVAL)) [] None)
| ans_silent : forall t, valid a -> a_level a = 0 -> t = None \/ t = Some 0 -> answers v a (Reply (v_verdict v) [] t)
| ans_logged : forall rest t, valid a -> a_level a <> 0 -> need v (a_level a) <= a_size a -> hints v (a_level a) t ->
    answers v a (Reply (v_verdict v) (v_log v (a_level a) ++ NUL :: rest) t)
    (* the log does not fit: some of it is in the buffer *)
| ans_full : forall data t, valid a -> a_level a <> 0 -> a_size a < need v (a_level a) -> hints v (a_level a) t ->
    answers v a (Reply (Some (match v_verdict v with Some (Errno e) => if e =? EFAULT then Errno EFAULT else Errno ENOSPC | _ => Errno ENOSPC end)) data t).
Definition verifies (k : kernel) (v : verifier) : Prop := forall i a, answers v a (k i a).

(** A kernel that refuses to run the verifier at all. *)
Definition refuses (k : kernel) (e : err) : Prop := forall i a, k i a = Reply (Some e) [] None.

(** A kernel that never fills in LogTrueSize. *)
Definition no_hints (k : kernel) : Prop := forall i a, r_true (k i a) = None \/ r_true (k i a) = Some 0.

(** The level the user gets a log for when the program is rejected: the one that was asked
    for, or 1 (LogLevelBranch). *)
Definition level (o : options) : Z := if o_level o =? 0 then 1 else o_level o.
Definition options_ok (o : options) : Prop := in_u 32 (o_level o) /\ in_u 32 (o_start o).

(** [s] is in the last 256 bytes of [log] *)
Definition near_end (log s : bytes) : Prop := exists before after, log = before ++ s ++ after /\ (List.length (s ++ after) <= 256)%nat.

(** The cause reported for an errno and a log. *)
Definition explained (e : Z) (log : bytes) (c : cause) : Prop :=
  let badCall := near_end log (lit "invalid func unknown#195896080" ++ [NL]) in
  let badKfunc := near_end log (lit "invalid func unknown#233685214" ++ [NL]) in
  let badLoad := near_end log (lit "(18) r10 = 0xbad2310" ++ [NL]) in
  (c = BadRelocation /\ (e = EINVAL /\ badCall \/ e = EACCES /\ badLoad)) \/
  (c = UnknownKfunc /\ e = EINVAL /\ badKfunc /\ ~ badCall) \/
  (c = CErr (Errno e) /\ (e = EINVAL -> ~ badCall /\ ~ badKfunc) /\ (e = EACCES -> ~ badLoad)).
