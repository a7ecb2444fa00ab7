(** Model of prog.go:865-1087 (Test, Run, Benchmark, run), internal/sys/ptr.go:14-41, and of the kernel's BPF_PROG_TEST_RUN: running programs *)
From Verif Require Import Base.GoInt.
Open Scope Z_scope.

(** What one execution of the program leaves: the value returned, the packet, the context *)
Record res := Res { r_ret : Z; r_data : list Z; r_ctx : list Z }.
(** What user space makes of a system call: it goes through, is interrupted after some executions, or fails. *)
Inductive choice := Complete | Signal (m : nat) | Error (e : Z).
Definition EINTR := 4. Definition ENOSPC := 28. Definition EINVAL := 22.

(** A slice: its capacity's worth of bytes, and its length; [None] is nil. *)
Record slice := Slice { s_mem : list Z; s_len : nat }.
Definition cap (s : slice) : nat := length (s_mem s).
Definition content (s : slice) : list Z := firstn (s_len s) (s_mem s).
(** Writing from the start of memory, also past its end as far as the caller is concerned *)
Definition write (mem bytes : list Z) : list Z := bytes ++ skipn (length bytes) mem.

(** internal/sys ProgRunAttr, as far as it matters: sizes, whether the pointers are nil, repetitions *)
Record attr := Attr { a_out : nat; a_ctxin : list Z; a_ctxout : nat; a_repeat : Z }.
(** The kernel: net/bpf/test_run.c bpf_test_run, bpf_test_finish, bpf_ctx_finish. [clip]: the kernel heeds the size of the output buffer (5.0) *)
Record reply := Reply { k_err : option Z; k_ret : Z; k_data : list Z; k_size : nat; k_ctx : list Z }.
Definition failed (e : Z) : reply := Reply (Some e) 0 [] 0 [].
Section Kernel.
Variable exec : nat -> res.
Variable clip : bool.
(** syscall programs: their context is both input and output *)
Variable syscall : bool.
Definition runs (repeat : Z) : nat := Nat.max 1 (Z.to_nat repeat).
Definition kernelRun (a : attr) (k : nat) (c : choice) : reply * nat :=
  match c with
  | Error e => (failed e, k)
  | Signal m => (failed EINTR, (k + m)%nat)
  | Complete =>
      if syscall && (negb (Nat.eqb (a_ctxout a) 0) || negb (Nat.eqb (a_out a) 0) || negb (a_repeat a =? 0)) then (failed EINVAL, k)
      else
      let k' := (k + runs (a_repeat a))%nat in
      let x := exec (k' - 1) in
      let size := length (r_data x) in
      let data := if Nat.eqb (a_out a) 0 then [] else if clip then firstn (a_out a) (r_data x) else r_data x in
      if negb (Nat.eqb (a_out a) 0) && clip && Nat.ltb (a_out a) size then (Reply (Some ENOSPC) (r_ret x) data size [], k')
      else let n := if syscall then length (a_ctxin a) else a_ctxout a in
           if negb (Nat.eqb n 0) && Nat.ltb n (length (r_ctx x)) then (Reply (Some ENOSPC) (r_ret x) data size (firstn n (r_ctx x)), k')
           else (Reply None (r_ret x) data size (if Nat.eqb n 0 then [] else r_ctx x), k')
  end.

(** RunOptions. [o_ctxout]: binary.Size(ContextOut), which is -1 if the type has no fixed size *)
Record opts := Opts { o_out : option slice; o_ctx : option (list Z); o_ctxout : option Z; o_repeat : Z; o_reset : bool }.
(** What Run does: the return value, DataOut and the bytes that ContextOut is decoded from; an error of the kernel, any other error; a panic.
    [resets]: calls of Reset *)
Inductive outcome := Ret (ret : Z) (out : option slice) (ctx : option (list Z)) | KErr (e : Z) | Invalid | Panic.
Record done := Done { d_out : outcome; d_resets : nat; d_runs : nat; d_attempts : nat }.
(** prog.go:1034-1074: the loop; the number of the attempt, of executions so far, and of calls of Reset. [None]: out of fuel *)
Fixpoint attempts (fuel : nat) (a : attr) (reset : bool) (sched : nat -> choice) (i k r : nat) : option (reply * nat * nat * nat) :=
  match fuel with
  | O => None
  | S fuel =>
      let '(p, k) := kernelRun a k (sched i) in
      match k_err p with
      | None => Some (p, S i, k, r)
      | Some e =>
          if e =? EINTR then
            if a_repeat a <=? 1 then Some (Reply None (k_ret p) (k_data p) (a_out a) (k_ctx p), S i, k, r)
            else attempts fuel a reset sched (S i) k (if reset then S r else r)
          else Some (p, S i, k, r)
      end
  end.
(** prog.go:982-1087. An attribute that the kernel did not change keeps the value it had: DataSizeOut that of the buffer, the rest 0. *)
Definition ctxin (o : opts) : list Z := match o_ctx o with Some c => c | None => [] end.
Definition ctxout (o : opts) : option (list Z) := match o_ctxout o with Some z => Some (repeat 0 (Z.to_nat z)) | None => None end.
Definition size_ (c : option (list Z)) : nat := match c with Some c => length c | None => O end.
Definition inplace (o : opts) : bool := syscall && match o_ctx o, ctxout o with Some _, Some _ => true | _, _ => false end.
Definition attrOf (o : opts) : attr :=
  Attr (match o_out o with Some s => s_len s | None => O end) (ctxin o) (if inplace o then O else size_ (ctxout o)) (o_repeat o).
Definition finish (o : opts) (p : reply) : outcome :=
  match k_err p with
  | Some e => KErr e
  | None =>
      let buf := if inplace o then Some (ctxin o) else ctxout o in
      let ctx := match ctxout o, buf with Some _, Some b => Some (write b (k_ctx p)) | _, _ => None end in
      match o_out o with
      | None => Ret (k_ret p) None ctx
      | Some s => if Nat.ltb (cap s) (k_size p) then Panic else Ret (k_ret p) (Some (Slice (write (s_mem s) (k_data p)) (k_size p))) ctx
      end
  end.
Definition run (fuel : nat) (o : opts) (sched : nat -> choice) : option done :=
  if match o_ctxout o with Some z => z <? 0 | None => false end then Some (Done Panic 0 0 0)
  else if inplace o && negb (Nat.eqb (length (ctxin o)) (size_ (ctxout o))) then Some (Done Invalid 0 0 0)
  else match attempts fuel (attrOf o) (o_reset o) sched 0 0 0 with
  | None => None
  | Some (p, i, k, r) => Some (Done (finish o p) r k i)
  end.
End Kernel.
(** prog.go:889-913 Test: a buffer with room for what some kernels write in addition, 256+2 bytes *)
Definition outputPad : nat := 258.
Definition testOpts (input : list Z) : opts := Opts (match input with [] => None | _ => Some (Slice (repeat 0 (length input + outputPad)) (length input + outputPad)) end) None None 1 false.
