(** Model of getProgType and matchSectionName (elf_reader.go:1614-1676) and of the table elf_sections.go: the type of a
    program according to the name of its section. *)
From Coq Require Import String Ascii.
From Verif.Base Require Import GoInt.
From Verif.Internal Require Import Kallsyms Kconfig.

(** string literals as bytes *)
Fixpoint lit (s : string) : str := match s with EmptyString => [] | String a s => Z.of_N (N_of_ascii a) :: lit s end.

(** elf_reader.go:1588-1593 *)
Record def := mkDef { d_pattern : string; d_type : Z; d_attach : Z; d_flags : Z }.
(** elf_reader.go:1598-1609 (iota is 0 for _SEC_NONE) *)
Definition SEC_SLEEPABLE := 8. Definition SEC_XDP_FRAGS := 16.
(** internal/sys/types.go *)
Definition BPF_F_SLEEPABLE := 16. Definition BPF_F_XDP_HAS_FRAGS := 32. Definition StructOps := 27.

(** elf_sections.go:9-115, generated from the source *)
Local Open Scope string_scope.
Definition elfSectionDefs : list def := [
  mkDef "socket" 1 0 0;
  mkDef "sk_reuseport/migrate" 21 40 2;
  mkDef "sk_reuseport" 21 39 2;
  mkDef "kprobe+" 2 0 0;
  mkDef "uprobe+" 2 0 0;
  mkDef "uprobe.s+" 2 0 8;
  mkDef "kretprobe+" 2 0 0;
  mkDef "uretprobe+" 2 0 0;
  mkDef "uretprobe.s+" 2 0 8;
  mkDef "kprobe.multi+" 2 42 0;
  mkDef "kretprobe.multi+" 2 42 0;
  mkDef "kprobe.session+" 2 56 0;
  mkDef "uprobe.multi+" 2 48 0;
  mkDef "uretprobe.multi+" 2 48 0;
  mkDef "uprobe.session+" 2 57 0;
  mkDef "uprobe.multi.s+" 2 48 8;
  mkDef "uretprobe.multi.s+" 2 48 8;
  mkDef "uprobe.session.s+" 2 57 8;
  mkDef "ksyscall+" 2 0 0;
  mkDef "kretsyscall+" 2 0 0;
  mkDef "usdt+" 2 0 32;
  mkDef "usdt.s+" 2 0 40;
  mkDef "tc/ingress" 3 46 0;
  mkDef "tc/egress" 3 47 0;
  mkDef "tcx/ingress" 3 46 0;
  mkDef "tcx/egress" 3 47 0;
  mkDef "tc" 3 0 0;
  mkDef "classifier" 3 0 0;
  mkDef "action" 4 0 0;
  mkDef "netkit/primary" 3 54 0;
  mkDef "netkit/peer" 3 55 0;
  mkDef "tracepoint+" 5 0 0;
  mkDef "tp+" 5 0 0;
  mkDef "raw_tracepoint+" 17 0 0;
  mkDef "raw_tp+" 17 0 0;
  mkDef "raw_tracepoint.w+" 24 0 0;
  mkDef "raw_tp.w+" 24 0 0;
  mkDef "tp_btf+" 26 23 4;
  mkDef "fentry+" 26 24 4;
  mkDef "fmod_ret+" 26 26 4;
  mkDef "fexit+" 26 25 4;
  mkDef "fentry.s+" 26 24 12;
  mkDef "fmod_ret.s+" 26 26 12;
  mkDef "fexit.s+" 26 25 12;
  mkDef "fsession+" 26 58 4;
  mkDef "fsession.s+" 26 58 12;
  mkDef "freplace+" 28 0 4;
  mkDef "lsm+" 29 27 4;
  mkDef "lsm.s+" 29 27 12;
  mkDef "lsm_cgroup+" 29 43 4;
  mkDef "iter+" 26 28 4;
  mkDef "iter.s+" 26 28 12;
  mkDef "syscall" 31 0 8;
  mkDef "xdp.frags/devmap" 6 33 16;
  mkDef "xdp/devmap" 6 33 2;
  mkDef "xdp.frags/cpumap" 6 35 16;
  mkDef "xdp/cpumap" 6 35 2;
  mkDef "xdp.frags" 6 37 16;
  mkDef "xdp" 6 37 3;
  mkDef "perf_event" 7 0 0;
  mkDef "lwt_in" 10 0 0;
  mkDef "lwt_out" 11 0 0;
  mkDef "lwt_xmit" 12 0 0;
  mkDef "lwt_seg6local" 19 0 0;
  mkDef "sockops" 13 3 3;
  mkDef "sk_skb/stream_parser" 14 4 3;
  mkDef "sk_skb/stream_verdict" 14 5 3;
  mkDef "sk_skb/verdict" 14 38 3;
  mkDef "sk_skb" 14 0 0;
  mkDef "sk_msg" 16 7 3;
  mkDef "lirc_mode2" 20 16 3;
  mkDef "flow_dissector" 22 17 3;
  mkDef "cgroup_skb/ingress" 8 0 3;
  mkDef "cgroup_skb/egress" 8 1 3;
  mkDef "cgroup/skb" 8 0 0;
  mkDef "cgroup/sock_create" 9 2 2;
  mkDef "cgroup/sock_release" 9 34 2;
  mkDef "cgroup/sock" 9 2 3;
  mkDef "cgroup/post_bind4" 9 12 2;
  mkDef "cgroup/post_bind6" 9 13 2;
  mkDef "cgroup/bind4" 18 8 2;
  mkDef "cgroup/bind6" 18 9 2;
  mkDef "cgroup/connect4" 18 10 2;
  mkDef "cgroup/connect6" 18 11 2;
  mkDef "cgroup/connect_unix" 18 49 2;
  mkDef "cgroup/sendmsg4" 18 14 2;
  mkDef "cgroup/sendmsg6" 18 15 2;
  mkDef "cgroup/sendmsg_unix" 18 50 2;
  mkDef "cgroup/recvmsg4" 18 19 2;
  mkDef "cgroup/recvmsg6" 18 20 2;
  mkDef "cgroup/recvmsg_unix" 18 51 2;
  mkDef "cgroup/getpeername4" 18 29 2;
  mkDef "cgroup/getpeername6" 18 30 2;
  mkDef "cgroup/getpeername_unix" 18 52 2;
  mkDef "cgroup/getsockname4" 18 31 2;
  mkDef "cgroup/getsockname6" 18 32 2;
  mkDef "cgroup/getsockname_unix" 18 53 2;
  mkDef "cgroup/sysctl" 23 18 2;
  mkDef "cgroup/getsockopt" 25 21 2;
  mkDef "cgroup/setsockopt" 25 22 2;
  mkDef "cgroup/dev" 15 6 3;
  mkDef "struct_ops+" 27 0 0;
  mkDef "struct_ops.s+" 27 0 8;
  mkDef "sk_lookup" 30 36 2;
  mkDef "netfilter" 32 45 0].
Local Close Scope string_scope.

(** strings.TrimPrefix(s, "?") *)
Definition trimOptional (s : str) : str := match s with 63 :: t => t | _ => s end.
(** strings.Cut(s, "/") *)
Definition cutSlash (s : str) : str * str * bool := match cut 47 s with Some (a, b) => (a, b, true) | None => (s, [], false) end.
(** strings.TrimRight(p, "+/") *)
Fixpoint trimLeftMarks (s : str) : str := match s with c :: t => if (c =? 43) || (c =? 47) then trimLeftMarks t else s | [] => [] end.
Definition trimMarks (p : str) : str := rev (trimLeftMarks (rev p)).
Definition hasSuffix (s : str) (c : Z) : bool := match rev s with x :: _ => x =? c | [] => false end.
(** elf_reader.go:1660-1676 matchSectionName *)
Definition matchSectionName (name pattern : str) : str * bool :=
  let '(have, extra, found) := cutSlash name in
  let want := trimMarks pattern in
  if hasSuffix pattern 47 then (extra, str_eqb have want && found)
  else if hasSuffix pattern 43 then (extra, str_eqb have want)
  else ([], hasPrefix pattern name).
(** elf_reader.go:1614-1655 getProgType: program type, attach type, flags, attach target *)
Record ptype := mkPtype { p_type : Z; p_attach : Z; p_flags : Z; p_to : str }.
Fixpoint search (defs : list def) (name : str) : ptype :=
  match defs with
  | [] => mkPtype 0 0 0 []
  | t :: defs =>
      let (extra, ok) := matchSectionName name (lit (d_pattern t)) in
      if negb ok then search defs name
      else
        let flags := if 0 <? Z.land (d_flags t) SEC_SLEEPABLE then Z.lor 0 BPF_F_SLEEPABLE else 0 in
        let flags := if 0 <? Z.land (d_flags t) SEC_XDP_FRAGS then Z.lor flags BPF_F_XDP_HAS_FRAGS else flags in
        mkPtype (d_type t) (d_attach t) flags (if d_type t =? StructOps then [] else extra)
  end.
Definition getProgType (name : str) : ptype := search elfSectionDefs (trimOptional name).
