(** Specification of C88: what attaching a probe asked the kernel, as a log of requests and
    answers, and what it leaves behind: open descriptors and events in tracefs. *)
From Verif Require Import Base.GoInt Probe.Event Probe.Attach.
Open Scope Z_scope.

Definition trace := list (act * ans).
Definition isTry (x : act * ans) : Prop := match fst x with Try _ _ => True | _ => False end.
(** The descriptors and the event a link holds *)
Definition held (l : link) : list nat := match l with PerfLink n pe => [n; pe_fd pe] | Ioctl pe => [pe_fd pe] end.
Definition perf (l : link) : perfEvent := match l with PerfLink _ pe => pe | Ioctl pe => pe end.
Definition event (l : link) : list (str * str) := match pe_event (perf l) with Some e => [e] | None => [] end.
(** Removing it from a list *)
Definition without {A} (gone l l' : list A) : Prop := forall x, In x l' <-> In x l /\ ~ In x gone.

(** The requests whose failure leaves an event behind: its id can't be read although it was
    just created, or it can't be removed. Old kernels that ignore the names of events with a maxactive
    are not among them. *)
Definition stuck (a : args) (x : act * ans) : Prop :=
  match x with
  | (ReadNewId _ _, No ENOENT) => a_maxActive a = 0
  | (ReadNewId _ _, No _) => True
  | (OpenEvents ToRemove, No _) => True
  | (RemoveEvent _ _, No _) => True
  | _ => False
  end.
(** The same probe of another symbol, in another group of events *)
Definition named (a : args) (symbol group : str) : args :=
  Args (a_kind a) symbol group (a_path a) (a_offset a) (a_ref a) (a_maxActive a) (a_ret a).
(** How the kernel reads the config: a bit for return probes, and the upper half for the
    offset of the reference counter *)
Definition reads (retBit config : Z) (ret : bool) (ref : Z) : Prop := Z.testbit config retBit = ret /\ Z.shiftr config 32 = ref.

(** The probe [a] of [symbol] is open as [pe]: on the PMU, or on an event that was created *)
Definition opened (retBit : Z) (a : args) (symbol : str) (pe : perfEvent) (t : trace) : Prop :=
  match pe_event pe with
  | None => a_maxActive a = 0 /\
      exists config, In (PerfOpen (match a_kind a with Kprobe => symbol | Uprobe => a_path a end) (a_offset a) config, Yes) t /\
                     reads retBit config (a_ret a) (match a_kind a with Kprobe => 0 | Uprobe => a_ref a end)
  | Some (g, n) => n = sanitizeIdentifier symbol /\ In (WriteEvent (named a symbol g), Yes) t /\ In (OpenTracepoint g n, Yes) t
  end.
(** A program is attached to it *)
Definition attached (l : link) (cookie : Z) (t : trace) : Prop :=
  match l with
  | PerfLink _ pe => In (CreateLink (pe_fd pe) cookie, Yes) t
  | Ioctl pe => cookie = 0 /\ In (SetBPF (pe_fd pe), Yes) t /\ In (Enable (pe_fd pe), Yes) t
  end.
(** Why tracefs is used: there is no PMU, the probe has a maxactive, or the PMU doesn't accept
    the symbol and it has dots *)
Definition noPMU (a : args) (t : trace) : Prop :=
  In (ReadType, No ENOENT) t \/ a_maxActive a <> 0 \/ (exists x, In (Try PMU x, Yes) t /\ In 46 x) /\ exists x off config, In (PerfOpen x off config, No EINVAL) t.
(** The kernel refuses the probe as unknown. That there is no event of that name yet is
    not such an answer, nor those to removing it. *)
Definition refuses (x : act * ans) : Prop :=
  match x with
  | (ReadId _ _, No ENOENT) | (OpenEvents ToRemove, _) | (RemoveEvent _ _, _) => False
  | (_, No ENOENT) | (_, No EINVAL) | (_, No EILSEQ) | (_, No ERANGE) => True
  | _ => False
  end.
(** The order of the attempts: those on the PMU come before those with tracefs; the symbol comes
    before the one with the prefix, which is tried if the kernel doesn't know the first *)
Definition orderly (a : args) (prefix : str) (t : trace) : Prop :=
  forall t1 v y t2, t = t1 ++ (Try v y, Yes) :: t2 ->
    (y = a_symbol a \/
     prefix <> [] /\ y = prefix ++ a_symbol a /\
     exists u1 u2, t1 = u1 ++ (Try v (a_symbol a), Yes) :: u2 /\ Forall (fun x => ~ isTry x) u2 /\
       Exists refuses u2) /\
    ~ In (Try v y, Yes) t1 /\
    match v with
    | PMU => forall z, ~ In (Try Tracefs z, Yes) t1
    | Tracefs => noPMU a t1
    end.
(** The kernel doesn't know this symbol of a kprobe, or can't put a probe there. *)
Definition notFound (symbol : str) (v : via) (x : act * ans) : Prop :=
  match v, x with
  | PMU, (PerfOpen y _ _, No e) => y = symbol /\ (e = ENOENT \/ e = EILSEQ \/ e = EINVAL /\ ~ In 46 symbol)
  | Tracefs, (WriteEvent b, No e) => a_symbol b = symbol /\ (e = ENOENT \/ e = EILSEQ \/ e = ERANGE \/ e = EINVAL)
  | _, _ => False
  end.
(** link.Kprobe, Kretprobe; (Executable).Uprobe, Uretprobe once the address is known *)
Definition attaching (k : nat -> ans) (random : nat -> str) (retBit : Z) (prefix : str) (a : args) (cookie : Z) : M (res err link) :=
  match a_kind a with Kprobe => Kprobe_ k random retBit prefix a cookie | Uprobe => Uprobe_ k random retBit a cookie end.
(** What the code may assume: sysfs names one of the lower bits, the offset of the counter has
    32 bits (see C88_ref_refuted), and descriptors are not numbered twice. *)
Definition sane (retBit : Z) (prefix : str) (a : args) (s : st) : Prop :=
  0 <= retBit < 32 /\ 0 <= a_ref a < 2 ^ 32 /\ (a_kind a = Uprobe -> prefix = []) /\ Forall (fun n => (n < next s)%nat) (fds s).
(** No event with a name generated by an old kernel exists. *)
Definition noGenerated (s : st) : Prop := forall n, ~ In (kprobes, n) (evs s).
Definition nothingStuck (a : args) (t : trace) : Prop := Forall (fun x => ~ stuck a x) t.
