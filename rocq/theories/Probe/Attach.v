(** Model of attaching and closing kprobes and uprobes (link/kprobe.go:78-127, 159-372,
    link/uprobe.go:284-408, link/perf_event.go:59-111, 275-331, internal/tracefs/kprobe.go:262-397).

    The kernel's answer to each system call is arbitrary: [k n] is the answer to the n-th one.
    Strings are lists of bytes, as in Probe/Event.v. *)
From Verif Require Import Base.GoInt Probe.Event.
Open Scope Z_scope.

(** Errors of the kernel as far as the code tells them apart *)
Inductive errno := ENOENT | EINVAL | EILSEQ | ERANGE | EOTHER.
Inductive ans := Yes | No (e : errno).
(** The errors returned: those of the kernel, ErrNotSupported, others *)
Inductive err := Kern (e : errno) | NotSupported | Other.
Inductive via := PMU | Tracefs.
(** What kprobe_events is opened for, for the log only *)
Inductive purpose := ToCreate | ToRemove.
Inductive act :=
| Try (v : via) (symbol : str)
| ReadType | ReadRetprobe | PerfOpen (target : str) (offset config : Z)
| ReadId (group name : str) | OpenEvents (why : purpose) | WriteEvent (a : args) | ReadNewId (group name : str)
| RemoveEvent (group name : str) | OpenTracepoint (group name : str)
| HaveLink | CreateLink (fd : nat) (cookie : Z) | SetBPF (fd : nat) | Enable (fd : nat).
(** Open descriptors are numbered in the order in which they are opened; [evs]: the events
    that exist in tracefs *)
Record st := St { log : list (act * ans); next : nat; fds : list nat; evs : list (str * str); rnd : nat }.
Definition M (A : Type) := st -> st * A.
Definition ret {A} (a : A) : M A := fun s => (s, a).
Definition bind {A B} (m : M A) (f : A -> M B) : M B := fun s => let '(s, a) := m s in f a s.
Notation "x <- m ; n" := (bind m (fun x => n)) (at level 100, m at next level, right associativity).
Section Kernel.
Variable k : nat -> ans.
(** The random bytes of the n-th group *)
Variable random : nat -> str.
(** The bit of the config that makes a return probe, as read from sysfs (and cached) *)
Variable retBit : Z.

Definition str_eqb (a b : str) : bool := if list_eq_dec Z.eq_dec a b then true else false.
Definition same (a b : str * str) : bool := str_eqb (fst a) (fst b) && str_eqb (snd a) (snd b).
(** The id of an event that exists is not missing. *)
Definition answer (s : st) (a : act) : ans :=
  match a, k (length (log s)) with
  | ReadId g n, No ENOENT => if existsb (same (g, n)) (evs s) then Yes else No ENOENT
  | _, r => r
  end.
Definition ask (a : act) : M ans := fun s => let r := answer s a in (St (log s ++ [(a, r)]) (next s) (fds s) (evs s) (rnd s), r).
Definition note (a : act) : M unit := fun s => (St (log s ++ [(a, Yes)]) (next s) (fds s) (evs s) (rnd s), tt).
Definition open_ : M nat := fun s => (St (log s) (S (next s)) (next s :: fds s) (evs s) (rnd s), next s).
Definition close_ (n : nat) : M unit := fun s => (St (log s) (next s) (filter (fun m => negb (Nat.eqb m n)) (fds s)) (evs s) (rnd s), tt).
Definition addEvent (e : str * str) : M unit := fun s => (St (log s) (next s) (fds s) (e :: evs s) (rnd s), tt).
Definition delEvent (e : str * str) : M unit := fun s => (St (log s) (next s) (fds s) (filter (fun x => negb (same x e)) (evs s)) (rnd s), tt).
Definition draw : M str := fun s => (St (log s) (next s) (fds s) (evs s) (S (rnd s)), random (rnd s)).

(** link/kprobe.go:223-332. unsafeStringPtr fails with EINVAL for strings with a NUL byte. *)
Definition target (a : args) : str := match a_kind a with Kprobe => a_symbol a | Uprobe => a_path a end.
(** lines 242-249, 286-288 *)
Definition pmuConfig (a : args) : Z :=
  let config := if a_ret a then wrapu 64 (Z.shiftl 1 retBit) else 0 in
  match a_kind a with
  | Kprobe => config
  | Uprobe => if negb (a_ref a =? 0) then Z.lor config (wrapu 64 (Z.shiftl (a_ref a) 32)) else config
  end.
Definition pmuProbe (a : args) : M (res err nat) :=
  _ <- note (Try PMU (a_symbol a));
  r <- ask ReadType;
  match r with
  | No ENOENT => ret (Err NotSupported)
  | No e => ret (Err (Kern e))
  | Yes =>
      if negb (a_maxActive a =? 0) then ret (Err NotSupported)
      else
        r <- (if a_ret a then ask ReadRetprobe else ret Yes);
        match r with
        | No e => ret (Err (Kern e))
        | Yes =>
            if existsb (Z.eqb 0) (target a) then ret (Err (Kern EINVAL))
            else
              r <- ask (PerfOpen (target a) (a_offset a) (pmuConfig a));
              match r with
              | No EINVAL => ret (Err (if existsb (Z.eqb 46) (a_symbol a) then NotSupported else Kern EINVAL))
              | No EILSEQ => ret (Err (Kern ENOENT))
              | No e => ret (Err (Kern e))
              | Yes => n <- open_; ret (Ok n)
              end
        end
  end.


Definition removeEvent (group name : str) : M (option err) :=
  r <- ask (OpenEvents ToRemove);
  match r with
  | No e => ret (Some (Kern e))
  | Yes => r <- ask (RemoveEvent group name);
           match r with No e => ret (Some (Kern e)) | Yes => _ <- delEvent (group, name); ret None end
  end.
(** tracefs/kprobe.go:262-371; [kprobes]: the group kprobes. Kernels before 4.12 ignore the names
    if there is a maxactive: the kernel's answer to ReadNewId tells. *)
Definition kprobes : str := [107; 112; 114; 111; 98; 101; 115].
Definition spuriousName (a : args) : str := [114; 95] ++ a_symbol a ++ [95] ++ fmt_d (a_offset a).
Definition newEvent (a : args) : M (res err (str * str)) :=
  let name := sanitizeIdentifier (a_symbol a) in
  if negb (validIdentifier (a_group a)) || negb (validIdentifier name) then ret (Err Other)
  else
    r <- ask (ReadId (a_group a) name);
    match r with
    | Yes => ret (Err Other)
    | No ENOENT =>
        r <- ask (OpenEvents ToCreate);
        match r with
        | No e => ret (Err (Kern e))
        | Yes =>
            match eventLine a with
            | Err _ => ret (Err Other)
            | Ok _ =>
                r <- ask (WriteEvent a);
                match r with
                | No EILSEQ => ret (Err (Kern ENOENT))
                | No ERANGE => ret (Err (Kern ENOENT))
                | No e => ret (Err (Kern e))
                | Yes =>
                    r <- ask (ReadNewId (a_group a) name);
                    match r with
                    | No ENOENT =>
                        if negb (a_maxActive a =? 0) then
                          _ <- addEvent (kprobes, spuriousName a);
                          r <- removeEvent kprobes (spuriousName a);
                          match r with Some _ => ret (Err Other) | None => ret (Err NotSupported) end
                        else _ <- addEvent (a_group a, name); ret (Err (Kern ENOENT))
                    | No e => _ <- addEvent (a_group a, name); ret (Err (Kern e))
                    | Yes => _ <- addEvent (a_group a, name); ret (Ok (a_group a, name))
                    end
                end
            end
        end
    | No e => ret (Err (Kern e))
    end.

(** link/perf_event.go:51-75 *)
Record perfEvent := PerfEvent { pe_fd : nat; pe_event : option (str * str) }.
(** link/kprobe.go:340-372 *)
Definition ebpf : str := [101; 98; 112; 102].
Definition tracefsProbe (a : args) : M (res err perfEvent) :=
  _ <- note (Try Tracefs (a_symbol a));
  b <- draw;
  match RandomGroup (match a_group a with [] => ebpf | g => g end) b with
  | Err _ => ret (Err Other)
  | Ok group =>
      let a := Args (a_kind a) (a_symbol a) group (a_path a) (a_offset a) (a_ref a) (a_maxActive a) (a_ret a) in
      r <- newEvent a;
      match r with
      | Err e => ret (Err e)
      | Ok (g, n) =>
          r <- ask (OpenTracepoint g n);
          match r with
          | Yes => fd <- open_; ret (Ok (PerfEvent fd (Some (g, n))))
          | No e => _ <- removeEvent g n; ret (Err (Kern e))
          end
      end
  end.

(** link/kprobe.go:159-221; the checks of the program are left out. [prefix]: the platform's
    prefix of system calls *)
Definition withSymbol (a : args) (s : str) : args := Args (a_kind a) s (a_group a) (a_path a) (a_offset a) (a_ref a) (a_maxActive a) (a_ret a).
Definition orPrefix {A} (prefix symbol : str) (probe : str -> M (res err A)) : M (res err A) :=
  r <- probe symbol;
  match r, prefix with
  | Err (Kern ENOENT), _ :: _ | Err (Kern EINVAL), _ :: _ => probe (prefix ++ symbol)
  | _, _ => ret r
  end.
Definition kprobe (prefix : str) (a : args) : M (res err perfEvent) :=
  if negb (isValidKprobeSymbol (a_symbol a)) then ret (Err Other)
  else
    r <- orPrefix prefix (a_symbol a) (fun s => pmuProbe (withSymbol a s));
    match r with
    | Ok n => ret (Ok (PerfEvent n None))
    | Err NotSupported => orPrefix prefix (a_symbol a) (fun s => tracefsProbe (withSymbol a s))
    | Err e => ret (Err e)
    end.
(** link/uprobe.go:355-408, after the address was found *)
Definition uprobe (a : args) : M (res err perfEvent) :=
  r <- pmuProbe a;
  match r with
  | Ok n => ret (Ok (PerfEvent n None))
  | Err NotSupported => tracefsProbe a
  | Err e => ret (Err e)
  end.

(** link/perf_event.go:66-77; [closed]: the FD was closed before (sys.FD.Close does nothing then),
    and the event (tracefs/kprobe.go:377-387) *)
Definition closeEvent (pe : perfEvent) (closed : bool) : M (option err) :=
  _ <- (if closed then ret tt else close_ (pe_fd pe));
  match pe_event pe with
  | Some (g, n) => if closed then ret (Some Other) else removeEvent g n
  | None => ret None
  end.
Inductive link := PerfLink (fd : nat) (pe : perfEvent) | Ioctl (pe : perfEvent).
(** link/perf_event.go:275-331 *)
Definition attachPerfEvent (pe : perfEvent) (cookie : Z) : M (res err link) :=
  r <- ask HaveLink;
  match r with
  | Yes => r <- ask (CreateLink (pe_fd pe) cookie);
           match r with
           | Yes => n <- open_; ret (Ok (PerfLink n pe))
           | No _ => ret (Err Other)
           end
  | No _ =>
      if negb (cookie =? 0) then ret (Err NotSupported)
      else r <- ask (SetBPF (pe_fd pe));
           match r with
           | No e => ret (Err (Kern e))
           | Yes => r <- ask (Enable (pe_fd pe));
                    match r with No _ => ret (Err Other) | Yes => ret (Ok (Ioctl pe)) end
           end
  end.
(** link/kprobe.go:84-97, link/uprobe.go:284-297 *)
Definition attach (probe : M (res err perfEvent)) (cookie : Z) : M (res err link) :=
  r <- probe;
  match r with
  | Err e => ret (Err e)
  | Ok pe =>
      r <- attachPerfEvent pe cookie;
      match r with
      | Ok l => ret (Ok l)
      | Err e => _ <- closeEvent pe false; ret (Err e)
      end
  end.
Definition Kprobe_ (prefix : str) (a : args) (cookie : Z) : M (res err link) := attach (kprobe prefix a) cookie.
Definition Uprobe_ (a : args) (cookie : Z) : M (res err link) := attach (uprobe a) cookie.
(** link/perf_event.go:98-111 *)
Definition closeLink (l : link) (closed : bool) : M (option err) :=
  match l with
  | PerfLink n pe => _ <- (if closed then ret tt else close_ n); closeEvent pe closed
  | Ioctl pe => closeEvent pe closed
  end.
End Kernel.
