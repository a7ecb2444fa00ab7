(** Model of the last steps before a program is loaded: references to the kernel's configuration,
    variables and functions are replaced (linker.go:231-458, 542-600, prog.go:358-393).

    Maps and BTF handles are numbered in the order in which they are opened. *)
From Coq Require Import String.
From Verif Require Import Base.GoInt Asm.Model.
Open Scope Z_scope.

Section Fixups.
(** Types of functions *)
Variable T : Type.

(** What the ELF reader attaches to an instruction (elf_reader.go:25-45); the map of a kconfig
    reference is a *MapSpec. Untyped ksyms are the subject of C73. *)
Inductive ext :=
| MKconfig (map : nat) (offset : Z)
| MKsym (name : string) (weak : bool)
| MKfunc (name : string) (weak : bool) (ty : T).
Definition insn := (instr * option ext)%type.

(** findTargetInKernel (prog.go:1257-1281): the type ID, the module (none for vmlinux) and the
    type of a symbol; ErrNotFound, also if the kernel has no BTF; or another error. *)
Inductive found (A : Type) := Found (id : Z) (module : option string) (a : A) | Missing | Broken.
Arguments Found {A}. Arguments Missing {A}. Arguments Broken {A}.
(** The kernel: its functions and variables, btf.CheckTypeCompatibility, the descriptor of an
    open object, whether the BTF can be loaded at all (cache.Kernel), whether a .kconfig map can
    be filled in and created, and whether bpf_probe_read_kernel is supported. *)
Record kernel := Kernel {
  k_func : string -> found T; k_var : string -> found unit; k_compat : T -> T -> bool;
  k_fd : nat -> Z; k_btf : bool; k_kconfig : nat -> bool; k_probeRead : bool }.

(** What is open: numbers with the module (handles) or without (maps) *)
Record world := World { next : nat; live : list (nat * option string) }.
Definition open_ (m : option string) (w : world) : nat * world := (next w, World (S (next w)) ((next w, m) :: live w)).
Definition close_ (n : nat) (w : world) : world := World (next w) (filter (fun h => negb (Nat.eqb (fst h) n)) (live w)).
Definition closeList (ns : list nat) (w : world) : world := fold_left (fun w n => close_ n w) ns w.

Inductive failure := FNotMapLoad | FMultipleKconfig | FKconfig | FNotDWord | FNegative | FLookup | FUnsatisfied | FBtf | FKfuncUse | FMissing | FTooMany | FIncompatible.

(** linker.go:398-452; the map that was created *)
Definition firstKconfig (insns : list insn) : option nat :=
  match find (fun i => match snd i with Some (MKconfig _ _) => true | _ => false end) insns with
  | Some (_, Some (MKconfig m _)) => Some m
  | _ => None
  end.
Fixpoint setKconfig (k : kernel) (spec map : nat) (insns : list insn) : res failure (list insn) :=
  match insns with
  | [] => Ok []
  | (i, Some (MKconfig m off)) :: rest =>
      if negb (Nat.eqb m spec) then Err FMultipleKconfig
      else match ins_AssociateMap (k_fd k map) i with
           | Err _ => Err FNotMapLoad
           | Ok i' => match setKconfig k spec map rest with
                      | Err e => Err e
                      | Ok r => Ok ((set_cons i' (i64 (u64 (Z.shiftl (u32 off) 32))), None) :: r)
                      end
           end
  | x :: rest => match setKconfig k spec map rest with Err e => Err e | Ok r => Ok (x :: r) end
  end.
Definition resolveKconfigReferences (k : kernel) (insns : list insn) (w : world) : world * res failure (list insn * option nat) :=
  match firstKconfig insns with
  | None => (w, Ok (insns, None))
  | Some spec =>
      if negb (k_kconfig k spec) then (w, Err FKconfig)
      else let '(map, w) := open_ None w in
           match setKconfig k spec map insns with
           | Err e => (close_ map w, Err e)
           | Ok r => (w, Ok (r, Some map))
           end
  end.

(** asm/instruction.go:282-295 *)
Definition AssociateBTFID (id fd : Z) (i : instr) : res failure instr :=
  if negb (IsDWordLoad (OpCode i)) then Err FNotDWord
  else if fd <? 0 then Err FNegative
  else Ok (set_cons (set_src i PseudoBtfId) (i64 (Z.lor (u32 id) (u64 (Z.shiftl fd 32))))).

(** linker.go:542-600: [syms] are the symbols resolved so far with their handle, [mods] the
    handles to be kept. The deferred function of lines 547-551 closes the named result, which
    every [return nil, err] has set to nil before: it closes nothing. *)
Fixpoint typedKsyms (k : kernel) (insns : list insn) (syms : list (string * (Z * option nat))) (mods : list nat) (w : world)
  : world * res failure (list insn * list nat) :=
  match insns with
  | [] => (w, Ok ([], mods))
  | (i, Some (MKsym name weak)) :: rest =>
      let use (id : Z) (h : option nat) syms mods w :=
        match AssociateBTFID id (match h with Some n => k_fd k n | None => 0 end) i with
        | Err e => (w, Err e)
        | Ok i' => match typedKsyms k rest syms mods w with
                   | (w, Err e) => (w, Err e)
                   | (w, Ok (r, m)) => (w, Ok ((i', Some (MKsym name weak)) :: r, m))
                   end
        end in
      match lookup name syms with
      | Some (id, h) => use id h syms mods w
      | None =>
          match k_var k name with
          | Missing => if weak then match typedKsyms k rest syms mods w with
                                    | (w, Err e) => (w, Err e)
                                    | (w, Ok (r, m)) => (w, Ok ((i, Some (MKsym name weak)) :: r, m))
                                    end
                       else (w, Err FMissing)
          | Broken => (w, Err FLookup)
          | Found id None _ => use id None ((name, (id, None)) :: syms) mods w
          | Found id (Some md) _ =>
              let '(h, w) := open_ (Some md) w in
              if Z.of_nat (List.length mods) =? 32767 then (w, Err FTooMany)
              else use id (Some h) ((name, (id, Some h)) :: syms) (mods ++ [h]) w
          end
      end
  | x :: rest => match typedKsyms k rest syms mods w with
                 | (w, Err e) => (w, Err e)
                 | (w, Ok (r, m)) => (w, Ok (x :: r, m))
                 end
  end.

(** linker.go:375-393 *)
Definition fixupProbeReadKernel (k : kernel) (i : instr) : instr :=
  if negb (IsBuiltinCall i) then i
  else if k_probeRead k then i
  else let fn := u32 (Constant i) in
       if (fn =? 113) || (fn =? 112) then set_cons i 4
       else if (fn =? 115) || (fn =? 114) then set_cons i 45
       else i.
(** linker.go:231-247 *)
Fixpoint fixupAndValidate (k : kernel) (insns : list insn) : res failure (list insn) :=
  match insns with
  | [] => Ok []
  | (i, m) :: rest =>
      let needsMap := negb (String.eqb (Reference i) EmptyString) || match m with Some (MKconfig _ _) => true | _ => false end in
      if IsLoadFromMap i && needsMap && match MapFD i with None => true | Some _ => false end then Err FUnsatisfied
      else match fixupAndValidate k rest with
           | Err e => Err e
           | Ok r => Ok ((fixupProbeReadKernel k i, m) :: r)
           end
  end.

(** linker.go:253, asm/func.go:18-23; the constant is below 2^28, so its tag is Linux's *)
Definition kfuncCallPoisonBase := 0xdedc0de.
Definition poison : instr := mkIns (SetJumpOp JumpClass Call) 0 0 0 kfuncCallPoisonBase EmptyString EmptyString None.

(** linker.go:24-37 *)
Definition addHandle (h : option nat) (hs : list nat) : res failure (Z * list nat) :=
  match h with
  | None => Ok (0, hs)
  | Some n => if Z.of_nat (List.length hs) =? 32767 then Err FTooMany else Ok (Z.of_nat (List.length hs) + 1, hs ++ [n])
  end.

(** linker.go:257-363, the loop: the instructions before the iterator, its instruction and those
    after it. [None]: lack of fuel. *)
Fixpoint kfuncLoop (fuel : nat) (k : kernel) (before : list insn) (cur : insn) (after : list insn) (hs : list nat) (w : world)
  : option (world * res failure (list insn * list nat)) :=
  match fuel with
  | O => None
  | S fuel =>
      let nextOrBreak cur hs w :=
        match after with
        | [] => Some (w, Ok (before ++ [cur], hs))
        | c :: r => kfuncLoop fuel k (before ++ [cur]) c r hs w
        end in
      match cur with
      | (i, Some (MKfunc name weak ty)) =>
          match k_func k name with
          | Missing =>
              let nextAnyway cur :=
                match after with
                | [] => kfuncLoop fuel k before cur [] hs w
                | c :: r => kfuncLoop fuel k (before ++ [cur]) c r hs w
                end in
              if weak then
                if IsKfuncCall i then nextAnyway (poison, None)
                else if IsDWordLoad (OpCode i) then nextAnyway (set_src (set_cons i 0) 0, Some (MKfunc name weak ty))
                else Some (closeList hs w, Err FKfuncUse)
              else Some (closeList hs w, Err FMissing)
          | Broken => Some (closeList hs w, Err FLookup)
          | Found id md target =>
              let '(h, w) := match md with
                             | None => (None, w)
                             | Some m => let '(n, w) := open_ (Some m) w in (Some n, w)
                             end in
              match addHandle h hs with
              | Err e => Some (closeList hs w, Err e)
              | Ok (idx, hs) =>
                  if negb (k_compat k ty target) then Some (closeList hs w, Err FIncompatible)
                  else nextOrBreak (set_off (set_cons i (u32 id)) (i16 idx), Some (MKfunc name weak ty)) hs w
              end
          end
      | _ => nextOrBreak cur hs w
      end
  end.
Definition isKfunc (x : insn) : bool := match snd x with Some (MKfunc _ _ _) => true | _ => false end.
Definition fixupKfuncs (fuel : nat) (k : kernel) (insns : list insn) (w : world) : option (world * res failure (list insn * list nat)) :=
  if negb (existsb isKfunc insns) then Some (w, Ok (insns, []))
  else if negb (k_btf k) then Some (w, Err FBtf)
  else match insns with
       | [] => None   (* excluded: there is a kfunc *)
       | c :: r => kfuncLoop fuel k [] c r [] w
       end.

(** prog.go:358-393: resolve all, load, and close what was opened. [load] is given the
    instructions, attr.FdArray (linker.go:39-47) and what is open during the system call. *)
Definition fdArray (k : kernel) (hs : list nat) : list Z := match hs with [] => [] | _ => 0 :: map (k_fd k) hs end.
Definition closeOpt (o : option nat) (w : world) : world := match o with Some n => close_ n w | None => w end.
Record loadArgs := LoadArgs { a_insns : list instr; a_fds : list Z; a_live : list (nat * option string) }.
Definition prepare (fuel : nat) (k : kernel) (insns : list insn) (w : world) : option (world * res failure loadArgs) :=
  match resolveKconfigReferences k insns w with
  | (w, Err e) => Some (w, Err e)
  | (w, Ok (insns, kconfig)) =>
      match typedKsyms k insns [] [] w with
      | (w, Err e) => Some (closeOpt kconfig w, Err e)
      | (w, Ok (insns, ksyms)) =>
          match fixupAndValidate k insns with
          | Err e => Some (closeOpt kconfig (closeList ksyms w), Err e)
          | Ok insns =>
              match fixupKfuncs fuel k insns w with
              | None => None
              | Some (w, Err e) => Some (closeOpt kconfig (closeList ksyms w), Err e)
              | Some (w, Ok (insns, hs)) =>
                  Some (closeOpt kconfig (closeList ksyms (closeList hs w)), Ok (LoadArgs (map fst insns) (fdArray k hs) (live w)))
              end
          end
      end
  end.
End Fixups.
