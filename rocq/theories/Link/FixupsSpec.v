(** Specification of C84, C85: what becomes of references to the kernel. *)
From Coq Require Import String.
From Verif Require Import Base.GoInt Asm.Model Link.Fixups.
Open Scope Z_scope.

Section Spec.
Variable T : Type.
Notation insn := (insn T). Notation kernel := (kernel T).

(** The helper that is called instead of [fn] if the kernel only has bpf_probe_read(4) and
    bpf_probe_read_str(45): bpf_probe_read_user(112), _kernel(113), _user_str(114) and
    _kernel_str(115). *)
Definition oldHelper (fn : Z) : Z :=
  if existsb (Z.eqb fn) [112; 113] then 4 else if existsb (Z.eqb fn) [114; 115] then 45 else fn.

(** Descriptor [fd] is that of an open handle of [module]. *)
Definition handleOf (k : kernel) (live : list (nat * option string)) (module : string) (fd : Z) : Prop :=
  exists h, In (h, Some module) live /\ fd = k_fd T k h.

(** What is loaded instead of instruction [x], given the fd array and what is open then *)
Definition replaced (k : kernel) (fds : list Z) (live : list (nat * option string)) (x : insn) (i' : instr) : Prop :=
  let i := fst x in
  match snd x with
  | None =>
      if IsBuiltinCall i && negb (k_probeRead T k) then i' = set_cons i (oldHelper (Constant i)) else i' = i
  | Some (MKconfig _ _ off) =>
      (* loads the address [off] bytes into the map *)
      exists map, In (map, None) live /\
        i' = mkIns (OpCode i) (Dst i) (Src i) (Offset i) (i64 (off * 2 ^ 32)) (Symbol i) EmptyString (Some (k_fd T k map))
  | Some (MKsym _ name weak) =>
      match k_var T k name with
      | Found _ id module _ =>
          OpCode i' = OpCode i /\ Dst i' = Dst i /\ Src i' = PseudoBtfId /\ Offset i' = Offset i /\ Symbol i' = Symbol i /\
          exists fd, match module with None => fd = 0 | Some m => handleOf k live m fd end /\ Constant i' = id + fd * 2 ^ 32
      | Missing _ => weak = true /\ i' = i
      | Broken _ => False
      end
  | Some (MKfunc _ name weak ty) =>
      match k_func T k name with
      | Found _ id module target =>
          k_compat T k ty target = true /\
          exists idx, i' = mkIns (OpCode i) (Dst i) (Src i) (Z.of_nat idx) id (Symbol i) (Reference i) (MapFD i) /\
            match module with
            | None => idx = 0%nat
            | Some m => 0 < Z.of_nat idx <= 32767 /\ exists fd, nth_error fds idx = Some fd /\ handleOf k live m fd
            end
      | Missing _ =>
          weak = true /\
          if IsKfuncCall i then i' = mkIns 0x85 0 0 0 0xdedc0de EmptyString EmptyString None (* calls helper 0xdedc0de, which does not exist *)
          else i' = mkIns (OpCode i) (Dst i) 0 (Offset i) 0 (Symbol i) (Reference i) (MapFD i)
      | Broken _ => False
      end
  end.

(** As the ELF reader leaves them (elf_reader.go:744-795): references are on loads of 64 bit
    constants, and on calls for functions; a .kconfig load is one from a map. Offsets are 32 bit
    numbers and constants of calls are too. *)
Definition placed (x : insn) : Prop :=
  match snd x with
  | None => IsBuiltinCall (fst x) = true -> - 2 ^ 31 <= Constant (fst x) < 2 ^ 32
  | Some (MKconfig _ _ off) => IsLoadFromMap (fst x) = true /\ 0 <= off < 2 ^ 32
  | Some (MKsym _ _ _) => IsDWordLoad (OpCode (fst x)) = true /\ IsLoadFromMap (fst x) = false
  | Some (MKfunc _ _ _ _) => (IsKfuncCall (fst x) = true \/ IsDWordLoad (OpCode (fst x)) = true) /\ IsLoadFromMap (fst x) = false
  end.
(** Type IDs have 32 bits and descriptors 31. *)
Definition sane (k : kernel) : Prop :=
  (forall n id m t, k_func T k n = Found _ id m t -> 0 <= id < 2 ^ 32) /\
  (forall n id m t, k_var T k n = Found _ id m t -> 0 <= id < 2 ^ 32) /\
  (forall n, 0 <= k_fd T k n < 2 ^ 31).
(** Objects that were open before have smaller numbers than those opened from now on. *)
Definition earlier (w : world) : Prop := forall h, In h (live w) -> (fst h < next w)%nat.

(** Everything that a program refers to is there. *)
Definition available (k : kernel) (x : insn) : Prop :=
  match snd x with
  | None => (IsLoadFromMap (fst x) = true -> Reference (fst x) <> EmptyString -> MapFD (fst x) <> None)
  | Some (MKconfig _ m _) => k_kconfig T k m = true
  | Some (MKsym _ name weak) => match k_var T k name with Found _ _ _ _ => True | Missing _ => weak = true | Broken _ => False end
  | Some (MKfunc _ name weak ty) => k_btf T k = true /\ match k_func T k name with Found _ _ _ t => k_compat T k ty t = true | Missing _ => weak = true | Broken _ => False end
  end.
Definition oneKconfig (insns : list insn) : Prop := forall i j m n o p, In (i, Some (MKconfig _ m o)) insns -> In (j, Some (MKconfig _ n p)) insns -> m = n.
Definition isMissingAddress (k : kernel) (x : insn) : Prop :=
  match snd x with Some (MKfunc _ name true _) => IsKfuncCall (fst x) = false /\ k_func T k name = Missing _ | _ => False end.
(** References to functions and variables of modules *)
Definition inModule (k : kernel) (x : insn) : bool :=
  match snd x with
  | Some (MKfunc _ name _ _) => match k_func T k name with Found _ _ (Some _) _ => true | _ => false end
  | _ => false
  end.
Definition varInModule (k : kernel) (x : insn) : bool :=
  match snd x with
  | Some (MKsym _ name _) => match k_var T k name with Found _ _ (Some _) _ => true | _ => false end
  | _ => false
  end.
End Spec.
