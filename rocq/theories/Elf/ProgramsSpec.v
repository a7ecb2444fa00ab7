(** What the programs of an object file are: specification of C76, following the ELF and eBPF psABI documents.  Only the
    records of the model are used. *)
From Coq Require Import String.
From Verif Require Import Base.GoInt Asm.Model Asm.Spec Elf.Programs.
Open Scope string_scope. Open Scope list_scope. Open Scope Z_scope.

Definition begins (p s : string) : Prop := exists t, s = String.append p t.
(** names with a meaning of their own, whatever the type of the section *)
Definition map_name (n : string) : Prop := (begins "maps" n \/ n = ".maps") /\ ~ begins "license" n /\ ~ begins "version" n.
Definition data_name (n : string) : Prop := n = ".bss" \/ begins ".data" n \/ begins ".rodata" n.
Definition reserved (n : string) : Prop := begins "license" n \/ begins "version" n \/ begins "maps" n \/ n = ".maps" \/ data_name n.
Definition sect (o : obj) (i : Z) (s : osec) : Prop := 0 <= i /\ nth_error (o_sects o) (Z.to_nat i) = Some s.
(** SHT_PROGBITS with SHF_EXECINSTR *)
Definition program_section (o : obj) (i : Z) (s : osec) : Prop := sect o i s /\ ~ reserved (o_name s) /\ o_type s = 1 /\ 0 < o_size s /\ Z.testbit (o_flags s) 2 = true.
Definition map_section (o : obj) (i : Z) (s : osec) : Prop := sect o i s /\ map_name (o_name s).
Definition data_section (o : obj) (i : Z) (s : osec) : Prop := sect o i s /\ data_name (o_name s).
(** SHT_REL, applying to section [i] *)
Definition reloc_section (o : obj) (i : Z) (s : osec) : Prop := In s (o_sects o) /\ ~ reserved (o_name s) /\ o_type s = 9 /\ o_info s = i.

(** functions of section [i]: STT_FUNC, or STT_NOTYPE unless it is a local label *)
Definition function_symbol (o : obj) (i : Z) (f : sym) : Prop :=
  In f (o_syms o) /\ y_section f = i /\ y_name f <> "" /\ (y_type f = 2 \/ (y_type f = 0 /\ y_bind f <> 0)).

(** Elf64_Rel *)
Record entry := mkEntry { e_off : Z; e_sym : Z; e_type : Z }.
Definition entry_ok (e : entry) : Prop := in_u 64 (e_off e) /\ in_u 32 (e_sym e) /\ in_u 32 (e_type e).
Definition entry_bytes (bo : byteorder) (e : entry) : list Z := put bo 8 (e_off e) ++ put bo 8 (e_sym e * 2 ^ 32 + e_type e).
Definition entries (o : obj) (s : osec) (es : list entry) : Prop := Forall entry_ok es /\ o_data s = concat (map (entry_bytes (o_order o)) es).
(** symbol [n] of the symbol table (number 0 is the null symbol) *)
Definition symbol_number (o : obj) (n : Z) (y : sym) : Prop := 1 <= n /\ nth_error (o_syms o) (Z.to_nat (n - 1)) = Some y.
(** the instruction at offset [off] of section [i] is relocated with symbol [y] *)
Definition relocated (o : obj) (i off : Z) (y : sym) : Prop :=
  exists s es e, reloc_section o i s /\ entries o s es /\ In e es /\ e_off e = off /\ symbol_number o (e_sym e) y.

(** a file as compilers write it *)
Record regular (o : obj) : Prop := {
  rg_null : exists s, nth_error (o_sects o) 0 = Some s /\ ~ reserved (o_name s) /\ o_type s = 0;
  rg_data : forall i s, sect o i s -> bytes_ok (o_data s) /\ (o_type s = 1 \/ o_type s = 9 -> o_size s = Z.of_nat (List.length (o_data s))) /\ 0 <= o_size s < 2 ^ 63;
  rg_syms : forall y, In y (o_syms o) -> 0 <= y_section y /\ in_u 64 (y_value y) /\ in_u 64 (y_size y) /\ (y_type y = 3 -> y_value y = 0);
  rg_count : Z.of_nat (List.length (o_syms o)) < 2 ^ 32 - 1;
  rg_relocs : forall i s, reloc_section o i s -> o_entsize s = 16 /\ (exists es, entries o s es) /\
      (forall es, entries o s es -> NoDup (map e_off es)) /\ (forall s', reloc_section o i s' -> s' = s);
  (** no two names for one function *)
  rg_alias : forall i f g, function_symbol o i f -> function_symbol o i g -> y_value f = y_value g -> f = g }.

Definition function_reference (ins : instr) : Prop := (is_call (OpCode ins) /\ Src ins = 1) \/ (is_dword (OpCode ins) /\ Src ins = 4).

(** [resolved o x i off ins j]: [j] is what the instruction [ins] at offset [off] of section [i] means.  Addresses are
    those of the psABI: S + 8 * (imm + 1) for calls, S + imm for 64 bit loads, pc + 8 + 8 * imm without a relocation. *)
Inductive resolved (o : obj) (x : externs) (i off : Z) (ins : instr) : lins -> Prop :=
| r_plain : (forall y, ~ relocated o i off y) -> (~ function_reference ins \/ Constant ins = -1) -> resolved o x i off ins (ins, None)
| r_relative g : (forall y, ~ relocated o i off y) -> function_reference ins -> Constant ins <> -1 ->
    function_symbol o i g -> y_value g = off + 8 + 8 * Constant ins ->
    resolved o x i off ins (set_cons (set_ref ins (y_name g)) (-1), None)
| r_call y g s : relocated o i off y -> program_section o (y_section y) s -> is_call (OpCode ins) -> Src ins = 1 ->
    ((y_type y = 2 \/ y_type y = 0) /\ (y_bind y = 1 \/ y_bind y = 2)) \/ (y_type y = 3 /\ y_bind y = 0) ->
    function_symbol o (y_section y) g -> y_value g = y_value y + 8 * (Constant ins + 1) ->
    resolved o x i off ins (set_cons (set_ref ins (y_name g)) (-1), None)
| r_func y g s : relocated o i off y -> program_section o (y_section y) s -> is_dword (OpCode ins) ->
    (y_type y = 2 /\ y_bind y = 1) \/ (y_type y = 3 /\ y_bind y = 0) ->
    function_symbol o (y_section y) g -> y_value g = y_value y + Constant ins ->
    resolved o x i off ins (set_src (set_cons (set_ref ins (y_name g)) (-1)) 4, None)
| r_map y s : relocated o i off y -> map_section o (y_section y) s -> y_bind y = 1 -> y_type y = 1 \/ y_type y = 0 ->
    resolved o x i off ins (set_src (set_ref ins (y_name y)) 1, None)
| r_data y s a : relocated o i off y -> data_section o (y_section y) s ->
    (y_type y = 3 /\ y_bind y = 0) \/ (y_type y = 1 /\ (y_bind y = 0 \/ y_bind y = 1 \/ y_bind y = 2)) \/ (y_type y = 0 /\ y_bind y = 0) ->
    a = y_value y + Constant ins -> in_u 32 a ->
    (* the offset is in the upper half of the constant *)
    resolved o x i off ins (set_src (set_cons (set_ref ins (o_name s)) (sext 64 (a * 2 ^ 32))) 2, None)
| r_kfunc_call y : relocated o i off y -> y_section y = 0 -> y_type y = 0 -> y_bind y = 1 \/ y_bind y = 2 ->
    x_kfunc x (y_name y) = true -> is_call (OpCode ins) ->
    resolved o x i off ins (set_src (set_cons (set_ref ins (y_name y)) (-1)) 2, Some (MKfunc (y_name y) (y_bind y)))
| r_kfunc_addr y : relocated o i off y -> y_section y = 0 -> y_type y = 0 -> y_bind y = 1 \/ y_bind y = 2 ->
    x_kfunc x (y_name y) = true -> is_dword (OpCode ins) ->
    resolved o x i off ins (set_cons (set_ref ins (y_name y)) 0, Some (MKfunc (y_name y) (y_bind y)))
| r_ksym y : relocated o i off y -> y_section y = 0 -> y_type y = 0 -> y_bind y = 1 \/ y_bind y = 2 ->
    x_kfunc x (y_name y) = false -> x_ksym x (y_name y) = true -> is_dword (OpCode ins) ->
    resolved o x i off ins (set_ref ins (y_name y), Some (MKsym (y_name y) (y_bind y)))
| r_kconfig y vars pre post a : relocated o i off y -> y_section y = 0 -> y_type y = 0 -> y_bind y = 1 ->
    x_kfunc x (y_name y) = false -> x_ksym x (y_name y) = false -> is_dword (OpCode ins) ->
    x_kconfig x = Some vars -> vars = pre ++ (y_name y, a) :: post -> ~ In (y_name y) (map fst pre) ->
    resolved o x i off ins (set_src ins 2, Some (MKconfig a))
| r_extern y : relocated o i off y -> y_section y = 0 -> y_type y = 0 -> y_bind y = 1 \/ y_bind y = 2 ->
    (* neither of the above: left to the linker *)
    (is_call (OpCode ins) -> x_kfunc x (y_name y) = false) ->
    (is_dword (OpCode ins) -> x_kfunc x (y_name y) = false /\ x_ksym x (y_name y) = false /\ x_kconfig x = None) ->
    resolved o x i off ins (set_ref ins (y_name y), None).

(** What compilers emit, besides: named symbols are referenced without an addend, calls don't lead out of the section, and
    (see C76_function_pointer_refuted) addresses are only taken of functions at the start of a section or via the section *)
Definition usual (o : obj) (i off : Z) (ins : instr) : Prop :=
  (in_s 32 (Constant ins) \/ is_dword (OpCode ins)) /\ in_s 64 (Constant ins) /\
  ((forall y, ~ relocated o i off y) -> function_reference ins -> 0 <= off + 8 + 8 * Constant ins < 2 ^ 63) /\
  (forall y s, relocated o i off y -> program_section o (y_section y) s -> is_call (OpCode ins) -> y_type y <> 3 -> y_name y <> "" /\ Constant ins = -1) /\
  (forall y s, relocated o i off y -> program_section o (y_section y) s -> is_call (OpCode ins) -> y_type y = 3 -> -1 <= Constant ins < 2 ^ 31 - 1) /\
  (forall y s, relocated o i off y -> program_section o (y_section y) s -> is_dword (OpCode ins) -> y_value y = 0 /\ 0 <= Constant ins) /\
  (forall y s, relocated o i off y -> data_section o (y_section y) s -> in_u 32 (y_value y) /\ in_u 32 (Constant ins) /\ (y_type y <> 3 -> Constant ins = 0)).

(** *** Functions *)
Definition code_bytes (s : osec) (f : sym) : list Z := firstn (Z.to_nat (y_size f)) (skipn (Z.to_nat (y_value f)) (o_data s)).
Definition in_bounds (s : osec) (f : sym) : Prop := y_value f < 2 ^ 32 /\ y_size f < 2 ^ 32 /\ y_value f + y_size f <= o_size s.
(** the instructions which package asm decodes from the bytes of [f] (C02 and C04 say what they are) *)
Definition code (o : obj) (s : osec) (f : sym) (l : list instr) : Prop := AppendInstructions (o_order o) PLinux [] (code_bytes s f) = Some (Ok l).
(** [js] is the function [f] of section [i]: its own instructions, resolved, the first of which carries its name *)
Definition translated (o : obj) (x : externs) (i : Z) (s : osec) (f : sym) (js : list lins) : Prop :=
  in_bounds s f /\ exists l, code o s f l /\ l <> [] /\ List.length js = List.length l /\
    forall k ins j, nth_error l k = Some ins -> nth_error js k = Some j ->
      resolved o x i (y_value f + 8 * raw_offset l k) (match k with O => set_sym ins (y_name f) | S _ => ins end) j.
Definition usual_file (o : obj) : Prop :=
  forall i s f l k ins, program_section o i s -> function_symbol o i f -> in_bounds s f -> code o s f l -> nth_error l k = Some ins -> usual o i (y_value f + 8 * raw_offset l k) ins.
(** sections which are looked at; the undefined section counts *)
Definition loaded (o : obj) (i : Z) : Prop :=
  i = 0 \/ exists s, program_section o i s \/ map_section o i s \/ data_section o i s \/
                     (sect o i s /\ o_name s = ".struct_ops.link" /\ o_type s = 1 /\ 0 < o_size s /\ Z.testbit (o_flags s) 2 = false).
