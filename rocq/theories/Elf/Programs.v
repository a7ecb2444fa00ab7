(** Model of how elf_reader.go turns the executable sections of an object file into programs: classification of sections,
    symbols, relocations, and the resolution of calls, maps and variables (elf_reader.go:99-138, 239-440, 442-508, 545-806,
    1687-1712).  debug/elf has already split the file into sections and symbols.  Metadata from .BTF.ext (assignMetadata) is
    modelled in Btf/ExtAssign and left out here. *)
From Coq Require Import String.
From Verif Require Import Base.GoInt Asm.Model Link.Flatten.

Open Scope string_scope. Open Scope list_scope. Open Scope Z_scope.

(** debug/elf: Symbol (Info split into type and binding; Other: the visibility) *)
Record sym := mkSym { y_name : string; y_type : Z; y_bind : Z; y_section : Z; y_value : Z; y_size : Z; y_other : Z }.
(** debug/elf: Section.  [o_data]: the bytes which can be read (fewer than [o_size] if the file is truncated) *)
Record osec := mkSec { o_name : string; o_type : Z; o_flags : Z; o_info : Z; o_entsize : Z; o_size : Z; o_data : list Z; o_compressed : bool }.
(** sections (the index is the position) and symbols (debug/elf omits the null symbol) *)
Record obj := mkObj { o_sects : list osec; o_syms : list sym; o_order : byteorder }.
(** what BTF says about extern declarations (elfCode.kfuncs, ksyms and kconfig: names and offsets of variables) *)
Record externs := mkExt { x_kfunc : string -> bool; x_ksym : string -> bool; x_kconfig : option (list (string * Z)) }.

Definition STT_NOTYPE := 0. Definition STT_OBJECT := 1. Definition STT_FUNC := 2. Definition STT_SECTION := 3.
Definition STB_LOCAL := 0. Definition STB_GLOBAL := 1. Definition STB_WEAK := 2.
Definition SHT_PROGBITS := 1. Definition SHT_REL := 9. Definition SHF_EXECINSTR := 4.

(** elf_reader.go:251-260 elfSectionKind *)
Inductive kind := KUndef | KMap | KBtfMap | KProg | KData | KStructOps.
Inductive cl := CKind (k : kind) | CRel | CNone | CErr.
Definition isDataSection (name : string) : bool := String.eqb name ".bss" || prefix ".data" name || prefix ".rodata" name.  (* 239-241 *)
(** elf_reader.go:105-137 *)
Definition classify (s : osec) : cl :=
  if prefix "license" (o_name s) then CNone
  else if prefix "version" (o_name s) then CNone
  else if prefix "maps" (o_name s) then CKind KMap
  else if String.eqb (o_name s) ".maps" then CKind KBtfMap
  else if isDataSection (o_name s) then CKind KData
  else if o_type s =? SHT_REL then CRel
  else if (o_type s =? SHT_PROGBITS) && (0 <? o_size s) then
    if negb (Z.land (o_flags s) SHF_EXECINSTR =? 0) && (0 <? o_size s) then CKind KProg
    else if String.eqb (o_name s) ".struct_ops.link" then CKind KStructOps
    else if String.eqb (o_name s) ".struct_ops" then CErr
    else CNone
  else CNone.
(** sections[idx]; index 0 is the undefined section unless the file gives its null section a meaning (elf_reader.go:99) *)
Definition section (o : obj) (i : Z) : option osec := if i <? 0 then None else nth_error (o_sects o) (Z.to_nat i).
Definition kindAt (o : obj) (i : Z) : option kind :=
  match section o i with
  | Some s => match classify s with CKind k => Some k | _ => if i =? 0 then Some KUndef else None end
  | None => if i =? 0 then Some KUndef else None
  end.

(** the section's symbols: map[uint64]elf.Symbol, kept sorted by offset (symbolsSorted, elf_reader.go:284-293) *)
Fixpoint insertSym (y : sym) (m : list sym) : list sym :=
  match m with
  | [] => [y]
  | z :: m' => if y_value y <? y_value z then y :: m else if y_value y =? y_value z then y :: m' else z :: insertSym y m'
  end.
Fixpoint symAt (m : list sym) (off : Z) : option sym := match m with [] => None | y :: m => if y_value y =? off then Some y else symAt m off end.
(** elf_reader.go:297-336 assignSymbols, for section [i] *)
Definition keepSym (k : kind) (y : sym) : bool :=
  negb (String.eqb (y_name y) "") &&
  match k with
  | KMap | KBtfMap | KData => (y_type y =? STT_NOTYPE) || (y_type y =? STT_OBJECT)
  | KProg => ((y_type y =? STT_NOTYPE) || (y_type y =? STT_FUNC)) && negb ((y_type y =? STT_NOTYPE) && (y_bind y =? STB_LOCAL))
  | _ => false
  end.
Definition symbolsOf (o : obj) (i : Z) : list sym :=
  match kindAt o i with
  | None => []
  | Some k => fold_left (fun m y => if (y_section y =? i) && keepSym k y then insertSym y m else m) (o_syms o) []
  end.

Inductive lerr := ESection | EEntsize | EParse | ENoSymbol | ETarget | ENoSymbols | ECompressed | EDupSymbol | ETooLarge | EBounds | EDecode (e : err)
  | ENoInsns | EJump | EBinding | EType | ESrc | EInsn | EKconfig | EDupProgram.

(** map[uint64]elf.Symbol of relocations: the last entry for an offset counts *)
Definition rels := list (Z * sym).
Fixpoint relAt (m : rels) (off : Z) : option sym := match m with [] => None | (a, y) :: m => if a =? off then Some y else relAt m off end.
(** elf_reader.go:1687-1712 loadSectionRelocations.  Each iteration reads 16 bytes (binary.Read of an elf.Rel64 from a
    LimitReader, which does not skip the rest of a larger entry).  R_SYM64(info) - 1 is a uint32, int has 64 bits. *)
Fixpoint relLoop (fuel : nat) (bo : byteorder) (entsize size off : Z) (data : list Z) (syms : list sym) (m : rels) : option (res lerr rels) :=
  match fuel with
  | O => None
  | S fuel =>
      if size <=? off then Some (Ok m)
      else if Z.of_nat (List.length data) <? 16 then Some (Err EParse)
      else
        let info := get bo (firstn 8 (skipn 8 data)) in
        let symNo := u32 (u32 (Z.shiftr info 32) - 1) in
        if Z.of_nat (List.length syms) <=? symNo then Some (Err ENoSymbol)
        else match nth_error syms (Z.to_nat symNo) with
             | None => Some (Err ENoSymbol)
             | Some y => relLoop fuel bo entsize size (u64 (off + entsize)) (skipn 16 data) syms ((get bo (firstn 8 data), y) :: m)
             end
  end.
Definition loadSectionRelocations (o : obj) (s : osec) : option (res lerr rels) :=
  if o_entsize s <? 16 then Some (Err EEntsize)
  else relLoop (S (S (List.length (o_data s)))) (o_order o) (o_entsize s) (o_size s) 0 (o_data s) (o_syms o) [].
(** relSections[i]: the last relocation section for section [i] (elf_reader.go:117-119) *)
Definition relSection (o : obj) (i : Z) : option osec :=
  fold_left (fun r s => match classify s with CRel => if o_info s =? i then Some s else r | _ => r end) (o_sects o) None.
(** sections[i].relocations after loadRelocations (elf_reader.go:340-365) *)
Definition relocationsOf (o : obj) (i : Z) : option (res lerr rels) :=
  match kindAt o i, relSection o i with
  | Some _, Some s =>
      match loadSectionRelocations o s with
      | Some (Ok m) => if forallb (fun p => match kindAt o (y_section (snd p)) with Some _ => true | None => false end) m then Some (Ok m) else Some (Err ETarget)
      | r => r
      end
  | _, _ => Some (Ok [])
  end.
(** elf_reader.go:340-365 loadRelocations: relocation sections in any order *)
Fixpoint loadRelocations (o : obj) (order : list Z) : option (res lerr unit) :=
  match order with
  | [] => Some (Ok tt)
  | i :: order => match relocationsOf o i with Some (Ok _) => loadRelocations o order | Some (Err e) => Some (Err e) | None => None end
  end.

(** metadata of instructions: kfuncMeta and ksymMeta (name and binding), kconfigMeta (offset) *)
Inductive meta := MKfunc (name : string) (bind : Z) | MKsym (name : string) (bind : Z) | MKconfig (off : Z).
Definition lins := (instr * option meta)%type.

(** elf_reader.go:574-588 jumpTarget *)
Definition jumpTarget (off : Z) (ins : instr) : Z :=
  let dest := i64 (Constant ins * 8) in
  let dest := i64 (dest + i64 (off + 8)) in
  if dest <? 0 then 0 else dest.
(** elf_reader.go:554-569 referenceRelativeJump *)
Definition referenceRelativeJump (ins : instr) (off : Z) (symbols : list sym) : res lerr lins :=
  if negb (IsFunctionReference ins) || (Constant ins =? -1) then Ok (ins, None)
  else match symAt symbols (jumpTarget off ins) with
       | None => Err EJump
       | Some y => if String.eqb (y_name y) "" then Err EJump else Ok (set_cons (set_ref ins (y_name y)) (-1), None)
       end.
(** elf_reader.go:783-797: the variable's offset in .kconfig *)
Fixpoint kconfigVar (vars : list (string * Z)) (name : string) : option Z := match vars with [] => None | (n, off) :: vars => if String.eqb n name then Some off else kconfigVar vars name end.
(** elf_reader.go:591-806 relocateInstruction *)
Definition relocateInstruction (o : obj) (x : externs) (ins : instr) (rel : sym) : res lerr lins :=
  let typ := y_type rel in let bind := y_bind rel in let name := y_name rel in
  match kindAt o (y_section rel) with
  | None => Err ETarget                                                             (* excluded by loadRelocations *)
  | Some KMap | Some KBtfMap =>                                                     (* 602-617 *)
      if bind =? STB_LOCAL then Err EBinding
      else if negb (bind =? STB_GLOBAL) then Err EBinding
      else if negb (typ =? STT_OBJECT) && negb (typ =? STT_NOTYPE) then Err EType
      else Ok (set_ref (set_src ins PseudoMapFD) name, None)
  | Some KData =>                                                                   (* 619-660 *)
      let offset :=
        if typ =? STT_SECTION then if negb (bind =? STB_LOCAL) then Err EBinding else Ok (u32 (u64 (Constant ins)))
        else if typ =? STT_OBJECT then if negb (bind =? STB_GLOBAL) && negb (bind =? STB_LOCAL) && negb (bind =? STB_WEAK) then Err EBinding else Ok (u32 (y_value rel))
        else if typ =? STT_NOTYPE then if negb (bind =? STB_LOCAL) then Err EBinding else Ok (u32 (y_value rel))
        else Err EType in
      match offset with
      | Err e => Err e
      | Ok offset =>
          let name := match section o (y_section rel) with Some s => o_name s | None => "" end in
          Ok (set_ref (set_src (set_cons ins (i64 (u64 (Z.shiftl offset 32)))) PseudoMapValue) name, None)
      end
  | Some KProg =>                                                                   (* 662-727 *)
      let symbols := symbolsOf o (y_section rel) in
      if JumpOp (OpCode ins) =? Call then
        if negb (Src ins =? PseudoCall) then Err ESrc
        else if (typ =? STT_NOTYPE) || (typ =? STT_FUNC) then
          if negb (bind =? STB_GLOBAL) && negb (bind =? STB_WEAK) then Err EBinding else Ok (set_ref ins name, None)
        else if typ =? STT_SECTION then
          if negb (bind =? STB_LOCAL) then Err EBinding
          else let offset := i32 (i32 (Constant ins) + 1) * 8 in
               match symAt symbols (u64 offset) with
               | None => Err ENoSymbol
               | Some y => Ok (set_ref (set_cons ins (-1)) (y_name y), None)
               end
        else Err EType
      else if IsDWordLoad (OpCode ins) then
        let ok := if typ =? STT_FUNC then if negb (bind =? STB_GLOBAL) then Some EBinding else None
                  else if typ =? STT_SECTION then if negb (bind =? STB_LOCAL) then Some EBinding else None
                  else Some EType in
        match ok with
        | Some e => Err e
        | None => match symAt symbols (u64 (Constant ins)) with
                  | None => Err ENoSymbol
                  | Some y => Ok (set_ref (set_src (set_cons ins (-1)) PseudoFunc) (y_name y), None)
                  end
        end
      else Err EInsn
  | Some KUndef =>                                                                  (* 733-799 *)
      if negb (bind =? STB_GLOBAL) && negb (bind =? STB_WEAK) then Err EBinding
      else if negb (typ =? STT_NOTYPE) then Err EType
      else if x_kfunc x name && (JumpOp (OpCode ins) =? Call) then Ok (set_ref (set_cons (set_src ins PseudoKfuncCall) (-1)) name, Some (MKfunc name bind))
      else if x_kfunc x name && IsDWordLoad (OpCode ins) then Ok (set_ref (set_cons ins 0) name, Some (MKfunc name bind))
      else if x_ksym x name && IsDWordLoad (OpCode ins) then Ok (set_ref ins name, Some (MKsym name bind))
      else match x_kconfig x with
           | Some vars => if IsDWordLoad (OpCode ins) then
                            if negb (bind =? STB_GLOBAL) then Err EBinding
                            else match kconfigVar vars name with
                                 | Some off => Ok (set_src ins PseudoMapValue, Some (MKconfig off))
                                 | None => Err EKconfig
                                 end
                          else Ok (set_ref ins name, None)
           | None => Ok (set_ref ins name, None)
           end
  | Some KStructOps => Err ETarget                                                  (* 801-802 *)
  end.

(** elf_reader.go:479-498: the loop over the instructions of a function *)
Fixpoint relocateAll (o : obj) (x : externs) (m : rels) (symbols : list sym) (off : Z) (l : list instr) : res lerr (list lins) :=
  match l with
  | [] => Ok []
  | ins :: l =>
      match match relAt m off with Some rel => relocateInstruction o x ins rel | None => referenceRelativeJump ins off symbols end with
      | Err e => Err e
      | Ok j => match relocateAll o x m symbols (off + 8 * rawInstructions (OpCode ins)) l with Err e => Err e | Ok js => Ok (j :: js) end
      end
  end.
(** elf_reader.go:463-477: the decoded instructions of a symbol; the first is marked as start of the function *)
Definition decodeFunction (o : obj) (s : osec) (y : sym) : option (res lerr (list instr)) :=
  if (2 ^ 32 - 1 <? y_value y) || (2 ^ 32 - 1 <? y_size y) then Some (Err ETooLarge)
  else if o_size s <? u64 (y_value y + y_size y) then Some (Err EBounds)
  else match AppendInstructions (o_order o) PLinux [] (firstn (Z.to_nat (y_size y)) (skipn (Z.to_nat (y_value y)) (o_data s))) with
       | None => None
       | Some (Err e) => Some (Err (EDecode e))
       | Some (Ok []) => Some (Err ENoInsns)
       | Some (Ok (i :: l)) => Some (Ok (set_sym i (y_name y) :: l))
       end.
(** elf_reader.go:442-508 loadFunctions *)
Fixpoint loadSymbols (o : obj) (x : externs) (s : osec) (m : rels) (symbols todo : list sym) (progs : list (string * list lins)) : option (res lerr (list (string * list lins))) :=
  match todo with
  | [] => Some (Ok progs)
  | y :: todo =>
      match lookup (y_name y) progs with
      | Some _ => Some (Err EDupSymbol)
      | None => match decodeFunction o s y with
                | None => None
                | Some (Err e) => Some (Err e)
                | Some (Ok l) => match relocateAll o x m symbols (y_value y) l with
                                 | Err e => Some (Err e)
                                 | Ok l => loadSymbols o x s m symbols todo (progs ++ [(y_name y, l)])
                                 end
                end
      end
  end.
Definition loadFunctions (o : obj) (x : externs) (i : Z) (s : osec) : option (res lerr (list (string * list lins))) :=
  match relocationsOf o i with
  | Some (Ok m) => loadSymbols o x s m (symbolsOf o i) (symbolsOf o i) []
  | Some (Err e) => Some (Err e)
  | None => None
  end.

(** ProgramSpec: name, name of the section, instructions *)
Record prog := mkProg { g_name : string; g_section : string; g_insns : list lins }.
Definition hasProg (progs : list prog) (n : string) : bool := existsb (fun p => String.eqb (g_name p) n) progs.
(** elf_reader.go:395-424 *)
Fixpoint addProgs (sect : string) (funcs : list (string * list lins)) (progs : list prog) : res lerr (list prog) :=
  match funcs with
  | [] => Ok progs
  | (n, l) :: funcs => if hasProg progs n then Err EDupProgram else addProgs sect funcs (progs ++ [mkProg n sect l])
  end.
(** elf_reader.go:377-425: sections in any order *)
Fixpoint loadSections (o : obj) (x : externs) (order : list Z) (progs : list prog) : option (res lerr (list prog)) :=
  match order with
  | [] => Some (Ok progs)
  | i :: order =>
      match kindAt o i, section o i with
      | Some KProg, Some s =>
          match symbolsOf o i with
          | [] => Some (Err ENoSymbols)
          | _ => if o_compressed s then Some (Err ECompressed)
                 else match loadFunctions o x i s with
                      | None => None
                      | Some (Err e) => Some (Err e)
                      | Some (Ok funcs) => match addProgs (o_name s) funcs progs with Err e => Some (Err e) | Ok progs => loadSections o x order progs end
                      end
          end
      | _, _ => loadSections o x order progs
      end
  end.
Definition insnsOf (progs : list prog) : programs := map (fun p => (g_name p, map fst (g_insns p))) progs.
(** elf_reader.go:371-440 loadProgramSections: the programs and their instructions after linking *)
Definition loadProgramSections (o : obj) (x : externs) (order : list Z) : option (res lerr (list prog * programs)) :=
  match loadSections o x order [] with
  | None => None
  | Some (Err e) => Some (Err e)
  | Some (Ok progs) =>
      match flattenPrograms (insnsOf progs) (map g_name (filter (fun p => negb (String.eqb (g_section p) ".text")) progs)) with
      | None => None
      | Some linked => Some (Ok (progs, filter (fun p => existsb (fun g => String.eqb (g_name g) (fst p) && negb (String.eqb (g_section g) ".text")) progs) linked))
      end
  end.
(** elf_reader.go:79-212, the part about programs.  [ro], [po]: the orders in which Go iterates over the maps of relocation
    and other sections. *)
Definition loadPrograms (o : obj) (x : externs) (ro po : list Z) : option (res lerr (list prog * programs)) :=
  if existsb (fun s => match classify s with CErr => true | _ => false end) (o_sects o) then Some (Err ESection)
  else match loadRelocations o ro with
       | None => None
       | Some (Err e) => Some (Err e)
       | Some (Ok _) => loadProgramSections o x po
       end.
(** an iteration order: every section once *)
Definition indices (o : obj) : list Z := map Z.of_nat (seq 0 (List.length (o_sects o))).
