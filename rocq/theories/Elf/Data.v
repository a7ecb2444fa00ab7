(** Model of how elf_reader.go turns data sections into maps and variables (elf_reader.go:1303-1456 loadDataSections,
    243-245 isConstantDataSection; syscalls.go:35-52 sanitizeName).  BTF is given as the data section of a name
    (Spec.TypeByName, which fails without a unique one). *)
From Coq Require Import String Ascii.
From Verif Require Import Base.GoInt Asm.Model Elf.Programs.
Open Scope string_scope. Open Scope list_scope. Open Scope Z_scope.

(** btf.VarSecinfo and the Var it refers to ([dv_var]: it does refer to one; [dv_type]: an identification of it) *)
Record dvar := mkDvar { dv_name : string; dv_var : bool; dv_off : Z; dv_size : Z; dv_type : Z }.
Definition datasecs := string -> option (list dvar).
(** VariableSpec *)
Record vspec := mkVspec { vs_section : string; vs_name : string; vs_off : Z; vs_value : list Z; vs_type : option Z }.
(** MapSpec, as far as it is set: Type is Array and MaxEntries 1.  [ms_btf]: Key and Value are set to void and the Datasec *)
Record mspec := mkMspec { ms_name : string; ms_keysize : Z; ms_valuesize : Z; ms_flags : Z; ms_contents : list (Z * list Z); ms_btf : option (list dvar) }.

Definition STV_INTERNAL := 1. Definition STV_HIDDEN := 2. Definition SHT_NOBITS := 8. Definition BPF_F_RDONLY_PROG := 128.
Definition visibility (y : sym) : Z := Z.land (y_other y) 3.
(** syscalls.go:35-52 with replacement -1.  Every byte of a character outside of ASCII is dropped as well. *)
Definition nameChar (c : ascii) : bool :=
  let n := Z.of_nat (nat_of_ascii c) in ((65 <=? n) && (n <=? 90)) || ((97 <=? n) && (n <=? 122)) || ((48 <=? n) && (n <=? 57)) || (n =? 46) || (n =? 95).
Fixpoint sanitizeName (s : string) : string := match s with EmptyString => EmptyString | String c s => if nameChar c then String c (sanitizeName s) else sanitizeName s end.

Inductive derr := DSize | DData | DType | DDuplicate (n : string) | DBounds (n : string) | DOffset | DVarSize | DAnonymous | DNotVar | DMismatch (n : string).

(** elf_reader.go:1362-1408: the section's symbols, in any order *)
Fixpoint addVars (sect : string) (data : list Z) (syms : list sym) (vars : list (string * vspec)) : res derr (list (string * vspec)) :=
  match syms with
  | [] => Ok vars
  | y :: syms =>
      if (visibility y =? STV_HIDDEN) || (visibility y =? STV_INTERNAL) then addVars sect data syms vars
      else if negb (y_bind y =? STB_GLOBAL) && negb (y_bind y =? STB_WEAK) then addVars sect data syms vars
      else match lookup (y_name y) vars with
           | Some _ => Err (DDuplicate (y_name y))
           | None =>
               if prefix "." (y_name y) then addVars sect data syms vars
               else if Z.of_nat (List.length data) <? u64 (y_value y + y_size y) then Err (DBounds (y_name y))
               else if 2 ^ 32 - 1 <? y_value y then Err DOffset
               else if 2 ^ 32 - 1 <? y_size y then Err DVarSize
               else addVars sect data syms ((y_name y, mkVspec sect (y_name y) (u32 (y_value y)) (firstn (Z.to_nat (y_size y)) (skipn (Z.to_nat (y_value y)) data)) None) :: vars)
           end
  end.
Definition setType (v : vspec) (t : Z) : vspec := mkVspec (vs_section v) (vs_name v) (vs_off v) (vs_value v) (Some t).
(** assignment to a field of the variable which the map points to *)
Fixpoint setVar (vars : list (string * vspec)) (n : string) (t : Z) : list (string * vspec) :=
  match vars with [] => [] | (k, v) :: vars => if String.eqb n k then (k, setType v t) :: vars else (k, v) :: setVar vars n t end.
(** elf_reader.go:1419-1445 *)
Fixpoint typeVars (ds : list dvar) (vars : list (string * vspec)) : res derr (list (string * vspec)) :=
  match ds with
  | [] => Ok vars
  | v :: ds =>
      if String.eqb (dv_name v) "" then Err DAnonymous
      else if negb (dv_var v) then Err DNotVar
      else match lookup (dv_name v) vars with
           | None => typeVars ds vars
           | Some ev =>
               if negb (dv_off v =? vs_off ev) then Err (DMismatch (dv_name v))
               else if negb (dv_size v =? u32 (Z.of_nat (List.length (vs_value ev)))) then Err (DMismatch (dv_name v))
               else typeVars ds (setVar vars (dv_name v) (dv_type v))
           end
  end.
(** section.references > 0 (elf_reader.go:354-359), from the relocations of all sections *)
Definition referenced (o : obj) (i : Z) : bool :=
  existsb (fun s => match classify s with
                    | CRel => match relocationsOf o (o_info s) with
                              | Some (Ok m) => existsb (fun p => match relAt m (fst p) with Some y => y_section y =? i | None => false end) m
                              | _ => false
                              end
                    | _ => false
                    end) (o_sects o).
(** elf_reader.go:1336-1358 *)
Definition sectionData (s : osec) : res derr (list Z) :=
  if o_type s =? SHT_PROGBITS then if Z.of_nat (List.length (o_data s)) =? o_size s then Ok (o_data s) else Err DData
  else if o_type s =? SHT_NOBITS then Ok (repeat 0 (Z.to_nat (o_size s)))
  else Err DType.
(** elf_reader.go:1303-1456, one section; [so] is the order in which its symbols are visited *)
Definition loadData (o : obj) (btf : option datasecs) (so : Z -> list sym) (i : Z) (s : osec) (st : list (string * vspec) * list (string * mspec)) : res derr (list (string * vspec) * list (string * mspec)) :=
  let '(vars, maps) := st in
  if negb (referenced o i) && match symbolsOf o i with [] => true | _ => false end then Ok st
  else if 2 ^ 32 - 1 <? o_size s then Err DSize
  else match sectionData s with
       | Err e => Err e
       | Ok data =>
           match addVars (o_name s) data (so i) vars with
           | Err e => Err e
           | Ok vars =>
               let ds := match btf with Some b => b (o_name s) | None => None end in
               let m := mkMspec (sanitizeName (o_name s)) 4 (u32 (o_size s)) (if prefix ".rodata" (o_name s) then BPF_F_RDONLY_PROG else 0) [(0, data)] ds in
               match match ds with Some ds => typeVars ds vars | None => Ok vars end with
               | Err e => Err e
               | Ok vars => Ok (vars, (o_name s, m) :: maps)
               end
           end
       end.
(** the sections, in any order *)
Fixpoint loadDataSections (o : obj) (btf : option datasecs) (so : Z -> list sym) (order : list Z) (st : list (string * vspec) * list (string * mspec)) : res derr (list (string * vspec) * list (string * mspec)) :=
  match order with
  | [] => Ok st
  | i :: order =>
      match kindAt o i, section o i with
      | Some KData, Some s => match loadData o btf so i s st with Err e => Err e | Ok st => loadDataSections o btf so order st end
      | _, _ => loadDataSections o btf so order st
      end
  end.
