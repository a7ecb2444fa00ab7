(** Model of how elf_reader.go turns map sections into MapSpecs: elf_reader.go:807-878 loadMaps, 880-903 sectionVars,
    905-977 loadBTFMaps, 979-1183 mapSpecFromBTF, 1185-1212 uintFromBTF, 1214-1229 resolveBTFArrayMacro, 1231-1300
    valuesRelocations and resolveBTFValuesContents; types.go:162-175 canHaveValueSize.  BTF is a heap of types (Btf/Types.v)
    and the variables of the Datasec of a name (Spec.TypeByName, which fails without a unique one). *)
From Coq Require Import String Ascii.
From Verif Require Import Base.GoInt Asm.Model Elf.Programs Elf.Data Btf.Types.
Open Scope string_scope. Open Scope list_scope. Open Scope Z_scope.

(** BTF names are bytes, ELF names strings *)
Definition lit (s : string) : str := map (fun c => Z.of_nat (nat_of_ascii c)) (list_ascii_of_string s).
Definition unlit (s : str) : string := string_of_list_ascii (map (fun b => ascii_of_nat (Z.to_nat b)) s).
Definition named (m : member) (n : string) : bool := if list_eq_dec Z.eq_dec (m_name m) (lit n) then true else false.

(** MapSpec.  [mp_extra]: the bytes of Extra.  Key and Value: [None] is nil. *)
Inductive mapspec := mkMap { mp_name : string; mp_type : Z; mp_keysize : Z; mp_valuesize : Z; mp_max : Z; mp_flags : Z; mp_key : option ref; mp_value : option ref;
  mp_pin : Z; mp_inner : option mapspec; mp_contents : list (Z * string); mp_tags : list str; mp_mapextra : Z; mp_extra : list Z }.
Inductive berr := BNumber | BBoth | BPointer | BSize | BInnerPin | BNotLast | BValueSize | BArray | BOuterType | BNested | BProgArray | BElem | BOffset | BAlign | BReloc | BUnknown
  | BNoSymbols | BCompressed | BNotVar | BDuplicate | BBounds | BShort | BMissing | BCount | BNoSymbol | BNotZero | BStruct | BPanic.

Definition ProgramArray := 3. Definition PerfEventArray := 4. Definition ArrayOfMaps := 12. Definition HashOfMaps := 13. Definition RingBuf := 27. Definition Arena := 33.
Definition canHaveValueSize (mt : Z) : bool := negb ((mt =? RingBuf) || (mt =? Arena) || (mt =? PerfEventArray)).

(** elf_reader.go:1192-1212 *)
Definition uintFromBTF (h : heap) (r : ref) : res berr Z :=
  match deref h r with
  | Some (NPtr t) => match deref h t with Some (NArray _ _ n) => Ok n | _ => Err BNumber end
  | Some (NEnum _ _ _ vals) => match vals with v :: _ => Ok (ev_value v) | [] => Err BNumber end
  | _ => Err BNumber
  end.
(** elf_reader.go:1217-1229 *)
Definition resolveBTFArrayMacro (h : heap) (r : ref) : res berr ref :=
  match deref h r with
  | Some (NArray _ e _) => match deref h e with Some (NPtr t) => Ok t | _ => Err BArray end
  | _ => Err BArray
  end.
(** elf_reader.go:1235-1272: the indices from [i] on; [start] is the offset of index 0 *)
Fixpoint valuesRelocations (m : rels) (start align i : Z) (k : nat) : list (Z * sym) :=
  match k with
  | O => []
  | S k => match relAt m (u64 (start + u64 (i * align))) with
           | Some r => (i, r) :: valuesRelocations m start align (i + 1) k
           | None => valuesRelocations m start align (i + 1) k
           end
  end.
(** elf_reader.go:1287-1297 *)
Fixpoint stubs (l : list (Z * sym)) : res berr (list (Z * string)) :=
  match l with
  | [] => Ok []
  | (i, r) :: l => if (y_type r =? STT_FUNC) || (y_type r =? STT_OBJECT) then match stubs l with Err e => Err e | Ok c => Ok ((i, y_name r) :: c) end else Err BReloc
  end.
(** elf_reader.go:1277-1300; [al]: the section's Addralign *)
Definition resolveBTFValuesContents (m : rels) (al : Z) (y : sym) (mem : member) : res berr (list (Z * string)) :=
  let off := m_offset mem / 8 in
  if u32 (y_size y) <? off then Err BOffset
  else if al =? 0 then Err BAlign
  else let start := u64 (y_value y + off) in
       stubs (valuesRelocations m start al 0 (Z.to_nat (u32 (u64 (u64 (y_value y + y_size y) - start) / al)))).

(** local variables of mapSpecFromBTF *)
Record mstate := mkSt { s_key : option ref; s_value : option ref; s_keysize : Z; s_valuesize : Z; s_type : Z; s_flags : Z; s_max : Z; s_pin : Z; s_extra : Z; s_inner : option mapspec; s_contents : list (Z * string) }.
Definition st0 : mstate := mkSt None None 0 0 0 0 0 0 0 None [].
Section Def.
Variables (h : heap) (m : rels) (al : Z) (y : sym) (tags : list str).
(** the recursive call for inner maps; [inner] *)
Variables (nested : list member -> res berr mapspec) (inner : bool).
(** elf_reader.go:998-1157, one member; [last]: it is the last one *)
Definition step (mem : member) (last : bool) (st : mstate) : res berr mstate :=
  let '(mkSt key value keySize valueSize mapType flags maxEntries pinType mapExtra innerSpec contents) := st in
  let number k := match uintFromBTF h (m_type mem) with Err e => Err e | Ok v => Ok (k v) end in
  let pointer := match deref h (m_type mem) with Some (NPtr t) => match Sizeof h t with Ok s => Ok (t, u64 s) | Err _ => Err BSize end | _ => Err BPointer end in
  if named mem "type" then number (fun v => mkSt key value keySize valueSize (u32 v) flags maxEntries pinType mapExtra innerSpec contents)
  else if named mem "map_flags" then number (fun v => mkSt key value keySize valueSize mapType v maxEntries pinType mapExtra innerSpec contents)
  else if named mem "max_entries" then number (fun v => mkSt key value keySize valueSize mapType flags v pinType mapExtra innerSpec contents)
  else if named mem "key" then
    if negb (keySize =? 0) then Err BBoth
    else match pointer with Err e => Err e | Ok (t, s) => Ok (mkSt (Some t) value s valueSize mapType flags maxEntries pinType mapExtra innerSpec contents) end
  else if named mem "value" then
    if negb (valueSize =? 0) then Err BBoth
    else match pointer with Err e => Err e | Ok (t, s) => Ok (mkSt key (Some t) keySize s mapType flags maxEntries pinType mapExtra innerSpec contents) end
  else if named mem "key_size" then
    if match key with Some _ => true | None => false end || negb (keySize =? 0) then Err BBoth
    else number (fun v => mkSt key value v valueSize mapType flags maxEntries pinType mapExtra innerSpec contents)
  else if named mem "value_size" then
    if match value with Some _ => true | None => false end || negb (valueSize =? 0) then Err BBoth
    else number (fun v => mkSt key value keySize v mapType flags maxEntries pinType mapExtra innerSpec contents)
  else if named mem "pinning" then
    if inner then Err BInnerPin else number (fun v => mkSt key value keySize valueSize mapType flags maxEntries (u32 v) mapExtra innerSpec contents)
  else if named mem "values" then
    if negb last then Err BNotLast
    else if negb (valueSize =? 0) && negb (valueSize =? 4) then Err BValueSize
    else match resolveBTFArrayMacro h (m_type mem) with
         | Err e => Err e
         | Ok t =>
             match (match deref h t with
                    | Some (NStruct _ _ ms _) =>
                        if negb (mapType =? ArrayOfMaps) && negb (mapType =? HashOfMaps) then Err BOuterType
                        else if inner then Err BNested
                        else match nested ms with Err e => Err e | Ok i => Ok (Some i) end
                    | Some (NFuncProto _ _) => if negb (mapType =? ProgramArray) then Err BProgArray else Ok innerSpec
                    | _ => Err BElem
                    end) with
             | Err e => Err e
             | Ok innerSpec =>
                 match resolveBTFValuesContents m al y mem with
                 | Err e => Err e
                 | Ok contents => Ok (mkSt key value keySize 4 mapType flags maxEntries pinType mapExtra innerSpec contents)
                 end
             end
         end
  else if named mem "map_extra" then number (fun v => mkSt key value keySize valueSize mapType flags maxEntries pinType v innerSpec contents)
  else Err BUnknown.
Fixpoint walk (ms : list member) (st : mstate) : res berr mstate :=
  match ms with
  | [] => Ok st
  | mem :: ms => match step mem (match ms with [] => true | _ => false end) st with Err e => Err e | Ok st => walk ms st end
  end.
(** elf_reader.go:1159-1182 *)
Definition mapSpecWith (name : string) (ms : list member) : res berr mapspec :=
  match walk ms st0 with
  | Err e => Err e
  | Ok st =>
      let vs := if match s_value st with Some _ => true | None => false end && negb (canHaveValueSize (s_type st)) then 0 else s_valuesize st in
      Ok (mkMap (sanitizeName name) (s_type st) (u32 (s_keysize st)) (u32 vs) (u32 (s_max st)) (u32 (s_flags st)) (s_key st) (s_value st) (s_pin st) (s_inner st) (s_contents st) tags (s_extra st) [])
  end.
End Def.
(** elf_reader.go:979-1183; the recursion is one level deep since nested inner maps are refused before the call *)
Definition mapSpecFromBTF (h : heap) (m : rels) (al : Z) (y : sym) (tags : list str) (name : string) (ms : list member) : res berr mapspec :=
  mapSpecWith h m al y tags (mapSpecWith h m al y tags (fun _ => Err BNested) true (String.append name "_inner")) false name ms.

(** ** Sections *)
Record bvar := mkBvar { b_name : string; b_type : ref; b_tags : list str }.
Record btfspec := mkBtf { b_heap : heap; b_datasec : string -> option (list secinfo) }.
(** vars[v.Name] = v *)
Fixpoint setB (vars : list bvar) (v : bvar) : list bvar :=
  match vars with [] => [v] | w :: vars => if String.eqb (b_name w) (b_name v) then v :: vars else w :: setB vars v end.
Fixpoint varsOf (h : heap) (ds : list secinfo) (vars : list bvar) : res berr (list bvar) :=
  match ds with
  | [] => Ok vars
  | vsi :: ds =>
      (* btf.As[*btf.Var], btf/types.go:855-874 *)
      match match UnderlyingType h (vs_type vsi) with Some t => deref h t | None => None end with
      | Some (NVar n t _ tags) => varsOf h ds (setB vars (mkBvar (unlit n) t tags))
      | _ => Err BNotVar
      end
  end.
(** elf_reader.go:880-903 *)
Definition sectionVars (btf : option btfspec) (sec : string) : res berr (list bvar) :=
  match btf with
  | None => Ok []
  | Some b => match b_datasec b sec with None => Ok [] | Some ds => varsOf (b_heap b) ds [] end
  end.
Fixpoint findB (vars : list bvar) (n : string) : option bvar := match vars with [] => None | v :: vars => if String.eqb (b_name v) n then Some v else findB vars n end.

(** a loop whose body may return an error *)
Fixpoint run {X S E} (f : X -> S -> res E S) (l : list X) (s : S) : res E S :=
  match l with [] => Ok s | x :: l => match f x s with Err e => Err e | Ok s => run f l s end end.
Definition maps := list (string * mapspec).
Definition symBytes (s : osec) (y : sym) : list Z := firstn (Z.to_nat (y_size y)) (skipn (Z.to_nat (y_value y)) (o_data s)).
Definition le4 (bo : byteorder) (d : list Z) (k : nat) : Z := get bo (firstn 4 (skipn (4 * k) d)).
(** elf_reader.go:829-875, one symbol *)
Definition legacyMap (o : obj) (vars : list bvar) (s : osec) (y : sym) (ms : maps) : res berr maps :=
  match lookup (y_name y) ms with
  | Some _ => Err BDuplicate
  | None =>
      if (2 ^ 32 - 1 <? y_value y) || (2 ^ 32 - 1 <? y_size y) then Err BBounds
      else if o_size s <? u64 (y_value y + y_size y) then Err BBounds
      else let d := symBytes s y in
           if (List.length d <? 20)%nat then Err BShort
           else let g := le4 (o_order o) d in
                Ok ((y_name y, mkMap (sanitizeName (y_name y)) (g 0%nat) (g 1%nat) (g 2%nat) (g 3%nat) (g 4%nat) None None 0 None []
                                     (match findB vars (y_name y) with Some v => b_tags v | None => [] end) 0 (skipn 20 d)) :: ms)
  end.
(** elf_reader.go:809-878, one section; [so]: the order in which symbols are visited *)
Definition legacySection (o : obj) (btf : option btfspec) (so : Z -> list sym) (i : Z) (ms : maps) : res berr maps :=
  match kindAt o i, section o i with
  | Some KMap, Some s =>
      match symbolsOf o i with
      | [] => Err BNoSymbols
      | _ => if o_compressed s then Err BCompressed
             else match sectionVars btf (o_name s) with
                  | Err e => Err e
                  | Ok vars => run (legacyMap o vars s) (so i) ms
                  end
      end
  | _, _ => Ok ms
  end.
(** syms[sym.Name] = sym, for all symbols in the order of iteration: the last one wins *)
Fixpoint symNamed (l : list sym) (n : string) (acc : option sym) : option sym :=
  match l with [] => acc | y :: l => symNamed l n (if String.eqb (y_name y) n then Some y else acc) end.
(** elf_reader.go:935-972, one variable *)
Definition btfMap (h : heap) (m : rels) (al : Z) (s : osec) (syms : list sym) (v : bvar) (ms : maps) : res berr maps :=
  match symNamed syms (b_name v) None with
  | None => Err BNoSymbol
  | Some y =>
      if (2 ^ 32 - 1 <? y_value y) || (2 ^ 32 - 1 <? y_size y) then Err BBounds
      else if o_size s <? u64 (y_value y + y_size y) then Err BBounds
      else if (o_type s =? SHT_NOBITS) || negb (forallb (Z.eqb 0) (symBytes s y)) then Err BNotZero
      else match lookup (b_name v) ms with
           | Some _ => Err BDuplicate
           | None =>
               match match UnderlyingType h (b_type v) with Some t => deref h t | None => None end with
               | Some (NStruct _ _ mems _) =>
                   match mapSpecFromBTF h m al y (b_tags v) (b_name v) mems with
                   | Err e => Err e
                   | Ok spec => Ok ((b_name v, spec) :: ms)
                   end
               | _ => Err BStruct
               end
           end
  end.
(** elf_reader.go:908-977, one section; [vo]: the order in which the map of variables is visited; [al]: Addralign of sections *)
Definition btfSection (o : obj) (btf : option btfspec) (al : Z -> Z) (so : Z -> list sym) (vo : list bvar -> list bvar) (i : Z) (ms : maps) : res berr maps :=
  match kindAt o i, section o i with
  | Some KBtfMap, Some s =>
      match btf with
      | None => Err BMissing
      | Some b =>
          if o_compressed s then Err BCompressed
          else match sectionVars btf (o_name s) with
               | Err e => Err e
               | Ok vars =>
                   if negb (List.length vars =? List.length (symbolsOf o i))%nat then Err BCount
                   else match relocationsOf o i with
                        | Some (Ok m) => run (btfMap (b_heap b) m (al i) s (so i)) (vo vars) ms
                        | _ => Err BPanic (* loadRelocations has already failed *)
                        end
               end
      end
  | _, _ => Ok ms
  end.
(** elf_reader.go:177-183 *)
Definition loadMapSections (o : obj) (btf : option btfspec) (al : Z -> Z) (so so' : Z -> list sym) (vo : list bvar -> list bvar) (lo bo : list Z) : res berr maps :=
  match run (legacySection o btf so) lo [] with
  | Err e => Err e
  | Ok ms => run (btfSection o btf al so' vo) bo ms
  end.
