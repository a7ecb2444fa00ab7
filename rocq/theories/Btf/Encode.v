(** Model of the BTF encoder: btf/marshal.go.

    Types live in a heap (Types.v), which neither Builder nor encoder writes to.  The maps keyed by Type are association
    lists keyed by references.  What binary.Append writes are uint32 words, so a record is a [wrec] (Wire.v).
    Deduplication (BuilderOptions.Deduplicate) is not modelled here. *)
From Coq Require Import ZArith List Lia Bool.
From Verif.Base Require Import GoInt.
From Verif.Btf Require Import Strings Wire WireSpec Types.
Import ListNotations.
Open Scope Z_scope.

Inductive eerr := NilType | NoMoreIDs | NulInString | NoID | VoidIsImplicit | CantDeflate | ExceedsEnum | IDOverflow.

(** ** Builder *)
(** btf/marshal.go:74-83 Builder, without the deduper; [bd_ids] is stableIDs, [bd_strings] is nil or a string table *)
Record bldr := mkBldr { bd_types : list ref; bd_ids : list (ref * Z); bd_strings : option builder }.
Definition emptyBuilder : bldr := mkBldr [] [] None.
Fixpoint id_of (ids : list (ref * Z)) (r : ref) : option Z :=
  match ids with [] => None | (k, v) :: ids' => if ref_eq_dec k r then Some v else id_of ids' r end.

(** btf/marshal.go:158-174, the end of Add: a type which is neither Void nor nil *)
Definition add_type (b : bldr) (typ : ref) : bldr * res eerr Z :=
  match id_of (bd_ids b) typ with
  | Some id => (b, Ok id)
  | None =>
      let types := bd_types b ++ [typ] in
      let id := u32 (Z.of_nat (length types)) in
      if negb (id =? Z.of_nat (length types)) then (mkBldr types (bd_ids b) (bd_strings b), Err NoMoreIDs)
      else (mkBldr types ((typ, id) :: bd_ids b) (bd_strings b), Ok id)
  end.
(** btf/workarounds.go:7-27 datasecResolveWorkaround.  The types it adds are no data sections, so Add doesn't recurse
    further. *)
Definition workaround_type (h : heap) (v : secinfo) : option ref :=
  match deref h (vs_type v) with
  | Some (NVar _ t _ _) =>
      match deref h t with
      | Some (NTypedef _ _ _) | Some (NVolatile _) | Some (NConst _) | Some (NRestrict _) | Some (NTypeTag _ _) => Some t
      | _ => None
      end
  | _ => None
  end.
Fixpoint workaround (h : heap) (b : bldr) (vars : list secinfo) : bldr * option eerr :=
  match vars with
  | [] => (b, None)
  | v :: vars' =>
      match workaround_type h v with
      | None => workaround h b vars'
      | Some t => match add_type b t with
                  | (b, Err e) => (b, Some e)
                  | (b, Ok _) => workaround h b vars'
                  end
      end
  end.
(** btf/marshal.go:131-174 Add *)
Definition Add (h : heap) (b : bldr) (typ : ref) : bldr * res eerr Z :=
  match typ with
  | RVoid => (b, Ok 0)
  | RNil => (b, Err NilType)
  | RPtr _ =>
      match deref h typ with
      | Some (NDatasec _ _ vars) =>
          match workaround h b vars with
          | (b, Some e) => (b, Err e)
          | (b, None) => add_type b typ
          end
      | _ => add_type b typ
      end
  end.
(** btf/marshal.go:275-281 addString *)
Definition addString (b : bldr) (s : str) : bldr * res eerr Z :=
  let '(r, st) := b_add (match bd_strings b with Some st => st | None => newStringTableBuilder end) s in
  (mkBldr (bd_types b) (bd_ids b) (Some st), match r with Ok o => Ok o | Err _ => Err NulInString end).
(** a history of calls and their results *)
Inductive op := OAdd (t : ref) | OString (s : str).
Definition apply_op (h : heap) (b : bldr) (o : op) : bldr * res eerr Z :=
  match o with OAdd t => Add h b t | OString s => addString b s end.
Fixpoint run (h : heap) (b : bldr) (ops : list op) : bldr * list (res eerr Z) :=
  match ops with
  | [] => (b, [])
  | o :: ops' => let '(b, r) := apply_op h b o in let '(b, rs) := run h b ops' in (b, r :: rs)
  end.

(** ** Encoder *)
(** btf/marshal.go:16-30 MarshalOptions *)
Record mopts := mkOpts { StripFuncLinkage : bool; ReplaceDeclTags : bool; ReplaceTypeTags : bool; ReplaceEnum64 : bool; PreventNoTypeFound : bool }.
Definition noOpts : mopts := mkOpts false false false false false.

(** what waits to be written: types, the decl tags synthesised by the traversal, the integers synthesised for 64 bit
    enums, and the dummy integer of an empty builder *)
Inductive pitem := PType (r : ref) | PTag (owner : ref) (value : str) (index : Z) | PInt (name : str) (size enc : Z) | PDummy.
(** btf/marshal.go:44-52 encoder *)
Record enc := mkEnc { e_pending : list pitem; e_strings : builder; e_ids : list (ref * Z); e_visited : list ref; e_lastID : Z }.

(** btf/marshal.go:284-301, for one type yielded by the traversal.  A synthesised tag is a new type, which has no ID. *)
Definition allocate (e : enc) (it : item) : res eerr enc :=
  let alloc (p : pitem) (ids : Z -> list (ref * Z)) :=
    let id := u32 (e_lastID e + 1) in
    if id <? e_lastID e then Err IDOverflow
    else Ok (mkEnc (e_pending e ++ [p]) (e_strings e) (ids id) (e_visited e) id) in
  match it with
  | IType RVoid => Ok e
  | IType r =>
      match id_of (e_ids e) r with
      | Some _ => Ok e
      | None => alloc (PType r) (fun id => (r, id) :: e_ids e)
      end
  | ITag o v i => alloc (PTag o v i) (fun _ => e_ids e)
  end.
Fixpoint allocate_all (e : enc) (its : list item) : res eerr enc :=
  match its with
  | [] => Ok e
  | it :: its' => match allocate e it with Err x => Err x | Ok e => allocate_all e its' end
  end.
(** btf/marshal.go:283-304 allocateIDs for a type of the heap; [None] is the panic for a nil type *)
Definition allocateIDs (h : heap) (e : enc) (root : ref) : option (res eerr enc) :=
  match postorder h (e_visited e) root with
  | None => None
  | Some (visited, its) => Some (allocate_all (mkEnc (e_pending e) (e_strings e) (e_ids e) visited (e_lastID e)) its)
  end.
(** the same for a new integer, which has no children *)
Definition allocate_int (e : enc) (name : str) (size encoding : Z) : res eerr (enc * Z) :=
  let id := u32 (e_lastID e + 1) in
  if id <? e_lastID e then Err IDOverflow
  else Ok (mkEnc (e_pending e ++ [PInt name size encoding]) (e_strings e) (e_ids e) (e_visited e) id, id).

(** btf/marshal.go:307-318 id; the panic is turned into an error by deflateType *)
Definition e_id (e : enc) (r : ref) : res eerr Z :=
  match r with
  | RVoid => Ok 0
  | _ => match id_of (e_ids e) r with Some i => Ok i | None => Err NoID end
  end.
Definition add_string (b : builder) (s : str) : res eerr (Z * builder) :=
  match b_add b s with (Ok o, b) => Ok (o, b) | (Err _, _) => Err NulInString end.

Definition bind {A B} (x : res eerr A) (f : A -> res eerr B) : res eerr B := match x with Ok a => f a | Err e => Err e end.

(** btf/marshal.go:531-564 deflateMembers; a member is given by its name, the ID of its type, offset and bit size.
    Returns the flag, the string table and the words. *)
Fixpoint deflateMembers (b : builder) (isBitfield : bool) (ms : list (str * res eerr Z * Z * Z)) : res eerr (bool * builder * list Z) :=
  match ms with
  | [] => Ok (isBitfield, b, [])
  | (name, ty, off, bits) :: ms' =>
      let isBitfield := isBitfield || (bits >? 0) in
      let offset := if isBitfield then Z.lor (u32 (Z.shiftl bits 24)) (Z.land off 16777215) else off in
      bind (add_string b name) (fun '(nameOff, b) =>
      bind ty (fun ty =>
      bind (deflateMembers b isBitfield ms') (fun '(flag, b, ws) =>
      Ok (flag, b, nameOff :: ty :: u32 offset :: ws))))
  end.
(** btf/marshal.go:575-606 deflateEnumValues *)
Fixpoint deflateEnumValues (b : builder) (signed : bool) (vs : list enumvalue) : res eerr (builder * list Z) :=
  match vs with
  | [] => Ok (b, [])
  | v :: vs' =>
      bind (add_string b (ev_name v)) (fun '(nameOff, b) =>
      if (if signed then (i64 (ev_value v) <? -2147483648) || (i64 (ev_value v) >? 2147483647) else ev_value v >? 4294967295)
      then Err ExceedsEnum
      else bind (deflateEnumValues b signed vs') (fun '(b, ws) => Ok (b, nameOff :: u32 (ev_value v) :: ws)))
  end.
(** btf/marshal.go:642-664 deflateEnum64Values *)
Fixpoint deflateEnum64Values (b : builder) (vs : list enumvalue) : res eerr (builder * list Z) :=
  match vs with
  | [] => Ok (b, [])
  | v :: vs' =>
      bind (add_string b (ev_name v)) (fun '(nameOff, b) =>
      bind (deflateEnum64Values b vs') (fun '(b, ws) => Ok (b, nameOff :: u32 (ev_value v) :: u32 (Z.shiftr (ev_value v) 32) :: ws)))
  end.
(** btf/marshal.go:666-686 deflateFuncParams *)
Fixpoint deflateFuncParams (e : enc) (b : builder) (ps : list fparam) : res eerr (builder * list Z) :=
  match ps with
  | [] => Ok (b, [])
  | p :: ps' =>
      bind (add_string b (p_name p)) (fun '(nameOff, b) =>
      bind (e_id e (p_type p)) (fun ty =>
      bind (deflateFuncParams e b ps') (fun '(b, ws) => Ok (b, nameOff :: ty :: ws))))
  end.
(** btf/marshal.go:688-705 deflateVarSecinfos *)
Fixpoint deflateVarSecinfos (e : enc) (vs : list secinfo) : res eerr (list Z) :=
  match vs with
  | [] => Ok []
  | v :: vs' => bind (e_id e (vs_type v)) (fun ty => bind (deflateVarSecinfos e vs') (fun ws => Ok (ty :: vs_offset v :: vs_size v :: ws)))
  end.
(** btf/marshal.go:467-477 deflateInt *)
Definition int_word (size encoding : Z) : Z := SetBits (SetEncoding 0 encoding) (u8 (u8 size * 8)).
Definition deflateInt (raw : btfType) (size encoding : Z) : wrec :=
  mkRec (SetSizeType (SetKind raw kindInt) size) [int_word size encoding].
(** a type whose record is a reference *)
Definition deflateRef (e : enc) (raw : btfType) (k : Z) (t : ref) : res eerr wrec :=
  bind (e_id e t) (fun i => Ok (mkRec (SetSizeType (SetKind raw k) i) [])).
Definition with_strings (e : enc) (b : builder) : enc := mkEnc (e_pending e) b (e_ids e) (e_visited e) (e_lastID e).
(** structs and unions *)
Definition deflateComposite (e : enc) (raw : btfType) (k size : Z) (ms : list (str * res eerr Z * Z * Z)) : res eerr (enc * wrec) :=
  bind (deflateMembers (e_strings e) false ms) (fun '(flag, b, ws) =>
  Ok (with_strings e b, mkRec (setKindFlagBool (SetVlen (SetSizeType (SetKind raw k) size) (Z.of_nat (length ms))) flag) ws)).
Definition members_of (e : enc) (ms : list member) : list (str * res eerr Z * Z * Z) :=
  map (fun m => (m_name m, e_id e (m_type m), m_offset m, m_bits m)) ms.

Definition enum64_name : str := [101;110;117;109;54;52;95;112;108;97;99;101;104;111;108;100;101;114]. (* "enum64_placeholder" *)
Definition decl_tag_name : str := [100;101;99;108;95;116;97;103;95;112;108;97;99;101;104;111;108;100;101;114]. (* "decl_tag_placeholder" *)
(** btf/marshal.go:479-504 deflateDeclTag *)
Definition deflateDeclTag (o : mopts) (e : enc) (raw : btfType) (t : ref) (value : str) (index : Z) : res eerr (enc * wrec) :=
  if ReplaceDeclTags o then
    bind (add_string (e_strings e) decl_tag_name) (fun '(n, b) => Ok (with_strings e b, deflateInt (SetNameOff raw n) 1 0))
  else
    bind (e_id e t) (fun i =>
    bind (add_string (e_strings e) value) (fun '(n, b) =>
    Ok (with_strings e b, mkRec (SetNameOff (SetSizeType (SetKind raw kindDeclTag) i) n) [u32 index]))).
(** btf/marshal.go:608-640 deflateEnum64; IntEncoding Unsigned is 0, Signed is 1 (btf/types.go:104-107) *)
Definition deflateEnum64 (o : mopts) (e : enc) (raw : btfType) (size : Z) (signed : bool) (vs : list enumvalue) : res eerr (enc * wrec) :=
  if ReplaceEnum64 o then
    bind (allocate_int e enum64_name size (if signed then 1 else 0)) (fun '(e, i) =>
    deflateComposite e raw kindUnion size (map (fun v => (ev_name v, Ok i, 0, 0)) vs))
  else
    bind (deflateEnum64Values (e_strings e) vs) (fun '(b, ws) =>
    Ok (with_strings e b, mkRec (setKindFlagBool (SetVlen (SetSizeType (SetKind raw kindEnum64) size) (Z.of_nat (length vs))) signed) ws)).

(** btf/marshal.go:343-465 deflateType, for a type of the heap *)
Definition deflateNode (o : mopts) (e : enc) (n : node) : res eerr (enc * wrec) :=
  bind (add_string (e_strings e) (type_name n)) (fun '(nameOff, b) =>
  let e := with_strings e b in
  let raw := mkBtfType nameOff 0 0 in
  let ref k t := bind (deflateRef e raw k t) (fun r => Ok (e, r)) in
  match n with
  | NInt _ size encoding => Ok (e, deflateInt raw size encoding)
  | NPtr t => ref kindPointer t
  | NArray ix t k =>
      bind (e_id e t) (fun ti => bind (e_id e ix) (fun ii => Ok (e, mkRec (SetKind raw kindArray) [ti; ii; k])))
  | NStruct _ size ms _ => deflateComposite e raw kindStruct size (members_of e ms)
  | NUnion _ size ms _ => deflateComposite e raw kindUnion size (members_of e ms)
  | NEnum _ size signed vs =>
      if size =? 8 then deflateEnum64 o e raw size signed vs
      else bind (deflateEnumValues (e_strings e) signed vs) (fun '(b, ws) =>
           Ok (with_strings e b, mkRec (setKindFlagBool (SetVlen (SetSizeType (SetKind raw kindEnum) size) (Z.of_nat (length vs)))
                                          (signed && negb (ReplaceEnum64 o))) ws))
  | NFwd _ k => Ok (e, mkRec (SetFwdKind (SetKind raw kindForward) k) [])
  | NTypedef _ t _ => ref kindTypedef t
  | NVolatile t => ref kindVolatile t
  | NConst t => ref kindConst t
  | NRestrict t => ref kindRestrict t
  | NFunc _ t linkage _ _ =>
      bind (deflateRef e raw kindFunc t) (fun r =>
      Ok (e, if StripFuncLinkage o then r else mkRec (SetLinkage (hdr r) linkage) (aux r)))
  | NFuncProto ret ps =>
      bind (e_id e ret) (fun i =>
      bind (deflateFuncParams e (e_strings e) ps) (fun '(b, ws) =>
      Ok (with_strings e b, mkRec (SetVlen (SetSizeType (SetKind raw kindFuncProto) i) (Z.of_nat (length ps))) ws)))
  | NVar _ t linkage _ => bind (deflateRef e raw kindVar t) (fun r => Ok (e, mkRec (hdr r) [u32 linkage]))
  | NDatasec _ size vars =>
      bind (deflateVarSecinfos e vars) (fun ws =>
      Ok (e, mkRec (SetVlen (SetSizeType (SetKind raw kindDatasec) size) (Z.of_nat (length vars))) ws))
  | NFloat _ size => Ok (e, mkRec (SetSizeType (SetKind raw kindFloat) size) [])
  | NDeclTag t value index => deflateDeclTag o e raw t value index
  | NTypeTag t value =>
      if ReplaceTypeTags o then ref kindConst t
      else bind (deflateRef e raw kindTypeTag t) (fun r =>
           bind (add_string (e_strings e) value) (fun '(n, b) => Ok (with_strings e b, mkRec (SetNameOff (hdr r) n) [])))
  | NCycle _ => Err CantDeflate
  end).
(** btf/marshal.go:343-465 deflateType *)
Definition deflateType (o : mopts) (h : heap) (e : enc) (p : pitem) : res eerr (enc * wrec) :=
  match p with
  | PType r =>
      match deref h r with
      | Some n => deflateNode o e n
      | None => Err VoidIsImplicit
      end
  | PTag owner value index =>
      bind (add_string (e_strings e) []) (fun '(nameOff, b) => deflateDeclTag o (with_strings e b) (mkBtfType nameOff 0 0) owner value index)
  | PInt name size encoding => deflateNode o e (NInt name size encoding)
  | PDummy => deflateNode o e (NInt [] 0 0)
  end.

(** btf/marshal.go:320-341 deflatePending.  Synthesised types have been visited when they get here; the dummy has not,
    and it has no ID. *)
Definition allocate_for (h : heap) (e : enc) (p : pitem) : option (res eerr enc) :=
  match p with
  | PType r => allocateIDs h e r
  | PTag _ _ _ | PInt _ _ _ => Some (Ok e)
  | PDummy => Some (bind (allocate_int e [] 0 0) (fun '(e, _) => Ok e))
  end.
Fixpoint deflatePending (fuel : nat) (o : mopts) (h : heap) (e : enc) : option (res eerr (enc * list wrec)) :=
  match fuel with
  | O => None
  | S f =>
      match e_pending e with
      | [] => Some (Ok (e, []))
      | p :: rest =>
          match allocate_for h (mkEnc rest (e_strings e) (e_ids e) (e_visited e) (e_lastID e)) p with
          | None => None
          | Some (Err x) => Some (Err x)
          | Some (Ok e) =>
              match deflateType o h e p with
              | Err x => Some (Err x)
              | Ok (e, r) =>
                  match deflatePending f o h e with
                  | None => None
                  | Some (Err x) => Some (Err x)
                  | Some (Ok (e, rs)) => Some (Ok (e, r :: rs))
                  end
              end
          end
      end
  end.
(** enough steps: every type and every tag is written once, some write an additional integer *)
Definition node_tags (h : heap) (n : node) : nat := length (filter (fun c => match c with CTag _ _ => true | _ => false end) (children h n)).
Definition pending_fuel (h : heap) (types : list ref) : nat :=
  (2 * length types + 2 * length h + fold_right (fun n k => node_tags h n + k) 0 h + 4)%nat.

(** btf/marshal.go:191-266 Marshal.  The contents of the buffer passed in are overwritten.  The header fields are
    conversions of lengths; [bo] is opts.Order, [order] the order in which Go iterates over the map of strings. *)
Definition marshalRecs (o : mopts) (h : heap) (b : bldr) : option (res eerr (enc * list wrec)) :=
  let strings := match bd_strings b with Some st => st | None => newStringTableBuilder end in
  let types := match bd_types b with
               | [] => if (b_length strings >? 0) && PreventNoTypeFound o then [PDummy] else []
               | l => map PType l
               end in
  deflatePending (pending_fuel h (bd_types b)) o h (mkEnc types strings (bd_ids b) [] (u32 (Z.of_nat (length (bd_types b))))).
Definition Marshal (o : mopts) (bo : byteorder) (order : list (str * Z) -> list (str * Z)) (h : heap) (b : bldr) : option (res eerr (list Z)) :=
  match marshalRecs o h b with
  | None => None
  | Some (Err x) => Some (Err x)
  | Some (Ok (e, rs)) =>
      let types := concat (map (encodeRec bo) rs) in
      let typeLen := u32 (Z.of_nat (length types)) in
      let hdr := mkHeader btfMagic 1 0 24 0 typeLen typeLen (u32 (b_length (e_strings e))) in
      match AppendEncoded (e_strings e) (order (b_strings (e_strings e))) types with
      | None => None
      | Some body => Some (Ok (header_bytes bo hdr ++ body))
      end
  end.
