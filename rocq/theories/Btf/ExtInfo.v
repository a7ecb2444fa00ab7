(** Model of btf/ext_info.go: the .BTF.ext section, function and line infos, and of their assignment to instructions in
    elf_reader.go.  Records are lists of their 32 bit words: bpfFuncInfo is [InsnOff; TypeID] (btf/ext_info.go:322-326),
    bpfLineInfo is [InsnOff; FileNameOff; LineOff; LineCol] (508-514), bpfCORERelo is [InsnOff; TypeID; AccessStrOff; Kind]
    (673-678). *)
From Coq Require Import ZArith List Lia Bool.
From Verif.Base Require Import GoInt.
From Verif.Btf Require Import Strings Wire Names Types Decode Encode EncodeDone.
Import ListNotations.
Open Scope Z_scope.

Inductive xerr := XEOF | XShort | XMagic | XVersion | XFlags | XHdrLen | XRecordSize | XString | XNoName | XNoRecords | XUnaligned
  | XType | XNotFunc | XAnonymous | XAccessor | XLine | XColumn | XBuilder (e : eerr) | XPanic.

(** binary.Read of n > 0 bytes: io.EOF if there are none, io.ErrUnexpectedEOF if there are fewer *)
Definition readFull (n : nat) (r : list Z) : res xerr (list Z * list Z) :=
  if (length r <? n)%nat then Err (match r with [] => XEOF | _ => XShort end) else Ok (firstn n r, skipn n r).
Fixpoint decodeWords (bo : byteorder) (k : nat) (b : list Z) : list Z :=
  match k with O => [] | S k' => get bo (firstn 4 b) :: decodeWords bo k' (skipn 4 b) end.
(** binary.Read of a struct of k words *)
Definition readWords (bo : byteorder) (k : nat) (r : list Z) : res xerr (list Z * list Z) :=
  match readFull (4 * k) r with Err e => Err e | Ok (b, r) => Ok (decodeWords bo k b, r) end.
(** [%v] instead of [%w]: the error doesn't wrap io.EOF *)
Definition opaque {A} (x : res xerr A) : res xerr A := match x with Err XEOF => Err XShort | _ => x end.

(** btf/strings.go:62-70 *)
Definition lookupName (t : table) (off : Z) : res xerr str :=
  match Lookup t off with None => Err XPanic | Some (Err _) => Err XString | Some (Ok s) => Ok s end.

(** ** Headers *)
Record extHeader := mkExt { x_hdrLen : Z; x_funcOff : Z; x_funcLen : Z; x_lineOff : Z; x_lineLen : Z }.
(** btf/ext_info.go:188-213 parseBTFExtHeader: the header has 24 bytes *)
Definition parseBTFExtHeader (bo : byteorder) (r : list Z) : res xerr (extHeader * list Z) :=
  match readFull 24 r with
  | Err e => Err e
  | Ok (b, r) =>
      if negb (get bo (at_ b 0 2) =? btfMagic) then Err XMagic
      else if negb (get bo (at_ b 2 1) =? 1) then Err XVersion
      else if negb (get bo (at_ b 3 1) =? 0) then Err XFlags
      else
        let h := mkExt (get bo (at_ b 4 4)) (get bo (at_ b 8 4)) (get bo (at_ b 12 4)) (get bo (at_ b 16 4)) (get bo (at_ b 20 4)) in
        if x_hdrLen h <? 24 then Err XHdrLen else Ok (h, r)
  end.
(** btf/ext_info.go:241-255 parseBTFExtCOREHeader.  binary.Size(&extHeader) is the size of a pointer to a pointer, which
    encoding/binary gives as -1. *)
Definition parseBTFExtCOREHeader (bo : byteorder) (h : extHeader) (r : list Z) : res xerr (option (Z * Z)) :=
  let extHdrSize := -1 in
  let remainder := x_hdrLen h - extHdrSize in
  if remainder =? 0 then Ok None
  else match readWords bo 2 r with
       | Ok ([off; len], _) => Ok (Some (off, len))
       | Ok _ => Err XPanic
       | Err e => Err e
       end.
(** internal.NewBufferedSectionReader: the part of the section of a given length at a given offset *)
Definition part (bytes : list Z) (off len : Z) : list Z := firstn (Z.to_nat len) (skipn (Z.to_nat off) bytes).

(** ** Sections of records *)
(** btf/ext_info.go:266-285 parseExtInfoSec: the name of the section and the number of records *)
Definition parseExtInfoSec (bo : byteorder) (t : table) (r : list Z) : res xerr (str * Z * list Z) :=
  match readWords bo 2 r with
  | Err e => Err e
  | Ok ([nameOff; num], r) =>
      match lookupName t nameOff with
      | Err e => Err e
      | Ok [] => Err XNoName
      | Ok name => if num =? 0 then Err XNoRecords else Ok (name, num, r)
      end
  | Ok _ => Err XPanic
  end.
(** btf/ext_info.go:290-307 parseExtInfoRecordSize *)
Definition parseExtInfoRecordSize (bo : byteorder) (r : list Z) : res xerr (Z * list Z) :=
  match opaque (readWords bo 1 r) with
  | Ok ([size], r) => if size <? 4 then Err XRecordSize else if size >? 256 then Err XRecordSize else Ok (size, r)
  | Ok _ => Err XPanic
  | Err e => Err e
  end.
Definition insnOff (ws : list Z) : Z := nth 0 ws 0.
(** the offset in instructions, from one in bytes *)
Definition toInsns (ws : list Z) : res xerr (list Z) :=
  if negb (insnOff ws mod 8 =? 0) then Err XUnaligned else Ok (match ws with [] => [] | o :: ws' => o / 8 :: ws' end).
(** btf/ext_info.go:431-460 parseFuncInfoRecords (k = 2) and 799-820 parseCOREReloRecords (k = 4, always in bytes), the loop *)
Fixpoint readRecords (bo : byteorder) (k : nat) (inBytes : bool) (n : nat) (r : list Z) : res xerr (list (list Z) * list Z) :=
  match n with
  | O => Ok ([], r)
  | S n' =>
      match opaque (readWords bo k r) with
      | Err e => Err e
      | Ok (ws, r) =>
          match (if inBytes then toInsns ws else Ok ws) with
          | Err e => Err e
          | Ok ws => match readRecords bo k inBytes n' r with Err e => Err e | Ok (l, r) => Ok (ws :: l, r) end
          end
      end
  end.
Definition FuncInfoSize := 8.
Definition parseFuncInfoRecords (bo : byteorder) (recordSize num : Z) (inBytes : bool) (r : list Z) : res xerr (list (list Z) * list Z) :=
  if negb (FuncInfoSize =? recordSize) then Err XRecordSize else readRecords bo 2 inBytes (Z.to_nat num) r.
(** btf/ext_info.go:639-670 parseLineInfoRecords: reads chunks of up to 1024 records *)
Fixpoint splitWords (bo : byteorder) (n : nat) (b : list Z) : list (list Z) :=
  match n with O => [] | S n' => decodeWords bo 4 (firstn 16 b) :: splitWords bo n' (skipn 16 b) end.
Fixpoint readChunks (fuel : nat) (bo : byteorder) (remaining : Z) (out : list (list Z)) (r : list Z) : res xerr (list (list Z) * list Z) :=
  match fuel with
  | O => Err XPanic
  | S f =>
      if negb (remaining >? 0) then Ok (out, r)
      else
        let n := Z.min 1024 remaining in
        match opaque (readFull (16 * Z.to_nat n) r) with
        | Err e => Err e
        | Ok (b, r) => readChunks f bo (remaining - n) (out ++ splitWords bo (Z.to_nat n) b) r
        end
  end.
Fixpoint mapRes {A B} (f : A -> res xerr B) (l : list A) : res xerr (list B) :=
  match l with
  | [] => Ok []
  | x :: l' => match f x with Err e => Err e | Ok y => match mapRes f l' with Err e => Err e | Ok ys => Ok (y :: ys) end end
  end.
Definition LineInfoSize := 16.
Definition parseLineInfoRecords (bo : byteorder) (recordSize num : Z) (inBytes : bool) (r : list Z) : res xerr (list (list Z) * list Z) :=
  if negb (LineInfoSize =? recordSize) then Err XRecordSize
  else match readChunks (S (Z.to_nat num)) bo num [] r with
       | Err e => Err e
       | Ok (out, r) => if inBytes then match mapRes toInsns out with Err e => Err e | Ok out => Ok (out, r) end else Ok (out, r)
       end.

(** Go maps with string keys *)
Fixpoint m_get {A} (m : list (str * A)) (k : str) : option A :=
  match m with [] => None | (k', v) :: m' => if str_eqb k k' then Some v else m_get m' k end.
Fixpoint m_put {A} (m : list (str * A)) (k : str) (v : A) : list (str * A) :=
  match m with [] => [(k, v)] | (k', v') :: m' => if str_eqb k k' then (k, v) :: m' else (k', v') :: m_put m' k v end.
(** the loops of btf/ext_info.go:403-426 parseFuncInfos, 611-634 parseLineInfos and 767-794 parseCORERelos, which differ in
    the function [parse] for the records *)
Fixpoint parseSections (fuel : nat) (bo : byteorder) (t : table) (parse : Z -> list Z -> res xerr (list (list Z) * list Z))
  (result : list (str * list (list Z))) (r : list Z) : res xerr (list (str * list (list Z))) :=
  match fuel with
  | O => Err XPanic
  | S f =>
      match parseExtInfoSec bo t r with
      | Err XEOF => Ok result
      | Err e => Err e
      | Ok (name, num, r) =>
          match parse num r with
          | Err e => Err e
          | Ok (records, r) => parseSections f bo t parse (m_put result name records) r
          end
      end
  end.
Definition parseFuncInfos (bo : byteorder) (t : table) (r : list Z) : res xerr (list (str * list (list Z))) :=
  match parseExtInfoRecordSize bo r with
  | Err e => Err e
  | Ok (size, r) => parseSections (S (length r)) bo t (fun num r => parseFuncInfoRecords bo size num true r) [] r
  end.
Definition parseLineInfos (bo : byteorder) (t : table) (r : list Z) : res xerr (list (str * list (list Z))) :=
  match parseExtInfoRecordSize bo r with
  | Err e => Err e
  | Ok (size, r) => parseSections (S (length r)) bo t (fun num r => parseLineInfoRecords bo size num true r) [] r
  end.
Definition parseCORERelos (bo : byteorder) (t : table) (r : list Z) : res xerr (list (str * list (list Z))) :=
  match parseExtInfoRecordSize bo r with
  | Err e => Err e
  | Ok (size, r) =>
      if negb (size =? 16) then Err XRecordSize
      else parseSections (S (length r)) bo t (fun num r => readRecords bo 4 true (Z.to_nat num) r) [] r
  end.

(** ** Infos with their types and strings *)
(** btf/ext_info.go:317-320 FuncOffset, 465-470 Line, 496-499 LineOffset, 680-687 CORERelocation *)
Record line := mkLine { l_file : str; l_line : str; l_number : Z; l_column : Z }.
Record relocation := mkRelo { r_typ : ref; r_accessor : list Z; r_kind : Z; r_id : Z }.
Definition funcOffset := (Z * ref)%type.
Definition lineOffset := (Z * line)%type.
Definition reloOffset := (Z * relocation)%type.
(** a Spec without base *)
Record spec := mkSpec { s_strings : table; s_recs : list wrec }.
Definition s_type (s : spec) := TypeByID (table_names (s_strings s)) (s_recs s).

Section Infos.
  (** sort.Slice with a less function *)
  Variable sortSlice : forall A : Type, (A -> A -> bool) -> list A -> list A.
  Variable s : spec.

  (** btf/ext_info.go:328-348 newFuncOffset *)
  Definition newFuncOffset (st : dstate) (ws : list Z) : dstate * res xerr funcOffset :=
    match ws with
    | [off; id] =>
        match s_type s st id with
        | None => (st, Err XPanic)
        | Some (st, None) => (st, Err XType)
        | Some (st, Some r) =>
            match deref (d_heap st) r with
            | Some (NFunc name _ _ _ _) => (st, match name with [] => Err XAnonymous | _ => Ok (off, r) end)
            | _ => (st, Err XNotFunc)
            end
        end
    | _ => (st, Err XPanic)
    end.
  Fixpoint mapState {A B} (f : dstate -> A -> dstate * res xerr B) (st : dstate) (l : list A) : dstate * res xerr (list B) :=
    match l with
    | [] => (st, Ok [])
    | x :: l' =>
        match f st x with
        | (st, Err e) => (st, Err e)
        | (st, Ok y) => match mapState f st l' with (st, Err e) => (st, Err e) | (st, Ok ys) => (st, Ok (y :: ys)) end
        end
    end.
  (** btf/ext_info.go:350-364 newFuncOffsets *)
  Definition newFuncOffsets (st : dstate) (l : list (list Z)) : dstate * res xerr (list funcOffset) :=
    match mapState newFuncOffset st l with
    | (st, Err e) => (st, Err e)
    | (st, Ok fos) => (st, Ok (sortSlice _ (fun x y => fst x <=? fst y) fos))
    end.
  (** btf/ext_info.go:532-555 newLineInfo; the cache of LookupCached is transparent (C25) *)
  Definition newLineInfo (ws : list Z) : res xerr lineOffset :=
    match ws with
    | [off; fileNameOff; lineOff; lineCol] =>
        match lookupName (s_strings s) lineOff with
        | Err e => Err e
        | Ok ln =>
            match lookupName (s_strings s) fileNameOff with
            | Err e => Err e
            | Ok fileName => Ok (off, mkLine fileName ln (Z.shiftr lineCol 10) (Z.land lineCol 1023))
            end
        end
    | _ => Err XPanic
    end.
  (** btf/ext_info.go:557-570 newLineInfos *)
  Definition newLineInfos (l : list (list Z)) : res xerr (list lineOffset) :=
    match mapRes newLineInfo l with Err e => Err e | Ok lis => Ok (sortSlice _ (fun x y => fst x <=? fst y) lis) end.
  (** btf/ext_info.go:718-743 newRelocationInfo *)
  Definition newRelocationInfo (st : dstate) (ws : list Z) : dstate * res xerr reloOffset :=
    match ws with
    | [off; id; accessOff; kind] =>
        match s_type s st id with
        | None => (st, Err XPanic)
        | Some (st, None) => (st, Err XType)
        | Some (st, Some r) =>
            (st, match lookupName (s_strings s) accessOff with
                 | Err e => Err e
                 | Ok accessorStr => match parseCOREAccessor accessorStr with Err _ => Err XAccessor | Ok acc => Ok (off, mkRelo r acc kind id) end
                 end)
        end
    | _ => (st, Err XPanic)
    end.
  (** btf/ext_info.go:745-761 newRelocationInfos *)
  Definition newRelocationInfos (st : dstate) (l : list (list Z)) : dstate * res xerr (list reloOffset) :=
    match mapState newRelocationInfo st l with
    | (st, Err e) => (st, Err e)
    | (st, Ok rs) => (st, Ok (sortSlice _ (fun x y => fst x <? fst y) rs))
    end.

  (** the loops over the maps in loadExtInfos; [order] is the order in which Go iterates *)
  Variable order : list (str * list (list Z)) -> list (str * list (list Z)).
  Definition perSection {A} (f : dstate -> list (list Z) -> dstate * res xerr A) (st : dstate) (m : list (str * list (list Z))) : dstate * res xerr (list (str * A)) :=
    mapState (fun st e => match f st (snd e) with (st, Err x) => (st, Err x) | (st, Ok a) => (st, Ok (fst e, a)) end) st (order m).
  Record extInfos := mkExtInfos { Funcs : list (str * list funcOffset); Lines : list (str * list lineOffset); CORERelos : list (str * list reloOffset) }.
  (** btf/ext_info.go:52-114 loadExtInfos *)
  Definition loadExtInfos (bo : byteorder) (st : dstate) (bytes : list Z) : dstate * res xerr extInfos :=
    match parseBTFExtHeader bo bytes with
    | Err e => (st, Err e)
    | Ok (h, r) =>
        match parseBTFExtCOREHeader bo h r with
        | Err e => (st, Err e)
        | Ok core =>
            match parseFuncInfos bo (s_strings s) (part bytes (u32 (x_hdrLen h + x_funcOff h)) (x_funcLen h)) with
            | Err e => (st, Err e)
            | Ok btfFuncInfos =>
                match perSection newFuncOffsets st btfFuncInfos with
                | (st, Err e) => (st, Err e)
                | (st, Ok funcInfos) =>
                    match parseLineInfos bo (s_strings s) (part bytes (u32 (x_hdrLen h + x_lineOff h)) (x_lineLen h)) with
                    | Err e => (st, Err e)
                    | Ok btfLineInfos =>
                        match perSection (fun st l => (st, newLineInfos l)) st btfLineInfos with
                        | (st, Err e) => (st, Err e)
                        | (st, Ok lineInfos) =>
                            match core with
                            | None => (st, Ok (mkExtInfos funcInfos lineInfos []))
                            | Some (coreOff, coreLen) =>
                                if coreLen =? 0 then (st, Ok (mkExtInfos funcInfos lineInfos []))
                                else match parseCORERelos bo (s_strings s) (part bytes (u32 (x_hdrLen h + coreOff)) coreLen) with
                                     | Err e => (st, Err e)
                                     | Ok btfCORERelos =>
                                         match perSection newRelocationInfos st btfCORERelos with
                                         | (st, Err e) => (st, Err e)
                                         | (st, Ok coreRelos) => (st, Ok (mkExtInfos funcInfos lineInfos coreRelos))
                                         end
                                     end
                            end
                        end
                    end
                end
            end
        end
    end.

  (** btf/ext_info.go:369-382 LoadFuncInfos and 517-530 LoadLineInfos: the kernel's format *)
  Definition LoadFuncInfos (bo : byteorder) (st : dstate) (num : Z) (r : list Z) : dstate * res xerr (list funcOffset) :=
    match parseFuncInfoRecords bo FuncInfoSize num false r with
    | Err e => (st, Err e)
    | Ok (fis, _) => newFuncOffsets st fis
    end.
  Definition LoadLineInfos (bo : byteorder) (num : Z) (r : list Z) : res xerr (list lineOffset) :=
    match parseLineInfoRecords bo LineInfoSize num false r with
    | Err e => Err e
    | Ok (lis, _) => newLineInfos lis
    end.
End Infos.

(** ** Instructions with metadata *)
(** asm.Instruction.Source is a fmt.Stringer: a Line of this package, or any other with its text *)
Inductive source := SLine (l : line) | SOther (text : str).
(** An instruction as far as this file is concerned: the number of raw instructions (1 or 2), and its metadata. *)
Record xins := mkXins { i_width : Z; i_func : option ref; i_source : option source; i_relo : option relocation }.
Definition line_of (s : source) : line := match s with SLine l => l | SOther text => mkLine [] text 0 0 end.

(** btf/ext_info.go:385-399 FuncOffset.marshal, [bo] is the native byte order *)
Definition marshalFunc (bo : byteorder) (h : heap) (b : bldr) (off : Z) (fn : ref) : bldr * res xerr (list Z) :=
  match Add h b fn with
  | (b, Err e) => (b, Err (XBuilder e))
  | (b, Ok id) => (b, Ok (put bo 4 (u32 off) ++ put bo 4 id))
  end.
(** btf/ext_info.go:573-607 LineOffset.marshal *)
Definition marshalLine (bo : byteorder) (b : bldr) (off : Z) (ln : line) : bldr * res xerr (list Z) :=
  if l_number ln >? 4194303 then (b, Err XLine)
  else if l_column ln >? 1023 then (b, Err XColumn)
  else match addString b (l_file ln) with
       | (b, Err e) => (b, Err (XBuilder e))
       | (b, Ok fileNameOff) =>
           match addString b (l_line ln) with
           | (b, Err e) => (b, Err (XBuilder e))
           | (b, Ok lineOff) =>
               (b, Ok (put bo 4 (u32 off) ++ put bo 4 fileNameOff ++ put bo 4 lineOff ++ put bo 4 (Z.lor (u32 (Z.shiftl (l_number ln) 10)) (l_column ln))))
           end
       end.
(** btf/ext_info.go:121-169 MarshalExtInfos, the loop; [off] is iter.Offset (asm/instruction.go:976-988) *)
Fixpoint marshalLoop (bo : byteorder) (h : heap) (b : bldr) (off : Z) (insns : list xins) (fi li : list Z) : bldr * res xerr (list Z * list Z) :=
  match insns with
  | [] => (b, Ok (fi, li))
  | i :: insns' =>
      match (match i_func i with Some fn => marshalFunc bo h b off fn | None => (b, Ok []) end) with
      | (b, Err e) => (b, Err e)
      | (b, Ok f) =>
          match (match i_source i with Some src => marshalLine bo b off (line_of src) | None => (b, Ok []) end) with
          | (b, Err e) => (b, Err e)
          | (b, Ok l) => marshalLoop bo h b (off + i_width i) insns' (fi ++ f) (li ++ l)
          end
      end
  end.
(** The first loop finds the first instruction with metadata; what precedes it contributes nothing to the second one. *)
Fixpoint findFirst (off : Z) (insns : list xins) : option (Z * list xins) :=
  match insns with
  | [] => None
  | i :: insns' => match i_source i, i_func i with None, None => findFirst (off + i_width i) insns' | _, _ => Some (off, insns) end
  end.
Definition MarshalExtInfos (bo : byteorder) (h : heap) (b : bldr) (insns : list xins) : bldr * res xerr (list Z * list Z) :=
  match findFirst 0 insns with
  | None => (b, Ok ([], []))
  | Some (off, insns) => marshalLoop bo h b off insns [] []
  end.

(** elf_reader.go:512-524 take *)
Definition take {T} (q : list (Z * T)) (raw : Z) : option T * list (Z * T) :=
  match q with
  | [] => (None, q)
  | (off, x) :: q' => if off =? raw then (Some x, q') else (None, q)
  end.
Definition queues := (list funcOffset * list lineOffset * list reloOffset)%type.
(** elf_reader.go:528-542 assignMetadata *)
Definition assignMetadata (i : xins) (raw : Z) (q : queues) : xins * queues :=
  let '(fo, lo, ro) := q in
  let '(f, fo) := take fo raw in
  let i := match f with Some f => mkXins (i_width i) (Some f) (i_source i) (i_relo i) | None => i end in
  let '(l, lo) := take lo raw in
  let i := match l with Some l => mkXins (i_width i) (i_func i) (Some (SLine l)) (i_relo i) | None => i end in
  let '(r, ro) := take ro raw in
  let i := match r with Some r => mkXins (i_width i) (i_func i) (i_source i) (Some r) | None => i end in
  (i, (fo, lo, ro)).
(** elf_reader.go:481-502, the loop over the instructions of a symbol, and info.go:721-724; [raw] is the offset of the first
    instruction *)
Fixpoint assignLoop (insns : list xins) (raw : Z) (q : queues) : list xins * Z * queues :=
  match insns with
  | [] => ([], raw, q)
  | i :: insns' =>
      let '(i', q) := assignMetadata i raw q in
      let '(out, raw', q) := assignLoop insns' (raw + i_width i) q in
      (i' :: out, raw', q)
  end.
(** elf_reader.go:455-508, the loop over the symbols of a section *)
Fixpoint assignSymbols (progs : list (list xins)) (raw : Z) (q : queues) : list (list xins) * Z * queues :=
  match progs with
  | [] => ([], raw, q)
  | insns :: progs' =>
      let '(out, raw, q) := assignLoop insns raw q in
      let '(outs, raw, q) := assignSymbols progs' raw q in
      (out :: outs, raw, q)
  end.
