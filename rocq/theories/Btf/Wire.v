(** Model of the BTF wire format: btf/btf_types.go, the framing in btf/btf.go and the
    scan in btf/unmarshal.go. *)
From Coq Require Import ZArith List Lia Bool.
From Verif.Base Require Import GoInt.
From Verif.Btf Require Import Strings.
Import ListNotations.
Open Scope Z_scope.

(** ** Bit fields *)
(** btf/btf_types.go:186-188 mask (uint32 arithmetic) *)
Definition mask (len : Z) : Z := u32 (u32 (Z.shiftl 1 len) - 1).
(** btf/btf_types.go:190-192 readBits *)
Definition readBits (value len shift : Z) : Z := Z.land (Z.shiftr value shift) (mask len).
(** btf/btf_types.go:194-198 writeBits *)
Definition writeBits (value len shift new : Z) : Z :=
  Z.lor (Z.ldiff value (u32 (Z.shiftl (mask len) shift))) (u32 (Z.shiftl (Z.land new (mask len)) shift)).

(** btf/btf_types.go:64-71 *)
Definition btfTypeKindShift := 24.
Definition btfTypeKindLen := 5.
Definition btfTypeVlenShift := 0.
Definition btfTypeVlenMask := 16.
Definition btfTypeKindFlagShift := 31.
Definition btfTypeKindFlagMask := 1.

(** btf/btf_types.go:152-171 btfType *)
Record btfType := mkBtfType { NameOff : Z; Info : Z; SizeType : Z }.
(** btf/btf_types.go:200-206 info, setInfo *)
Definition info (bt : btfType) (len shift : Z) : Z := readBits (Info bt) len shift.
Definition setInfo (bt : btfType) (value len shift : Z) : btfType :=
  mkBtfType (NameOff bt) (writeBits (Info bt) len shift value) (SizeType bt).
(** btf/btf_types.go:208-285; a btfKind is a uint8, Vlen an int, FuncLinkage an int *)
Definition Kind (bt : btfType) : Z := u8 (info bt btfTypeKindLen btfTypeKindShift).
Definition SetKind (bt : btfType) (k : Z) : btfType := setInfo bt (u32 k) btfTypeKindLen btfTypeKindShift.
Definition Vlen (bt : btfType) : Z := info bt btfTypeVlenMask btfTypeVlenShift.
Definition SetVlen (bt : btfType) (v : Z) : btfType := setInfo bt (u32 v) btfTypeVlenMask btfTypeVlenShift.
Definition kindFlagBool (bt : btfType) : bool := info bt btfTypeKindFlagMask btfTypeKindFlagShift =? 1.
Definition setKindFlagBool (bt : btfType) (s : bool) : btfType :=
  setInfo bt (if s then 1 else 0) btfTypeKindFlagMask btfTypeKindFlagShift.
Definition FwdKind (bt : btfType) : Z := info bt btfTypeKindFlagMask btfTypeKindFlagShift.
Definition SetFwdKind (bt : btfType) (k : Z) : btfType := setInfo bt (u32 k) btfTypeKindFlagMask btfTypeKindFlagShift.
Definition Linkage (bt : btfType) : Z := info bt btfTypeVlenMask btfTypeVlenShift.
Definition SetLinkage (bt : btfType) (l : Z) : btfType := setInfo bt (u32 l) btfTypeVlenMask btfTypeVlenShift.
Definition SetSizeType (bt : btfType) (s : Z) : btfType := mkBtfType (NameOff bt) (Info bt) s.
Definition SetNameOff (bt : btfType) (s : Z) : btfType := mkBtfType s (Info bt) (SizeType bt).

(** btf/btf_types.go:343-354, 367-389 btfInt *)
Definition IntEncoding (raw : Z) : Z := u8 (readBits raw 4 24).
Definition SetEncoding (raw e : Z) : Z := writeBits raw 4 24 (u32 e).
Definition IntOffset (raw : Z) : Z := readBits raw 8 16.
Definition SetOffset (raw o : Z) : Z := writeBits raw 8 16 o.
Definition IntBits (raw : Z) : Z := readBits raw 8 0.
Definition SetBits (raw b : Z) : Z := writeBits raw 8 0 (u32 b).

(** ** Blob header *)
(** btf/btf_types.go:73-85; uint16, 2 x uint8, 5 x uint32: binary.Size is 24 *)
Record btfHeader := mkHeader { Magic : Z; Version : Z; Flags : Z; HdrLen : Z;
                               TypeOff : Z; TypeLen : Z; StringOff : Z; StringLen : Z }.
Definition btfHeaderLen := 24%nat.
(** btf/btf_types.go:87-90 *)
Record btfLayout := mkLayout { LOff : Z; LLen : Z }.
Definition btfMagic := 60319. (* 0xeB9F, btf/btf.go:19 *)

Inductive werr := ReadHeader | NoHeader | BadVersion | BadFlags | HdrTooShort | HdrTooLong | NonZeroTrailer
  | HdrOutOfBounds | StringsOutOfBounds | TypesOutOfBounds | StringTable (e : sterr)
  | ShortHeader | UnknownKind | AuxTruncated.

Definition at_ (buf : list Z) (off n : nat) : list Z := firstn n (skipn off buf).
(** binary.Decode of a btfHeader: needs 24 bytes *)
Definition decodeHeader (bo : byteorder) (buf : list Z) : btfHeader :=
  mkHeader (get bo (at_ buf 0 2)) (get bo (at_ buf 2 1)) (get bo (at_ buf 3 1)) (get bo (at_ buf 4 4))
           (get bo (at_ buf 8 4)) (get bo (at_ buf 12 4)) (get bo (at_ buf 16 4)) (get bo (at_ buf 20 4)).

(** btf/btf_types.go:93-149 parseBTFHeader *)
Definition parseBTFHeader (buf : list Z) : res werr (btfHeader * btfLayout * byteorder) :=
  if (length buf <? btfHeaderLen)%nat then Err ReadHeader
  else
    let bo := if Magic (decodeHeader LE buf) =? btfMagic then Some LE
              else if Magic (decodeHeader BE buf) =? btfMagic then Some BE else None in
    match bo with
    | None => Err NoHeader
    | Some bo =>
        let h := decodeHeader bo buf in
        let buf := skipn btfHeaderLen buf in
        if negb (Version h =? 1) then Err BadVersion
        else if negb (Flags h =? 0) then Err BadFlags
        else
          let remainder := HdrLen h - 24 in
          if remainder <? 0 then Err HdrTooShort
          else if Z.of_nat (length buf) <? remainder then Err HdrTooLong
          else
            let '(layout, buf, remainder) :=
              if 8 <=? remainder
              then (mkLayout (get bo (at_ buf 0 4)) (get bo (at_ buf 4 4)), skipn 8 buf, remainder - 8)
              else (mkLayout 0 0, buf, remainder) in
            if forallb (fun b => b =? 0) (firstn (Z.to_nat remainder) buf)
            then Ok (h, layout, bo) else Err NonZeroTrailer
    end.

(** btf/btf.go:195-240 loadRawSpec up to the decoder: the string table and the bytes of the type
    section. [None] is a panic (slice bounds out of range). *)
Definition slice (buf : list Z) (lo hi : Z) : option (list Z) :=
  if (0 <=? lo) && (lo <=? hi) && (hi <=? Z.of_nat (length buf))
  then Some (at_ buf (Z.to_nat lo) (Z.to_nat (hi - lo))) else None.
Definition loadSections (btf : list Z) (baseStrings : option table) : option (res werr (byteorder * table * list Z)) :=
  match parseBTFHeader btf with
  | Err e => Some (Err e)
  | Ok (h, _, bo) =>
      if HdrLen h >? u32 (Z.of_nat (length btf)) then Some (Err HdrOutOfBounds)
      else match slice btf (HdrLen h) (Z.of_nat (length btf)) with
      | None => None
      | Some btf =>
        if StringOff h + StringLen h >? Z.of_nat (length btf) then Some (Err StringsOutOfBounds)
        else match slice btf (StringOff h) (u32 (StringOff h + StringLen h)) with
        | None => None
        | Some stringsSection =>
          match newStringTable stringsSection baseStrings with
          | Err e => Some (Err (StringTable e))
          | Ok rawStrings =>
            if TypeOff h + TypeLen h >? Z.of_nat (length btf) then Some (Err TypesOutOfBounds)
            else match slice btf (TypeOff h) (u32 (TypeOff h + TypeLen h)) with
                 | None => None
                 | Some typesSection => Some (Ok (bo, rawStrings, typesSection))
                 end
          end
        end
      end
  end.

(** ** Type records *)
(** btf/btf_types.go:16-43 *)
Definition kindInt := 1. Definition kindPointer := 2. Definition kindArray := 3. Definition kindStruct := 4.
Definition kindUnion := 5. Definition kindEnum := 6. Definition kindForward := 7. Definition kindTypedef := 8.
Definition kindVolatile := 9. Definition kindConst := 10. Definition kindRestrict := 11. Definition kindFunc := 12.
Definition kindFuncProto := 13. Definition kindVar := 14. Definition kindDatasec := 15. Definition kindFloat := 16.
Definition kindDeclTag := 17. Definition kindTypeTag := 18. Definition kindEnum64 := 19.

(** btf/btf_types.go:298-334 DataLen; sizes are those of structs of uint32 fields. *)
Definition DataLen (bt : btfType) : option Z :=
  let k := Kind bt in
  if k =? kindInt then Some 4
  else if k =? kindPointer then Some 0
  else if k =? kindArray then Some 12
  else if (k =? kindStruct) || (k =? kindUnion) then Some (12 * Vlen bt)
  else if k =? kindEnum then Some (8 * Vlen bt)
  else if (k =? kindForward) || (k =? kindTypedef) || (k =? kindVolatile) || (k =? kindConst)
          || (k =? kindRestrict) || (k =? kindFunc) then Some 0
  else if k =? kindFuncProto then Some (8 * Vlen bt)
  else if k =? kindVar then Some 4
  else if k =? kindDatasec then Some (12 * Vlen bt)
  else if k =? kindFloat then Some 0
  else if k =? kindDeclTag then Some 4
  else if k =? kindTypeTag then Some 0
  else if k =? kindEnum64 then Some (12 * Vlen bt)
  else None.

(** btf/btf_types.go:175-184 unmarshalBtfType *)
Definition unmarshalBtfType (bo : byteorder) (b : list Z) : option btfType :=
  if (length b <? 12)%nat then None
  else Some (mkBtfType (get bo (at_ b 0 4)) (get bo (at_ b 4 4)) (get bo (at_ b 8 4))).
(** btf/btf_types.go:287-295 Encode *)
Definition encodeBtfType (bo : byteorder) (bt : btfType) : list Z :=
  put bo 4 (NameOff bt) ++ put bo 4 (Info bt) ++ put bo 4 (SizeType bt).

(** btf/unmarshal.go:146-175 allBtfTypeOffsets, collecting what is yielded: the start of every record with
    its header.  [fuel] bounds the number of records; every record takes at least 12 bytes. *)
Fixpoint scan (fuel : nat) (bo : byteorder) (buf : list Z) (offset : Z) : res werr (list (Z * btfType)) :=
  match fuel with
  | O => Ok []
  | S fuel' =>
      if offset <? Z.of_nat (length buf) then
        match unmarshalBtfType bo (skipn (Z.to_nat offset) buf) with
        | None => Err ShortHeader
        | Some h =>
            match DataLen h with
            | None => Err UnknownKind
            | Some n =>
                if offset + 12 + n >? Z.of_nat (length buf) then Err AuxTruncated
                else match scan fuel' bo buf (offset + 12 + n) with
                     | Err e => Err e
                     | Ok l => Ok ((offset, h) :: l)
                     end
            end
        end
      else Ok []
  end.
Definition allBtfTypeOffsets (bo : byteorder) (buf : list Z) : res werr (list (Z * btfType)) :=
  scan (S (length buf)) bo buf 0.

(** ** Records as words: a record is a header followed by uint32 words.
    The unmarshalBtf* functions (btf/btf_types.go:361-531) read consecutive uint32 fields. *)
Record wrec := mkRec { hdr : btfType; aux : list Z }.
Definition encodeRec (bo : byteorder) (r : wrec) : list Z :=
  encodeBtfType bo (hdr r) ++ concat (map (put bo 4) (aux r)).
(** the [n]-th uint32 word after the header of the record at [offset] *)
Definition word (bo : byteorder) (buf : list Z) (offset : Z) (n : nat) : Z :=
  get bo (at_ buf (Z.to_nat offset + 12 + 4 * n) 4).
Definition readRec (bo : byteorder) (buf : list Z) (p : Z * btfType) : wrec :=
  mkRec (snd p) (map (word bo buf (fst p))
    (seq 0 (Z.to_nat (match DataLen (snd p) with Some n => n / 4 | None => 0 end)))).
(** all records of a type section *)
Definition readRecs (bo : byteorder) (buf : list Z) : res werr (list wrec) :=
  match allBtfTypeOffsets bo buf with
  | Err e => Err e
  | Ok l => Ok (map (readRec bo buf) l)
  end.
