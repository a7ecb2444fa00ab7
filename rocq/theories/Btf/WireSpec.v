(** Specification of the BTF wire format, after Documentation/bpf/btf.rst of the kernel,
    independent of the model in Wire.v (only its record types are used). *)
From Coq Require Import ZArith List Lia Bool.
From Verif.Base Require Import GoInt.
From Verif.Btf Require Import Wire.
Import ListNotations.
Open Scope Z_scope.

(** bits [lo, lo+n) of v *)
Definition field (v lo n : Z) : Z := (v / 2 ^ lo) mod 2 ^ n.
(** v and v' differ at most in bits [lo, lo+n) *)
Definition same_outside (v v' lo n : Z) : Prop := forall i, 0 <= i -> ~ (lo <= i < lo + n) -> Z.testbit v' i = Z.testbit v i.

(** ** Blob header: 24 bytes, an optional 8 byte layout, and a zero trailer up to hdr_len *)
Definition header_bytes (bo : byteorder) (h : btfHeader) : list Z :=
  put bo 2 (Magic h) ++ [Version h; Flags h] ++ put bo 4 (HdrLen h) ++ put bo 4 (TypeOff h) ++ put bo 4 (TypeLen h)
  ++ put bo 4 (StringOff h) ++ put bo 4 (StringLen h).
Definition header_ranges (h : btfHeader) : Prop :=
  in_u 16 (Magic h) /\ in_u 8 (Version h) /\ in_u 8 (Flags h) /\ in_u 32 (HdrLen h) /\ in_u 32 (TypeOff h) /\
  in_u 32 (TypeLen h) /\ in_u 32 (StringOff h) /\ in_u 32 (StringLen h).
Definition layout_bytes (bo : byteorder) (l : btfLayout) : list Z := put bo 4 (LOff l) ++ put bo 4 (LLen l).
Definition valid_header (buf : list Z) (h : btfHeader) (l : btfLayout) (bo : byteorder) : Prop :=
  header_ranges h /\ Magic h = 60319 /\ Version h = 1 /\ Flags h = 0 /\ 24 <= HdrLen h /\
  ((HdrLen h < 32 /\ l = mkLayout 0 0 /\
    exists rest, buf = header_bytes bo h ++ repeat 0 (Z.to_nat (HdrLen h - 24)) ++ rest) \/
   (32 <= HdrLen h /\ in_u 32 (LOff l) /\ in_u 32 (LLen l) /\
    exists rest, buf = header_bytes bo h ++ layout_bytes bo l ++ repeat 0 (Z.to_nat (HdrLen h - 32)) ++ rest)).

(** ** Type records *)
(** kind, bytes of auxiliary data, bytes of auxiliary data per vlen *)
Definition aux_table : list (Z * (Z * Z)) :=
  [ (1, (4, 0));   (* INT: one u32 *)
    (2, (0, 0));   (* PTR *)
    (3, (12, 0));  (* ARRAY: struct btf_array *)
    (4, (0, 12));  (* STRUCT: struct btf_member *)
    (5, (0, 12));  (* UNION *)
    (6, (0, 8));   (* ENUM: struct btf_enum *)
    (7, (0, 0)); (8, (0, 0)); (9, (0, 0)); (10, (0, 0)); (11, (0, 0)); (12, (0, 0));
                   (* FWD TYPEDEF VOLATILE CONST RESTRICT FUNC *)
    (13, (0, 8));  (* FUNC_PROTO: struct btf_param *)
    (14, (4, 0));  (* VAR: struct btf_var *)
    (15, (0, 12)); (* DATASEC: struct btf_var_secinfo *)
    (16, (0, 0));  (* FLOAT *)
    (17, (4, 0));  (* DECL_TAG: struct btf_decl_tag *)
    (18, (0, 0));  (* TYPE_TAG *)
    (19, (0, 12)) ]. (* ENUM64: struct btf_enum64 *)
Definition aux_len (bt : btfType) (n : Z) : Prop :=
  exists c v, In (field (Info bt) 24 5, (c, v)) aux_table /\ n = c + v * field (Info bt) 0 16.
Definition type_ranges (bt : btfType) : Prop := in_u 32 (NameOff bt) /\ in_u 32 (Info bt) /\ in_u 32 (SizeType bt).
Definition type_bytes (bo : byteorder) (bt : btfType) : list Z :=
  put bo 4 (NameOff bt) ++ put bo 4 (Info bt) ++ put bo 4 (SizeType bt).
(** [records bo off buf l]: buf, found at offset off of the section, is a sequence of records which start at
    the offsets and have the headers listed in l. *)
Inductive records (bo : byteorder) : Z -> list Z -> list (Z * btfType) -> Prop :=
| records_nil off : records bo off [] []
| records_cons off h data rest l :
    type_ranges h -> aux_len h (Z.of_nat (length data)) ->
    records bo (off + 12 + Z.of_nat (length data)) rest l ->
    records bo off (type_bytes bo h ++ data ++ rest) ((off, h) :: l).

(** well formed record in words *)
Definition rec_ok (r : wrec) : Prop :=
  type_ranges (hdr r) /\ aux_len (hdr r) (4 * Z.of_nat (length (aux r))) /\ Forall (in_u 32) (aux r).
