(** What a BTF type section means, after Documentation/bpf/btf.rst of the kernel.
    Independent of the decoder: uses only the record and node types, and the bit fields of WireSpec.v. *)
From Coq Require Import ZArith List Lia Bool Sorting.Sorted.
From Verif.Base Require Import GoInt.
From Verif.Btf Require Import Wire WireSpec Types.
Import ListNotations.
Open Scope Z_scope.

(** type IDs start at 1; 0 is void *)
Definition record (recs : list wrec) (id : Z) (r : wrec) : Prop := 1 <= id /\ nth_error recs (Z.to_nat (id - 1)) = Some r.
Definition kind (r : wrec) : Z := field (Info (hdr r)) 24 5.
Definition vlen (r : wrec) : Z := field (Info (hdr r)) 0 16.
Definition kind_flag (r : wrec) : bool := field (Info (hdr r)) 31 1 =? 1.
Definition name_off (r : wrec) : Z := NameOff (hdr r).
(** size of, or type referred to by, a type *)
Definition size_or_type (r : wrec) : Z := SizeType (hdr r).

Definition flat2 (ws : list (Z * Z)) : list Z := concat (map (fun w => [fst w; snd w]) ws).
Definition flat3 (ws : list (Z * Z * Z)) : list Z := concat (map (fun w => [fst (fst w); snd (fst w); snd w]) ws).

(** An int whose bits don't fill it describes a bitfield: its bit offset and bit size. *)
Definition int_bitfield (recs : list wrec) (id : Z) (o b : Z) : Prop :=
  exists r raw, record recs id r /\ kind r = 1 /\ aux r = [raw] /\ o = field raw 16 8 /\ b = field raw 0 8 /\
    (0 < o \/ b / 8 <> size_or_type r).
(** struct btf_member {name_off, type, offset} *)
Definition member_of (nm : Z -> option str) (recs : list wrec) (f : Z -> ref) (flag : bool) (w : Z * Z * Z) (m : member) : Prop :=
  let '(no, ty, off) := w in
  nm no = Some (m_name m) /\ m_type m = f ty /\ m_tags m = [] /\
  if flag then m_offset m = field off 0 24 /\ m_bits m = field off 24 8
  else (exists o b, int_bitfield recs ty o b /\ m_offset m = (off + o) mod 2 ^ 32 /\ m_bits m = b) \/
       ((forall o b, ~ int_bitfield recs ty o b) /\ m_offset m = off /\ m_bits m = 0).
(** struct btf_enum {name_off, val}: values are 32 bits, sign extended if the enum is signed *)
Definition enum_of (nm : Z -> option str) (sgn : bool) (w : Z * Z) (v : enumvalue) : Prop :=
  nm (fst w) = Some (ev_name v) /\
  ev_value v = if sgn && (2 ^ 31 <=? snd w) then snd w + (2 ^ 64 - 2 ^ 32) else snd w.
(** struct btf_enum64 {name_off, val_lo32, val_hi32} *)
Definition enum64_of (nm : Z -> option str) (w : Z * Z * Z) (v : enumvalue) : Prop :=
  let '(no, lo, hi) := w in nm no = Some (ev_name v) /\ ev_value v = lo + 2 ^ 32 * hi.
(** struct btf_param {name_off, type} *)
Definition param_of (nm : Z -> option str) (f : Z -> ref) (w : Z * Z) (p : fparam) : Prop :=
  nm (fst w) = Some (p_name p) /\ p_type p = f (snd w).
(** struct btf_var_secinfo {type, offset, size} *)
Definition secinfo_of (f : Z -> ref) (w : Z * Z * Z) (v : secinfo) : Prop :=
  let '(ty, off, sz) := w in v = mkVS (f ty) off sz.
Definition signed32 (x : Z) : Z := if x <? 2 ^ 31 then x else x - 2 ^ 32.

(** [describes nm recs f r n ids]: the record [r] describes the type [n] (without decl tags), where [f] gives the type for
    each ID; [ids] are the types it refers to. *)
Inductive describes (nm : Z -> option str) (recs : list wrec) (f : Z -> ref) (r : wrec) : node -> list Z -> Prop :=
| D_int s raw : kind r = 1 -> nm (name_off r) = Some s -> aux r = [raw] ->
    describes nm recs f r (NInt s (size_or_type r) (field raw 24 4)) []
| D_ptr s t : kind r = 2 -> nm (name_off r) = Some s -> size_or_type r = t -> describes nm recs f r (NPtr (f t)) [t]
| D_array s ty ix k : kind r = 3 -> nm (name_off r) = Some s -> aux r = [ty; ix; k] ->
    describes nm recs f r (NArray (f ix) (f ty) k) [ix; ty]
| D_struct s ws ms : kind r = 4 -> nm (name_off r) = Some s -> aux r = flat3 ws -> Z.of_nat (length ws) = vlen r ->
    Forall2 (member_of nm recs f (kind_flag r)) ws ms ->
    describes nm recs f r (NStruct s (size_or_type r) ms []) (map (fun w => snd (fst w)) ws)
| D_union s ws ms : kind r = 5 -> nm (name_off r) = Some s -> aux r = flat3 ws -> Z.of_nat (length ws) = vlen r ->
    Forall2 (member_of nm recs f (kind_flag r)) ws ms ->
    describes nm recs f r (NUnion s (size_or_type r) ms []) (map (fun w => snd (fst w)) ws)
| D_enum s ws vs : kind r = 6 -> nm (name_off r) = Some s -> aux r = flat2 ws -> Z.of_nat (length ws) = vlen r ->
    Forall2 (enum_of nm (kind_flag r)) ws vs ->
    describes nm recs f r (NEnum s (size_or_type r) (kind_flag r) vs) []
| D_fwd s : kind r = 7 -> nm (name_off r) = Some s -> describes nm recs f r (NFwd s (field (Info (hdr r)) 31 1)) []
| D_typedef s t : kind r = 8 -> nm (name_off r) = Some s -> size_or_type r = t -> describes nm recs f r (NTypedef s (f t) []) [t]
| D_volatile s t : kind r = 9 -> nm (name_off r) = Some s -> size_or_type r = t -> describes nm recs f r (NVolatile (f t)) [t]
| D_const s t : kind r = 10 -> nm (name_off r) = Some s -> size_or_type r = t -> describes nm recs f r (NConst (f t)) [t]
| D_restrict s t : kind r = 11 -> nm (name_off r) = Some s -> size_or_type r = t -> describes nm recs f r (NRestrict (f t)) [t]
| D_func s t : kind r = 12 -> nm (name_off r) = Some s -> size_or_type r = t -> describes nm recs f r (NFunc s (f t) (vlen r) [] []) [t]
| D_proto s ws ps t : kind r = 13 -> nm (name_off r) = Some s -> aux r = flat2 ws -> Z.of_nat (length ws) = vlen r ->
    Forall2 (param_of nm f) ws ps -> size_or_type r = t ->
    describes nm recs f r (NFuncProto (f t) ps) (map snd ws ++ [t])
| D_var s t l : kind r = 14 -> nm (name_off r) = Some s -> size_or_type r = t -> aux r = [l] -> describes nm recs f r (NVar s (f t) l []) [t]
| D_datasec s ws vs : kind r = 15 -> nm (name_off r) = Some s -> aux r = flat3 ws -> Z.of_nat (length ws) = vlen r ->
    Forall2 (secinfo_of f) ws vs ->
    describes nm recs f r (NDatasec s (size_or_type r) vs) (map (fun w => fst (fst w)) ws)
| D_float s : kind r = 16 -> nm (name_off r) = Some s -> describes nm recs f r (NFloat s (size_or_type r)) []
| D_decl_tag s t i : kind r = 17 -> nm (name_off r) = Some s -> size_or_type r = t -> aux r = [i] ->
    describes nm recs f r (NDeclTag (f t) s (signed32 i)) [t]
| D_type_tag s t : kind r = 18 -> nm (name_off r) = Some s -> size_or_type r = t -> describes nm recs f r (NTypeTag (f t) s) [t]
| D_enum64 s ws vs : kind r = 19 -> nm (name_off r) = Some s -> aux r = flat3 ws -> Z.of_nat (length ws) = vlen r ->
    Forall2 (enum64_of nm) ws vs ->
    describes nm recs f r (NEnum s (size_or_type r) (kind_flag r) vs) [].

(** the kinds of types which have a name: int, struct, union, enum, fwd, typedef, func, var, datasec, float, enum64 *)
Definition named_kind (k : Z) : bool :=
  (k =? 1) || (k =? 4) || (k =? 5) || (k =? 6) || (k =? 7) || (k =? 8) || (k =? 12) || (k =? 14) || (k =? 15) || (k =? 16) || (k =? 19).
(** [name_of nm r s]: the type described by the record has the name [s]; other types have the empty name *)
Definition name_of (nm : Z -> option str) (r : wrec) (s : str) : Prop :=
  if named_kind (kind r) then nm (name_off r) = Some s else s = [].

(** enums with 32 and 64 bit values are represented by the same Go type *)
Definition go_type (k : Z) : Z := if k =? 19 then 6 else k.
Definition type_kind (n : node) : Z :=
  match n with
  | NInt _ _ _ => 1 | NPtr _ => 2 | NArray _ _ _ => 3 | NStruct _ _ _ _ => 4 | NUnion _ _ _ _ => 5 | NEnum _ _ _ _ => 6 | NFwd _ _ => 7
  | NTypedef _ _ _ => 8 | NVolatile _ => 9 | NConst _ => 10 | NRestrict _ => 11 | NFunc _ _ _ _ _ => 12 | NFuncProto _ _ => 13 | NVar _ _ _ _ => 14
  | NDatasec _ _ _ => 15 | NFloat _ _ => 16 | NDeclTag _ _ _ => 17 | NTypeTag _ _ => 18 | NCycle _ => -1
  end.

(** *** Decl tags *)
(** [t] is the ID of a decl tag of the type [id] *)
Definition tags_type (recs : list wrec) (id t : Z) : Prop := exists r, record recs t r /\ kind r = 17 /\ size_or_type r = id.
(** the tags of a type: value and component index, in the order of their IDs *)
Definition tag_list (nm : Z -> option str) (recs : list wrec) (id : Z) (l : list (str * Z)) : Prop :=
  exists ts, (forall t, In t ts <-> tags_type recs id t) /\ StronglySorted Z.lt ts /\
    Forall2 (fun t vi => exists r i, record recs t r /\ nm (name_off r) = Some (fst vi) /\ aux r = [i] /\ snd vi = signed32 i) ts l.
(** those of one component; -1 is the type itself *)
Definition component (i : Z) (l : list (str * Z)) : list str := map fst (filter (fun vi => snd vi =? i) l).
Fixpoint tag_members (i : Z) (l : list (str * Z)) (ms : list member) : list member :=
  match ms with
  | [] => []
  | m :: ms' => mkMember (m_name m) (m_type m) (m_offset m) (m_bits m) (component i l) :: tag_members (i + 1) l ms'
  end.
(** a type with the tags [l]; [np] is the number of parameters if it is a function *)
Definition attach (np : nat) (l : list (str * Z)) (n : node) : node :=
  match n with
  | NStruct s z ms _ => NStruct s z (tag_members 0 l ms) (component (-1) l)
  | NUnion s z ms _ => NUnion s z (tag_members 0 l ms) (component (-1) l)
  | NTypedef s t _ => NTypedef s t (component (-1) l)
  | NVar s t k _ => NVar s t k (component (-1) l)
  | NFunc s t k _ _ => NFunc s t k (component (-1) l) (match l with [] => [] | _ => map (fun i => component (Z.of_nat i) l) (seq 0 np) end)
  | _ => n
  end.
(** only structs, unions, typedefs, variables and functions have tags; a component must exist *)
Definition taggable (np : option nat) (n : node) (i : Z) : Prop :=
  match n with
  | NStruct _ _ ms _ | NUnion _ _ ms _ => -1 <= i < Z.of_nat (length ms)
  | NTypedef _ _ _ | NVar _ _ _ _ => i = -1
  | NFunc _ _ _ _ _ => match np with Some k => -1 <= i < Z.of_nat k | None => False end
  | _ => False
  end.
(** the number of parameters of the function prototype with the given ID *)
Definition proto_params (recs : list wrec) (id : Z) (np : option nat) : Prop :=
  (exists r, record recs id r /\ kind r = 13 /\ np = Some (Z.to_nat (vlen r))) \/
  ((forall r, record recs id r -> kind r <> 13) /\ np = None).

(** [sound nm recs id]: this record is well formed, and so are its tags *)
Definition sound (nm : Z -> option str) (recs : list wrec) (id : Z) : Prop :=
  id = 0 \/
  exists r n ids l np, record recs id r /\ describes nm recs (fun _ => RVoid) r n ids /\
    tag_list nm recs id l /\ proto_params recs (size_or_type r) np /\ Forall (fun vi => taggable np n (snd vi)) l.
(** decoding a type requires the types it refers to and its tags *)
Definition requires (nm : Z -> option str) (recs : list wrec) (id j : Z) : Prop :=
  (exists r n ids, record recs id r /\ describes nm recs (fun _ => RVoid) r n ids /\ In j ids) \/ tags_type recs id j.
Inductive needs (nm : Z -> option str) (recs : list wrec) : Z -> Z -> Prop :=
| needs_refl x : needs nm recs x x
| needs_step x y z : requires nm recs x y -> needs nm recs y z -> needs nm recs x z.
(** everything a type needs is well formed ... *)
Definition all_sound nm recs id := forall j, needs nm recs id j -> sound nm recs j.
(** ... and no function prototype needs a tagged function of that prototype, which valid BTF rules out since nothing but
    decl tags and data sections may refer to a function *)
Definition protos_first nm recs id := forall j r t, needs nm recs id j -> record recs j r -> kind r = 12 -> tags_type recs j t ->
  ~ needs nm recs (size_or_type r) j.

(** the object [f id] in the heap is the type described by record [id], references and tags included *)
Definition decoded nm recs (h : heap) (f : Z -> ref) (id : Z) : Prop :=
  exists r n ids l np, record recs id r /\ describes nm recs f r n ids /\ tag_list nm recs id l /\
    proto_params recs (size_or_type r) np /\ deref h (f id) = Some (attach (match np with Some k => k | None => 0%nat end) l n).
