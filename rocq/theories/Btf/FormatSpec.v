(** Vocabulary for C59: how Go lays out a struct, and what a C type looks like in Go.  Independent of the formatter. *)
From Coq Require Import ZArith List Lia Bool.
From Verif.Base Require Import GoInt.
From Verif.Btf Require Import Types TypesSpec Format.
Import ListNotations.
Open Scope Z_scope.

(** The size and alignment of Go's types: [word n] is the alignment of an integer of n bytes; the size and alignment of the
    types which are referred to by name are given. *)
Record platform := mkPlatform { word : Z -> Z; named_size : str -> Z; named_align : str -> Z }.
Definition sane (pf : platform) : Prop := (forall n, 0 < word pf n) /\ (forall s, 0 < named_align pf s).
Definition roundup (x a : Z) : Z := (x + a - 1) / a * a.

Section Layout.
  Variable pf : platform.
  Fixpoint galign (g : gotype) : Z :=
    match g with
    | GBool => 1
    | GUint n | GInt n => word pf n
    | GBytes _ => 1
    | GArray _ e => galign e
    | GStruct fs => fold_right (fun f a => Z.max (galign (snd f)) a) 1 fs
    | GNamed s => named_align pf s
    end.
  (** the fields are placed one after the other, each at the next multiple of its alignment; a struct which ends in a field of
      size zero is made larger (unless it is empty); its size is a multiple of its alignment *)
  Fixpoint gsize (g : gotype) : Z :=
    match g with
    | GBool => 1
    | GUint n | GInt n => n
    | GBytes n => n
    | GArray n e => n * gsize e
    | GStruct fs =>
        let place := fix place (off : Z) (last : Z) (l : list (option str * gotype)) : Z * Z :=
          match l with
          | [] => (off, last)
          | (_, t) :: l' => let o := roundup off (galign t) in place (o + gsize t) (gsize t) l'
          end in
        let '(off, last) := place 0 1 fs in
        roundup (if (last =? 0) && (off >? 0) then off + 1 else off) (galign (GStruct fs))
    | GNamed s => named_size pf s
    end.
  (** where the named fields of a struct are *)
  Fixpoint goffsets (off : Z) (fs : list (option str * gotype)) : list (str * Z * gotype) :=
    match fs with
    | [] => []
    | (name, t) :: fs' =>
        let o := roundup off (galign t) in
        match name with Some s => [(s, o, t)] | None => [] end ++ goffsets (o + gsize t) fs'
    end.
End Layout.

(** ** The types a program uses are laid out as C compilers do *)
(** members which are not bitfields follow each other and end before the end of the struct *)
Fixpoint fits (h : heap) (prev : Z) (ms : list member) (size : Z) : Prop :=
  match ms with
  | [] => prev <= size
  | m :: ms' =>
      if m_bits m >? 0 then fits h prev ms' size
      else exists d z, has_size h (m_type m) d z /\ prev <= m_offset m / 8 /\ fits h (m_offset m / 8 + z) ms' size
  end.
(** variables follow each other, and have the size of their type *)
Fixpoint fits_vars (h : heap) (prev : Z) (vs : list secinfo) (size : Z) : Prop :=
  match vs with
  | [] => prev <= size
  | v :: vs' =>
      match deref h (vs_type v) with
      | Some (NVar _ t 1 _) => (exists d, has_size h t d (vs_size v)) /\ prev <= vs_offset v /\ fits_vars h (vs_offset v + vs_size v) vs' size
      | _ => fits_vars h prev vs' size
      end
  end.
Definition laid_out (h : heap) (n : node) : Prop :=
  match n with
  | NStruct _ size ms _ => fits h 0 ms size
  | NUnion _ size ms _ => match ms with [] => True | m :: _ => m_offset m = 0 /\ fits h 0 [m] size end
  | NDatasec _ size vs => fits_vars h 0 vs size
  | _ => True
  end.
Definition c_heap (h : heap) : Prop := heap_u32 h /\ forall a n, nth_error h a = Some n -> laid_out h n.

(** ** What a Go type shows of a C type *)
(** the name, offset in bytes and type of what is shown of a member: an anonymous union is replaced by its first member *)
Inductive visible (h : heap) : member -> str -> Z -> ref -> Prop :=
| visible_member m : m_bits m <= 0 -> m_offset m mod 8 = 0 -> m_name m <> [] -> visible h m (m_name m) (m_offset m / 8) (m_type m)
| visible_union m s z u ums tags name off t : m_bits m <= 0 -> m_offset m mod 8 = 0 -> m_name m = [] ->
    deref h (m_type m) = Some (NUnion s z (u :: ums) tags) -> visible h u name off t -> visible h m name (m_offset m / 8 + off) t.
Definition not_bitfield (m : member) : bool := negb (m_bits m >? 0).
Definition is_global (h : heap) (v : secinfo) : bool := match deref h (vs_type v) with Some (NVar _ _ 1 _) => true | _ => false end.
(** [offsets fs]: where the named fields of a Go struct are *)
Inductive shows (offsets : list (option str * gotype) -> list (str * Z * gotype)) (size : gotype -> Z) (h : heap) (names : ref -> option str) (ident : str -> str) : ref -> gotype -> Prop :=
| shows_bool r s : deref h r = Some (NInt s 1 4) -> shows offsets size h names ident r GBool
| shows_uint r s z e : deref h r = Some (NInt s z e) -> z <= 8 -> e = 0 \/ (e = 2 /\ z = 1) -> shows offsets size h names ident r (GUint z)
| shows_int r s z : deref h r = Some (NInt s z 1) -> z <= 8 -> shows offsets size h names ident r (GInt z)
| shows_wide r s z e : deref h r = Some (NInt s z e) -> 8 < z -> e = 0 \/ e = 1 -> shows offsets size h names ident r (GBytes z)
| shows_enum r s z sgn vs : deref h r = Some (NEnum s z sgn vs) -> In z [1; 2; 4; 8] -> shows offsets size h names ident r (if sgn then GInt z else GUint z)
| shows_array r i e n g : deref h r = Some (NArray i e n) -> shows offsets size h names ident e g -> shows offsets size h names ident r (GArray n g)
| shows_struct r s z ms tags fs : deref h r = Some (NStruct s z ms tags) -> size (GStruct fs) = z ->
    Forall2 (fun m f => exists name off t g, visible h m name off t /\ shows offsets size h names ident t g /\ f = (ident name, off, g)) (filter not_bitfield ms) (offsets fs) ->
    shows offsets size h names ident r (GStruct fs)
| shows_union r s z m ms tags fs : deref h r = Some (NUnion s z (m :: ms) tags) -> size (GStruct fs) = z ->
    Forall2 (fun m f => exists name off t g, visible h m name off t /\ shows offsets size h names ident t g /\ f = (ident name, off, g)) (filter not_bitfield [m]) (offsets fs) ->
    shows offsets size h names ident r (GStruct fs)
| shows_datasec r s z vs fs : deref h r = Some (NDatasec s z vs) -> size (GStruct fs) = z ->
    Forall2 (fun v f => exists name t tags g, deref h (vs_type v) = Some (NVar name t 1 tags) /\ shows offsets size h names ident t g /\ f = (ident name, vs_offset v, g)) (filter (is_global h) vs) (offsets fs) ->
    shows offsets size h names ident r (GStruct fs)
| shows_named r s : names r = Some s -> shows offsets size h names ident r (GNamed s)
| shows_typedef r s t tags g : deref h r = Some (NTypedef s t tags) -> shows offsets size h names ident t g -> shows offsets size h names ident r g
| shows_var r s t l tags g : deref h r = Some (NVar s t l tags) -> shows offsets size h names ident t g -> shows offsets size h names ident r g
| shows_qualified r t g : qualify h r = Some t -> shows offsets size h names ident t g -> shows offsets size h names ident r g.

(** ** Structs for which Go adds no padding *)
(** the size without padding *)
Fixpoint psize (pf : platform) (g : gotype) : Z :=
  match g with
  | GBool => 1
  | GUint n | GInt n => n
  | GBytes n => n
  | GArray n e => n * psize pf e
  | GStruct fs => fold_right (fun f z => psize pf (snd f) + z) 0 fs
  | GNamed s => named_size pf s
  end.
Fixpoint poffsets (pf : platform) (off : Z) (fs : list (option str * gotype)) : list (str * Z * gotype) :=
  match fs with
  | [] => []
  | (name, t) :: fs' => match name with Some s => [(s, off, t)] | None => [] end ++ poffsets pf (off + psize pf t) fs'
  end.
(** every field is aligned where it is, sizes are multiples of the alignment, and no struct ends in a field of size zero *)
Fixpoint natural (pf : platform) (g : gotype) : Prop :=
  match g with
  | GArray _ e => natural pf e
  | GStruct fs =>
      let all := fix all (off : Z) (last : Z) (l : list (option str * gotype)) : Prop :=
        match l with
        | [] => (galign pf (GStruct fs) | off) /\ (last <> 0 \/ off = 0)
        | (_, t) :: l' => natural pf t /\ (galign pf t | off) /\ 0 <= psize pf t /\ all (off + psize pf t) (psize pf t) l'
        end in
      all 0 1 fs
  | _ => True
  end.
