(** Model of btf/strings.go. A Go string / []byte is a list of bytes (Z). *)
From Coq Require Import ZArith List Lia Bool.
From Verif.Base Require Import GoInt.
Import ListNotations.
Open Scope Z_scope.

Definition str := list Z.
Fixpoint str_eqb (a b : str) : bool :=
  match a, b with
  | [], [] => true
  | x :: a', y :: b' => (x =? y) && str_eqb a' b'
  | _, _ => false
  end.

(** bytes.IndexByte / strings.IndexByte *)
Fixpoint index_byte (l : str) (b : Z) : option nat :=
  match l with
  | [] => None
  | x :: l' => if x =? b then Some O else option_map S (index_byte l' b)
  end.

Inductive sterr := NotTerminated | FirstNonEmpty | OutOfBounds | NotBeginning | NoNul | ContainsNul | NotInTable.

(** btf/strings.go:15-21 stringTable (without the cache) *)
Inductive table := Table (base : option table) (bytes : str).
Definition t_bytes (t : table) : str := let '(Table _ b) := t in b.
Definition len32 (l : str) : Z := wrapu 32 (Z.of_nat (length l)).

(** btf/strings.go:38-60 newStringTable *)
Definition newStringTable (bytes : str) (base : option table) : res sterr table :=
  let first := match base with None => 0 | Some b => len32 (t_bytes b) end in
  match bytes with
  | [] => Ok (Table base bytes)
  | x :: _ =>
      if negb (last bytes 0 =? 0) then Err NotTerminated
      else if (first =? 0) && negb (x =? 0) then Err FirstNonEmpty
      else Ok (Table base bytes)
  end.

(** btf/strings.go:81-103 lookupSlow; [None] is a Go panic (slice or index out of range). *)
Definition lookup_here (bytes : str) (offset : Z) : option (res sterr str) :=
  if offset >? len32 bytes then Some (Err OutOfBounds)
  else
    let o := Z.to_nat offset in
    let at_start := if offset >? 0
                    then match nth_error bytes (o - 1) with None => None | Some b => Some (b =? 0) end
                    else Some true in
    match at_start with
    | None => None
    | Some false => Some (Err NotBeginning)
    | Some true =>
        if (length bytes <? o)%nat then None
        else match index_byte (skipn o bytes) 0 with
             | None => Some (Err NoNul)
             | Some i => Some (Ok (firstn i (skipn o bytes)))
             end
    end.
Fixpoint lookupSlow (t : table) (offset : Z) : option (res sterr str) :=
  match t with
  | Table None bytes => lookup_here bytes offset
  | Table (Some b) bytes =>
      let n := len32 (t_bytes b) in
      if offset <? n then lookupSlow b offset else lookup_here bytes (wrapu 32 (offset - n))
  end.
(** btf/strings.go:62-70 Lookup, 72-79 LookupBytes *)
Definition Lookup (t : table) (offset : Z) : option (res sterr str) :=
  if offset =? 0 then Some (Ok []) else lookupSlow t offset.

(** btf/strings.go:107-131 LookupCached: the cache as an association list. *)
Definition cache := list (Z * str).
Fixpoint c_find (c : cache) (k : Z) : option str :=
  match c with [] => None | (k', v) :: c' => if k =? k' then Some v else c_find c' k end.
Definition LookupCached (t : table) (c : cache) (offset : Z) : option (res sterr str * cache) :=
  if offset =? 0 then Some (Ok [], c)
  else match c_find c offset with
       | Some s => Some (Ok s, c)
       | None => match Lookup t offset with
                 | None => None
                 | Some (Err e) => Some (Err e, c)
                 | Some (Ok s) => Some (Ok s, (offset, s) :: c)
                 end
       end.

(** ** stringTableBuilder, btf/strings.go:134-211; the map as an association list without repeated keys *)
Record builder := mkBuilder { b_length : Z; b_strings : list (str * Z) }.
Fixpoint m_find (m : list (str * Z)) (s : str) : option Z :=
  match m with [] => None | (k, v) :: m' => if str_eqb s k then Some v else m_find m' s end.
(** btf/strings.go:175-180 append *)
Definition b_append (b : builder) (s : str) : Z * builder :=
  (b_length b, mkBuilder (wrapu 32 (b_length b + wrapu 32 (wrapu 32 (Z.of_nat (length s)) + 1))) (b_strings b ++ [(s, b_length b)])).
(** btf/strings.go:142-156 newStringTableBuilder *)
Definition newStringTableBuilder : builder := snd (b_append (mkBuilder 0 []) []).
(** btf/strings.go:161-173 Add *)
Definition b_add (b : builder) (s : str) : res sterr Z * builder :=
  match index_byte s 0 with
  | Some _ => (Err ContainsNul, b)
  | None => match m_find (b_strings b) s with
            | Some o => (Ok o, b)
            | None => let '(o, b') := b_append b s in (Ok o, b')
            end
  end.
(** btf/strings.go:185-192 builder Lookup *)
Definition b_lookup (b : builder) (s : str) : res sterr Z :=
  match m_find (b_strings b) s with Some o => Ok o | None => Err NotInTable end.
(** Go's copy(dst[o:], s); [None] is a panic *)
Definition copy_at (dst : str) (o : Z) (s : str) : option str :=
  let o := Z.to_nat o in
  if (length dst <? o)%nat then None
  else let n := Nat.min (length s) (length dst - o) in
       Some (firstn o dst ++ firstn n s ++ skipn (o + n) dst).
(** btf/strings.go:199-208 AppendEncoded: [order] is the order in which Go iterates over the map. *)
Fixpoint copy_all (dst : str) (order : list (str * Z)) : option str :=
  match order with
  | [] => Some dst
  | (s, o) :: order' => match copy_at dst o s with None => None | Some d => copy_all d order' end
  end.
Definition AppendEncoded (b : builder) (order : list (str * Z)) (buf : str) : option str :=
  match copy_all (repeat 0 (Z.to_nat (b_length b))) order with None => None | Some d => Some (buf ++ d) end.

(** Add called with each string in turn. *)
Fixpoint b_adds (b : builder) (l : list str) : list (res sterr Z) * builder :=
  match l with
  | [] => ([], b)
  | s :: l' => let '(r, b') := b_add b s in let '(rs, b'') := b_adds b' l' in (r :: rs, b'')
  end.
