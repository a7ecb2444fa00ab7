(** Model of the lookup of types by name: btf/unmarshal.go (the name index and TypesByName), btf/btf.go (AnyTypesByName,
    AnyTypeByName, TypeByName).  Only BTF without a base; Spec.elf is nil, so fixupDatasec does nothing. *)
From Coq Require Import ZArith List Lia Bool.
From Verif.Base Require Import GoInt.
From Verif.Btf Require Import Wire Types Names Decode.
Import ListNotations.
Open Scope Z_scope.

(** btf/unmarshal.go:124-131: the name a type is indexed under *)
Definition index_key (name : str) : str :=
  if lastIndex name =? -1 then name else firstn (Z.to_nat (lastIndex name)) name.
(** btf/unmarshal.go:756-764: an entry is the 64 bit number hash<<32 | id *)
Definition entry (hash id : Z) : Z := Z.lor (Z.shiftl hash 32) id.
Definition entry_hash (e : Z) : Z := Z.shiftr e 32.
Definition entry_id (e : Z) : Z := u32 e.

Section Index.
  (** maphash with a random seed (unmarshal.go:704-718): any function to 32 bits *)
  Variable hash : str -> Z.
  (** btf/unmarshal.go:118-134, the entries in the order they are added *)
  Fixpoint entries_from (nm : Z -> option str) (i : Z) (recs : list wrec) : list Z :=
    match recs with
    | [] => []
    | r :: recs' =>
        match nm (NameOff (hdr r)) with
        | Some (c :: s) => [entry (hash (index_key (c :: s))) i]
        | _ => []
        end ++ entries_from nm (i + 1) recs'
    end.
  (** btf/unmarshal.go:723-725 Build: slices.Sort.  On integers all correct sorting algorithms have the same result. *)
  Fixpoint insert (x : Z) (l : list Z) : list Z :=
    match l with [] => [x] | y :: l' => if x <=? y then x :: l else y :: insert x l' end.
  Definition sort (l : list Z) : list Z := fold_right insert [] l.
  Definition namedTypes (nm : Z -> option str) (recs : list wrec) : list Z := sort (entries_from nm 1 recs).

  (** slices.BinarySearch (Go standard library, slices/sort.go); [fuel] is at least the length of the range *)
  Fixpoint binary_search (fuel : nat) (x : list Z) (target : Z) (i j : nat) : nat :=
    match fuel with
    | O => i
    | S f =>
        if (i <? j)%nat then
          let h := Nat.div (i + j) 2 in
          if nth h x 0 <? target then binary_search f x target (S h) j else binary_search f x target i h
        else i
    end.
  Fixpoint take_hash (hsh : Z) (l : list Z) : list Z :=
    match l with [] => [] | e :: l' => if entry_hash e =? hsh then entry_id e :: take_hash hsh l' else [] end.
  (** btf/unmarshal.go:731-747 Find *)
  Definition Find (idx : list Z) (name : str) : list Z :=
    let hsh := hash name in
    let i := binary_search (length idx) idx (Z.shiftl hsh 32) 0 (length idx) in
    take_hash hsh (skipn i idx).

  (** btf/unmarshal.go:239-261 TypesByName; the outer [None] is lack of fuel *)
  Inductive lookup := Types (l : list ref) | NotFound | Failed.
  Definition name_at (st : dstate) (r : ref) : str := match deref (d_heap st) r with Some n => type_name n | None => [] end.
  Fixpoint typesByName_loop (nm : Z -> option str) (recs : list wrec) (st : dstate) (name : str) (ids : list Z)
    : option (dstate * option (list ref)) :=
    match ids with
    | [] => Some (st, Some [])
    | id :: ids' =>
        match TypeByID nm recs st id with
        | None => None
        | Some (st, None) => Some (st, None)
        | Some (st, Some r) =>
            let keep := if list_eq_dec Z.eq_dec (newEssentialName (name_at st r)) name then [r] else [] in
            match typesByName_loop nm recs st name ids' with
            | None => None
            | Some (st, None) => Some (st, None)
            | Some (st, Some rs) => Some (st, Some (keep ++ rs))
            end
        end
    end.
  Definition TypesByName (nm : Z -> option str) (recs : list wrec) (st : dstate) (name : str) : option (dstate * lookup) :=
    match typesByName_loop nm recs st name (Find (namedTypes nm recs) name) with
    | None => None
    | Some (st, None) => Some (st, Failed)
    | Some (st, Some []) => Some (st, NotFound)
    | Some (st, Some rs) => Some (st, Types rs)
    end.

  (** btf/btf.go:405-417: the loop of AnyTypesByName on the list from index i on: after a deletion the index is incremented
      too, so that the element which took the place of the deleted one is not looked at. *)
  Fixpoint filter_names (st : dstate) (name : str) (types : list ref) : list ref :=
    match types with
    | [] => []
    | t :: types' =>
        if list_eq_dec Z.eq_dec (name_at st t) name then t :: filter_names st name types'
        else match types' with [] => [] | t' :: types'' => t' :: filter_names st name types'' end
    end.
  (** btf/btf.go:399-420 AnyTypesByName *)
  Definition AnyTypesByName (nm : Z -> option str) (recs : list wrec) (st : dstate) (name : str) : option (dstate * lookup) :=
    match TypesByName nm recs st (newEssentialName name) with
    | Some (st, Types l) => Some (st, Types (filter_names st name l))
    | o => o
    end.
  (** btf/btf.go:425-436 AnyTypeByName; indexing an empty slice panics *)
  Inductive one := One (r : ref) | OneNotFound | OneFailed | Multiple | Panic.
  Definition AnyTypeByName (nm : Z -> option str) (recs : list wrec) (st : dstate) (name : str) : option (dstate * one) :=
    match AnyTypesByName nm recs st name with
    | None => None
    | Some (st, NotFound) => Some (st, OneNotFound)
    | Some (st, Failed) => Some (st, OneFailed)
    | Some (st, Types []) => Some (st, Panic)
    | Some (st, Types [t]) => Some (st, One t)
    | Some (st, Types (_ :: _ :: _)) => Some (st, Multiple)
    end.
  (** reflect.TypeOf of a Type: which Go type, ignoring the fields.  Enum and Enum64 records share the type Enum. *)
  Definition go_kind (st : dstate) (r : ref) : Z :=
    match r with
    | RVoid => 0 | RNil => -1
    | RPtr _ =>
        match deref (d_heap st) r with
        | Some (NInt _ _ _) => 1 | Some (NPtr _) => 2 | Some (NArray _ _ _) => 3 | Some (NStruct _ _ _ _) => 4 | Some (NUnion _ _ _ _) => 5
        | Some (NEnum _ _ _ _) => 6 | Some (NFwd _ _) => 7 | Some (NTypedef _ _ _) => 8 | Some (NVolatile _) => 9 | Some (NConst _) => 10
        | Some (NRestrict _) => 11 | Some (NFunc _ _ _ _ _) => 12 | Some (NFuncProto _ _) => 13 | Some (NVar _ _ _ _) => 14
        | Some (NDatasec _ _ _) => 15 | Some (NFloat _ _) => 16 | Some (NDeclTag _ _ _) => 17 | Some (NTypeTag _ _) => 18
        | _ => -1
        end
    end.
  (** btf/btf.go:477-496, the loop of TypeByName *)
  Fixpoint pick (st : dstate) (wanted : Z) (candidate : option ref) (types : list ref) : one :=
    match types with
    | [] => match candidate with Some t => One t | None => OneNotFound end
    | t :: types' =>
        if negb (go_kind st t =? wanted) then pick st wanted candidate types'
        else match candidate with Some _ => Multiple | None => pick st wanted (Some t) types' end
    end.
  (** btf/btf.go:445-501 TypeByName, [wanted] being the Go type the argument points to; the checks of the argument with
      package reflect are not modelled. *)
  Definition TypeByName (nm : Z -> option str) (recs : list wrec) (st : dstate) (name : str) (wanted : Z) : option (dstate * one) :=
    match AnyTypesByName nm recs st name with
    | None => None
    | Some (st, NotFound) => Some (st, OneNotFound)
    | Some (st, Failed) => Some (st, OneFailed)
    | Some (st, Types l) => Some (st, pick st wanted None l)
    end.
End Index.
