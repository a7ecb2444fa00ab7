(** Model of the BTF type decoder: btf/unmarshal.go.

    Only BTF without a base is modelled (firstTypeID = 0).  Records are taken as words ([wrec], see Wire.v; C28 relates
    them to the bytes); the string table is the function [nm] from offsets to strings ([None]: the lookup fails, C25).
    A TypeID is a [Z] in [0, 2^32).  Error values are not distinguished. *)
From Coq Require Import ZArith List Lia Bool.
From Verif.Base Require Import GoInt.
From Verif.Btf Require Import Wire Types.
Import ListNotations.
Open Scope Z_scope.

(** the record with the given ID; ID 0 is Void (btf/unmarshal.go:100-104) *)
Definition rec_at (recs : list wrec) (id : Z) : option wrec :=
  if id <? 1 then None else nth_error recs (Z.to_nat id - 1).

(** btf/unmarshal.go:106-116 declTags: the decl tags of a type in ascending order of their IDs *)
Fixpoint decl_tags_from (i : Z) (recs : list wrec) (id : Z) : list Z :=
  match recs with
  | [] => []
  | r :: recs' =>
      (if (Kind (hdr r) =? kindDeclTag) && (SizeType (hdr r) =? id) then [i] else []) ++ decl_tags_from (i + 1) recs' id
  end.
Definition declTags (recs : list wrec) (id : Z) : list Z := decl_tags_from 1 recs id.

(** btf/unmarshal.go:118-122 newDecoder fails if the name of a type can't be looked up. *)
Definition newDecoder (nm : Z -> option str) (recs : list wrec) : bool :=
  forallb (fun r => match nm (NameOff (hdr r)) with Some _ => true | None => false end) recs.

(** unmarshalBtfMember and so on in a loop: consecutive groups of words; [None] is a short read. *)
Fixpoint pairs (n : nat) (ws : list Z) : list (option (Z * Z)) :=
  match n with
  | O => []
  | S n' => match ws with a :: b :: ws' => Some (a, b) :: pairs n' ws' | _ => [None] end
  end.
Fixpoint triples (n : nat) (ws : list Z) : list (option (Z * Z * Z)) :=
  match n with
  | O => []
  | S n' => match ws with a :: b :: c :: ws' => Some (a, b, c) :: triples n' ws' | _ => [None] end
  end.
Fixpoint somes {A} (l : list (option A)) : list A :=
  match l with [] => [] | Some a :: l' => a :: somes l' | None :: l' => somes l' end.
Definition all_some {A} (l : list (option A)) : bool := forallb (fun o => match o with Some _ => true | None => false end) l.
Definition named {A} (nm : Z -> option str) (o : option (Z * A)) : option (str * A) :=
  match o with Some (off, a) => match nm off with Some s => Some (s, a) | None => None end | None => None end.

(** How one record is inflated: the object registered before its references are resolved, the sequence of [fixup] calls
    ([Some id]) and failing reads or name lookups ([None]) in program order, and the object once all references are
    resolved, given the legacy bitfield table.  While references are being resolved the object holds no references: the
    code stores the index type of an array before it resolves the element type, which is the same unless that fails. *)
Record plan := mkPlan { p_init : node; p_steps : list (option Z); p_build : (Z -> option (Z * Z)) -> list ref -> node }.
Definition leaf (n : node) : option plan := Some (mkPlan n [] (fun _ _ => n)).
Definition single (mk : ref -> node) (t : Z) : option plan :=
  Some (mkPlan (mk RNil) [Some t] (fun _ rs => match rs with [r] => mk r | _ => mk RNil end)).

(** btf/unmarshal.go:310-357 convertMembers *)
Definition build_member (bitfield : bool) (leg : Z -> option (Z * Z)) (m : str * (Z * Z)) (r : ref) : member :=
  let '(s, (ty, off)) := m in
  if bitfield then mkMember s r (Z.land off 16777215) (Z.shiftr off 24) []
  else match leg ty with
       | Some (o, b) => mkMember s r (u32 (off + o)) b []
       | None => mkMember s r off 0 []
       end.
Fixpoint zip_with {A B C} (f : A -> B -> C) (l : list A) (m : list B) : list C :=
  match l, m with a :: l', b :: m' => f a b :: zip_with f l' m' | _, _ => [] end.
Definition read_members (nm : Z -> option str) (r : wrec) : list (option (str * (Z * Z))) :=
  map (fun o => named nm (match o with Some (a, b, c) => Some (a, (b, c)) | None => None end)) (triples (Z.to_nat (Vlen (hdr r))) (aux r)).
Definition composite (mk : list member -> node) (nm : Z -> option str) (r : wrec) : option plan :=
  let ms := read_members nm r in
  Some (mkPlan (mk []) (map (option_map (fun m => fst (snd m))) ms)
    (fun leg rs => mk (zip_with (build_member (kindFlagBool (hdr r)) leg) (somes ms) rs))).

(** btf/unmarshal.go:421-447, 598-621: the values of an enum *)
Definition read_enum (nm : Z -> option str) (r : wrec) : list (option (str * Z)) :=
  map (named nm) (pairs (Z.to_nat (Vlen (hdr r))) (aux r)).
Definition read_enum64 (nm : Z -> option str) (r : wrec) : list (option (str * (Z * Z))) :=
  map (fun o => named nm (match o with Some (a, b, c) => Some (a, (b, c)) | None => None end)) (triples (Z.to_nat (Vlen (hdr r))) (aux r)).
Definition enumeration (mk : list enumvalue -> node) (vals : list (option enumvalue)) : option plan :=
  Some (mkPlan (mk []) (if all_some vals then [] else [None]) (fun _ _ => mk (somes vals))).

(** btf/unmarshal.go:368-627, the switch on the kind.  [None]: fails before anything is registered. *)
Definition plan_of (nm : Z -> option str) (r : wrec) : option plan :=
  let h := hdr r in
  let k := Kind h in
  match nm (NameOff h) with
  | None => None
  | Some name =>
      if k =? kindInt then
        match aux r with raw :: _ => leaf (NInt name (SizeType h) (IntEncoding raw)) | _ => None end
      else if k =? kindPointer then single NPtr (SizeType h)
      else if k =? kindArray then
        match aux r with
        | ty :: ix :: n :: _ =>
            Some (mkPlan (NArray RNil RNil n) [Some ix; Some ty]
              (fun _ rs => match rs with [i; e] => NArray i e n | _ => NArray RNil RNil n end))
        | _ => None
        end
      else if k =? kindStruct then composite (fun ms => NStruct name (SizeType h) ms []) nm r
      else if k =? kindUnion then composite (fun ms => NUnion name (SizeType h) ms []) nm r
      else if k =? kindEnum then
        enumeration (NEnum name (SizeType h) (kindFlagBool h))
          (map (option_map (fun v => mkEV (fst v) (if kindFlagBool h then u64 (i32 (snd v)) else snd v))) (read_enum nm r))
      else if k =? kindForward then leaf (NFwd name (FwdKind h))
      else if k =? kindTypedef then single (fun t => NTypedef name t []) (SizeType h)
      else if k =? kindVolatile then single NVolatile (SizeType h)
      else if k =? kindConst then single NConst (SizeType h)
      else if k =? kindRestrict then single NRestrict (SizeType h)
      else if k =? kindFunc then single (fun t => NFunc name t (Linkage h) [] []) (SizeType h)
      else if k =? kindFuncProto then
        let ps := map (named nm) (pairs (Z.to_nat (Vlen h)) (aux r)) in
        Some (mkPlan (NFuncProto RNil []) (map (option_map snd) ps ++ [Some (SizeType h)])
          (fun _ rs => NFuncProto (last rs RNil) (zip_with (fun p t => mkParam (fst p) t) (somes ps) rs)))
      else if k =? kindVar then
        match aux r with l :: _ => single (fun t => NVar name t l []) (SizeType h) | _ => None end
      else if k =? kindDatasec then
        let vs := triples (Z.to_nat (Vlen h)) (aux r) in
        Some (mkPlan (NDatasec name (SizeType h) []) (map (option_map (fun v => fst (fst v))) vs)
          (fun _ rs => NDatasec name (SizeType h) (zip_with (fun v t => mkVS t (snd (fst v)) (snd v)) (somes vs) rs)))
      else if k =? kindFloat then leaf (NFloat name (SizeType h))
      else if k =? kindDeclTag then
        match aux r with i :: _ => single (fun t => NDeclTag t name (i32 i)) (SizeType h) | _ => None end
      else if k =? kindTypeTag then single (fun t => NTypeTag t name) (SizeType h)
      else if k =? kindEnum64 then
        enumeration (NEnum name (SizeType h) (kindFlagBool h))
          (map (option_map (fun v => mkEV (fst v) (Z.lor (Z.shiftl (snd (snd v)) 32) (fst (snd v))))) (read_enum64 nm r))
      else None
  end.
(** btf/unmarshal.go:383-385: an int which describes a bitfield, and its offset and size in bits *)
Definition legacy_of (r : wrec) : option (Z * Z) :=
  if Kind (hdr r) =? kindInt then
    match aux r with
    | raw :: _ => if (IntOffset raw >? 0) || negb (IntBits raw / 8 =? SizeType (hdr r)) then Some (IntOffset raw, IntBits raw) else None
    | _ => None
    end
  else None.

(** btf/unmarshal.go:640-706, one decl tag applied to a type; [None] is an error. *)
Fixpoint update_nth {A} (l : list A) (i : nat) (f : A -> A) : list A :=
  match l, i with [], _ => [] | a :: l', O => f a :: l' | a :: l', S i' => a :: update_nth l' i' f end.
Definition tag_member (v : str) (m : member) : member :=
  mkMember (m_name m) (m_type m) (m_offset m) (m_bits m) (m_tags m ++ [v]).
Definition tag_composite (mk : list member -> list str -> node) (ms : list member) (tags : list str) (v : str) (i : Z) : option node :=
  if i >=? 0 then
    if i >=? Z.of_nat (length ms) then None else Some (mk (update_nth ms (Z.to_nat i) (tag_member v)) tags)
  else if i =? -1 then Some (mk ms (tags ++ [v])) else None.
Definition apply_tag (h : heap) (n : node) (v : str) (i : Z) : option node :=
  match n with
  | NVar s t l tags => if i =? -1 then Some (NVar s t l (tags ++ [v])) else None
  | NTypedef s t tags => if i =? -1 then Some (NTypedef s t (tags ++ [v])) else None
  | NStruct s z ms tags => tag_composite (NStruct s z) ms tags v i
  | NUnion s z ms tags => tag_composite (NUnion s z) ms tags v i
  | NFunc s t l tags ptags =>
      match deref h t with
      | Some (NFuncProto _ ps) =>
          let ptags := match ptags with [] => map (fun _ => []) ps | _ => ptags end in
          if i >=? 0 then
            if i >=? Z.of_nat (length ps) then None
            else Some (NFunc s t l tags (update_nth ptags (Z.to_nat i) (fun ts => ts ++ [v])))
          else if i =? -1 then Some (NFunc s t l (tags ++ [v]) ptags) else None
      | _ => None
      end
  | _ => None
  end.

(** the mutable part of a decoder (btf/unmarshal.go:42-45) and the heap *)
Record dstate := mkD { d_heap : heap; d_types : list (Z * nat); d_ids : list (ref * Z); d_legacy : list (Z * (Z * Z)) }.
Fixpoint assoc {A} (l : list (Z * A)) (k : Z) : option A :=
  match l with [] => None | (k', v) :: l' => if k' =? k then Some v else assoc l' k end.
Definition remove {A} (l : list (Z * A)) (k : Z) : list (Z * A) := filter (fun p => negb (fst p =? k)) l.
Definition with_heap (st : dstate) (h : heap) : dstate := mkD h (d_types st) (d_ids st) (d_legacy st).
(** btf/unmarshal.go:263-278, the deferred function.  A panicking [fixup] and an explicit error return end here. *)
Definition failed (st : dstate) (id : Z) : option (dstate * option ref) :=
  Some (mkD (d_heap st) (remove (d_types st) id) (d_ids st) (d_legacy st), None).
Definition success (st : dstate) (id : Z) (r : ref) : option (dstate * option ref) :=
  Some (mkD (d_heap st) (d_types st) ((r, id) :: d_ids st) (d_legacy st), Some r).

Section Inflate.
  Variable nm : Z -> option str.
  Variable recs : list wrec.

  Fixpoint run_steps (inf : dstate -> Z -> option (dstate * option ref)) (st : dstate) (steps : list (option Z))
    : option (dstate * option (list ref)) :=
    match steps with
    | [] => Some (st, Some [])
    | None :: _ => Some (st, None)
    | Some id :: steps' =>
        match inf st id with
        | None => None
        | Some (st, None) => Some (st, None)
        | Some (st, Some r) =>
            match run_steps inf st steps' with
            | None => None
            | Some (st, None) => Some (st, None)
            | Some (st, Some rs) => Some (st, Some (r :: rs))
            end
        end
    end.
  (** btf/unmarshal.go:630-707; [a] is the address of the type *)
  Fixpoint run_tags (inf : dstate -> Z -> option (dstate * option ref)) (st : dstate) (a : nat) (tags : list Z)
    : option (dstate * bool) :=
    match tags with
    | [] => Some (st, true)
    | t :: tags' =>
        match inf st t with
        | None => None
        | Some (st, None) => Some (st, false)
        | Some (st, Some r) =>
            match deref (d_heap st) r, nth_error (d_heap st) a with
            | Some (NDeclTag _ v i), Some n =>
                match apply_tag (d_heap st) n v i with
                | None => Some (st, false)
                | Some n' => run_tags inf (with_heap st (set_nth (d_heap st) a n')) a tags'
                end
            | _, _ => Some (st, false)
            end
        end
    end.
  (** btf/unmarshal.go:262-710 inflateType.  The outer [None] is lack of fuel (excluded by the proofs), an inner [None]
      an error. *)
  Fixpoint inflate (fuel : nat) (st : dstate) (id : Z) : option (dstate * option ref) :=
    match fuel with
    | O => None
    | S f =>
        if id =? 0 then success st id RVoid
        else match assoc (d_types st) id with
        | Some a => success st id (RPtr a)
        | None =>
          match rec_at recs id with
          | None => failed st id
          | Some r =>
            match plan_of nm r with
            | None => failed st id
            | Some p =>
                let a := length (d_heap st) in
                let st := mkD (d_heap st ++ [p_init p]) ((id, a) :: d_types st) (d_ids st)
                              (match legacy_of r with Some l => (id, l) :: d_legacy st | None => d_legacy st end) in
                match run_steps (inflate f) st (p_steps p) with
                | None => None
                | Some (st, None) => failed st id
                | Some (st, Some rs) =>
                    let st := with_heap st (set_nth (d_heap st) a (p_build p (assoc (d_legacy st)) rs)) in
                    match run_tags (inflate f) st a (declTags recs id) with
                    | None => None
                    | Some (st, false) => failed st id
                    | Some (st, true) => success st id (RPtr a)
                    end
                end
            end
          end
        end
    end.
  (** btf/unmarshal.go:255-260 TypeByID *)
  Definition TypeByID (st : dstate) (id : Z) : option (dstate * option ref) := inflate (length recs + 2) st id.
  Definition fresh : dstate := mkD [] [] [] [].
  (** a history of TypeByID calls, with their results *)
  Fixpoint queries (st : dstate) (ids : list Z) : option (dstate * list (option ref)) :=
    match ids with
    | [] => Some (st, [])
    | id :: ids' =>
        match TypeByID st id with
        | None => None
        | Some (st, r) =>
            match queries st ids' with
            | None => None
            | Some (st, rs) => Some (st, r :: rs)
            end
        end
    end.
  (** btf/unmarshal.go:221-238 TypeID *)
  Fixpoint find_id (l : list (ref * Z)) (r : ref) : option Z :=
    match l with [] => None | (k, v) :: l' => if ref_eq_dec k r then Some v else find_id l' r end.
  Definition TypeID (st : dstate) (r : ref) : option Z :=
    match r with RVoid => Some 0 | RNil => None | RPtr _ => find_id (d_ids st) r end.
End Inflate.
