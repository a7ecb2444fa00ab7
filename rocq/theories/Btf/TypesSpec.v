(** Vocabulary for type graphs: references, reachability, declared tags, isomorphism.
    Independent of the traversal and copy functions of the model. *)
From Coq Require Import ZArith List Lia Bool.
From Verif.Base Require Import GoInt.
From Verif.Btf Require Import Types.
Import ListNotations.
Open Scope Z_scope.

(** the references held by a type, in declaration order *)
Definition refs (n : node) : list ref :=
  match n with
  | NInt _ _ _ | NEnum _ _ _ _ | NFwd _ _ | NFloat _ _ => []
  | NPtr t | NVolatile t | NConst t | NRestrict t | NTypeTag t _ | NTypedef _ t _ | NVar _ t _ _ | NFunc _ t _ _ _ => [t]
  | NArray i e _ => [i; e]
  | NStruct _ _ ms _ | NUnion _ _ ms _ => map m_type ms
  | NFuncProto ret ps => ret :: map p_type ps
  | NDatasec _ _ vs => map vs_type vs
  | NDeclTag _ _ _ | NCycle _ => []
      (* an explicit decl tag and a cycle marker refer to a type but are leaves of the graph (btf/traversal.go:46-49,140) *)
  end.
Definition edge (h : heap) (x y : ref) : Prop := exists n, deref h x = Some n /\ In y (refs n).
Inductive reach (h : heap) : ref -> ref -> Prop :=
| reach_refl x : reach h x x
| reach_step x y z : edge h x y -> reach h y z -> reach h x z.

(** a graph is complete if nothing reachable is nil or dangling *)
Definition present (h : heap) (r : ref) : Prop := match r with RNil => False | RVoid => True | RPtr a => (a < length h)%nat end.
Definition complete (h : heap) (root : ref) : Prop := forall x, reach h root x -> present h x.

(** the decl tags a type carries: value and component index (-1 for the type itself) *)
Fixpoint member_tags (i : Z) (ms : list member) : list (str * Z) :=
  match ms with [] => [] | m :: ms' => map (fun t => (t, i)) (m_tags m) ++ member_tags (i + 1) ms' end.
Fixpoint param_tags (i : Z) (ps : list fparam) (pt : list (list str)) : list (str * Z) :=
  match ps, pt with
  | _ :: ps', t :: pt' => map (fun t => (t, i)) t ++ param_tags (i + 1) ps' pt'
  | _, _ => []
  end.
Definition decl_tags (h : heap) (n : node) : list (str * Z) :=
  match n with
  | NStruct _ _ ms tags | NUnion _ _ ms tags => member_tags 0 ms ++ map (fun t => (t, -1)) tags
  | NTypedef _ _ tags | NVar _ _ _ tags => map (fun t => (t, -1)) tags
  | NFunc _ t _ tags pt =>
      (match deref h t with Some (NFuncProto _ ps) => param_tags 0 ps pt | _ => [] end) ++ map (fun t => (t, -1)) tags
  | _ => []
  end.
Definition tags_at (h : heap) (r : ref) : list (str * Z) :=
  match deref h r with Some n => decl_tags h n | None => [] end.

(** a type with its references renamed by [f] *)
Definition rename (f : ref -> ref) (n : node) : node :=
  let mem m := mkMember (m_name m) (f (m_type m)) (m_offset m) (m_bits m) (m_tags m) in
  match n with
  | NInt _ _ _ | NEnum _ _ _ _ | NFwd _ _ | NFloat _ _ => n
  | NPtr t => NPtr (f t)
  | NVolatile t => NVolatile (f t)
  | NConst t => NConst (f t)
  | NRestrict t => NRestrict (f t)
  | NTypeTag t v => NTypeTag (f t) v
  | NDeclTag t v i => NDeclTag (f t) v i
  | NCycle t => NCycle (f t)
  | NArray i e k => NArray (f i) (f e) k
  | NStruct s sz ms tags => NStruct s sz (map mem ms) tags
  | NUnion s sz ms tags => NUnion s sz (map mem ms) tags
  | NTypedef s t tags => NTypedef s (f t) tags
  | NVar s t l tags => NVar s (f t) l tags
  | NFunc s t l tags pt => NFunc s (f t) l tags pt
  | NFuncProto ret ps => NFuncProto (f ret) (map (fun p => mkParam (p_name p) (f (p_type p))) ps)
  | NDatasec s sz vs => NDatasec s sz (map (fun v => mkVS (f (vs_type v)) (vs_offset v) (vs_size v)) vs)
  end.

(** [f] maps the graph reachable from [r] in [h] one to one onto types of [h'], preserving everything *)
Definition isomorphic_by (f : ref -> ref) (h : heap) (r : ref) (h' : heap) (r' : ref) : Prop :=
  f r = r' /\ f RVoid = RVoid /\ f RNil = RNil /\
  (forall x, reach h r x -> f x = RVoid -> x = RVoid) /\
  (forall x y, reach h r x -> reach h r y -> f x = f y -> x = y) /\
  (forall x n, reach h r x -> deref h x = Some n -> deref h' (f x) = Some (rename f n)).

(** the size of a type: array dimensions times the size of the element, looking through typedefs and qualifiers;
    the second argument is the number of types looked at *)
Inductive has_size (h : heap) : ref -> nat -> Z -> Prop :=
| hs_void : has_size h RVoid 1 0
| hs_int r s z e : deref h r = Some (NInt s z e) -> has_size h r 1 z
| hs_ptr r t : deref h r = Some (NPtr t) -> has_size h r 1 8
| hs_struct r s z ms tags : deref h r = Some (NStruct s z ms tags) -> has_size h r 1 z
| hs_union r s z ms tags : deref h r = Some (NUnion s z ms tags) -> has_size h r 1 z
| hs_enum r s z g vs : deref h r = Some (NEnum s z g vs) -> has_size h r 1 z
| hs_datasec r s z vs : deref h r = Some (NDatasec s z vs) -> has_size h r 1 z
| hs_float r s z : deref h r = Some (NFloat s z) -> has_size h r 1 z
| hs_array r i e k d z : deref h r = Some (NArray i e k) -> has_size h e d z -> has_size h r (S d) (k * z)
| hs_typedef r s t tags d z : deref h r = Some (NTypedef s t tags) -> has_size h t d z -> has_size h r (S d) z
| hs_volatile r t d z : deref h r = Some (NVolatile t) -> has_size h t d z -> has_size h r (S d) z
| hs_const r t d z : deref h r = Some (NConst t) -> has_size h t d z -> has_size h r (S d) z
| hs_restrict r t d z : deref h r = Some (NRestrict t) -> has_size h t d z -> has_size h r (S d) z
| hs_typetag r t v d z : deref h r = Some (NTypeTag t v) -> has_size h t d z -> has_size h r (S d) z.

(** all sizes and dimensions are uint32 *)
Definition node_u32 (n : node) : Prop :=
  match n with
  | NInt _ z _ | NStruct _ z _ _ | NUnion _ z _ _ | NEnum _ z _ _ | NDatasec _ z _ | NFloat _ z => in_u 32 z
  | NArray _ _ k => in_u 32 k
  | _ => True
  end.
Definition heap_u32 (h : heap) : Prop := Forall node_u32 h.
