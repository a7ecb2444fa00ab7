(** Model of the BTF type graph: btf/types.go and btf/traversal.go.

    Go's types are pointers to mutable structs.  A heap is a list of nodes, a pointer is an index into it.
    All *Void pointers are identified (the code treats them as one type); a nil interface is [RNil].
    nil and empty slices are not distinguished. *)
From Coq Require Import ZArith List Lia Bool.
From Verif.Base Require Import GoInt.
Import ListNotations.
Open Scope Z_scope.

Definition str := list Z.
Inductive ref := RNil | RVoid | RPtr (a : nat).
Definition ref_eq_dec (x y : ref) : {x = y} + {x <> y}.
Proof. decide equality. apply Nat.eq_dec. Defined.
Definition ref_eqb (x y : ref) : bool := if ref_eq_dec x y then true else false.
Definition ref_in (x : ref) (l : list ref) : bool := existsb (ref_eqb x) l.

(** btf/types.go:304-310 Member *)
Record member := mkMember { m_name : str; m_type : ref; m_offset : Z; m_bits : Z; m_tags : list str }.
(** btf/types.go:330-333 EnumValue *)
Record enumvalue := mkEV { ev_name : str; ev_value : Z }.
(** btf/types.go:527-530 FuncParam *)
Record fparam := mkParam { p_name : str; p_type : ref }.
(** btf/types.go:577-582 VarSecinfo *)
Record secinfo := mkVS { vs_type : ref; vs_offset : Z; vs_size : Z }.

(** btf/types.go: one constructor per implementation of Type except Void *)
Inductive node :=
| NInt (name : str) (size enc : Z)
| NPtr (target : ref)
| NArray (index elem : ref) (nelems : Z)
| NStruct (name : str) (size : Z) (ms : list member) (tags : list str)
| NUnion (name : str) (size : Z) (ms : list member) (tags : list str)
| NEnum (name : str) (size : Z) (sgn : bool) (vals : list enumvalue)
| NFwd (name : str) (kind : Z)
| NTypedef (name : str) (t : ref) (tags : list str)
| NVolatile (t : ref)
| NConst (t : ref)
| NRestrict (t : ref)
| NFunc (name : str) (t : ref) (linkage : Z) (tags : list str) (ptags : list (list str))
| NFuncProto (ret : ref) (params : list fparam)
| NVar (name : str) (t : ref) (linkage : Z) (tags : list str)
| NDatasec (name : str) (size : Z) (vars : list secinfo)
| NFloat (name : str) (size : Z)
| NDeclTag (t : ref) (value : str) (index : Z)
| NTypeTag (t : ref) (value : str)
| NCycle (root : ref).

Definition heap := list node.
Definition deref (h : heap) (r : ref) : option node := match r with RPtr a => nth_error h a | _ => None end.

(** btf/traversal.go:39-155 children.  The tags of a declaration are yielded as fresh declTag leaves, which are
    distinct from every other type: [CTag value index]. *)
Inductive child := CRef (r : ref) | CTag (value : str) (index : Z).
Definition tag_items (i : Z) (tags : list str) : list child := map (fun t => CTag t i) tags.
Fixpoint member_items (i : Z) (ms : list member) : list child :=
  match ms with
  | [] => []
  | m :: ms' => CRef (m_type m) :: tag_items i (m_tags m) ++ member_items (i + 1) ms'
  end.
Fixpoint param_tag_items (i : Z) (params : list fparam) (ptags : list (list str)) : list child :=
  match params, ptags with
  | _ :: ps, t :: ts => tag_items i t ++ param_tag_items (i + 1) ps ts
  | _, _ => []
  end.
Definition children (h : heap) (n : node) : list child :=
  match n with
  | NInt _ _ _ | NEnum _ _ _ _ | NFwd _ _ | NFloat _ _ | NDeclTag _ _ _ | NCycle _ => []
  | NPtr t | NVolatile t | NConst t | NRestrict t | NTypeTag t _ => [CRef t]
  | NArray i e _ => [CRef i; CRef e]
  | NStruct _ _ ms tags | NUnion _ _ ms tags => member_items 0 ms ++ tag_items (-1) tags
  | NTypedef _ t tags | NVar _ t _ tags => CRef t :: tag_items (-1) tags
  | NFunc _ t _ tags ptags =>
      CRef t :: (match deref h t with Some (NFuncProto _ ps) => param_tag_items 0 ps ptags | _ => [] end)
             ++ tag_items (-1) tags
  | NFuncProto ret ps => CRef ret :: map (fun p => CRef (p_type p)) ps
  | NDatasec _ _ vs => map (fun v => CRef (vs_type v)) vs
  end.
(** children of a reference; [None] is the panic for a nil type. *)
Definition children_of (h : heap) (r : ref) : option (list child) :=
  match r with RVoid => Some [] | RNil => None | RPtr _ => option_map (children h) (deref h r) end.

(** btf/traversal.go:20-36 visitInPostorder.  What is yielded: types and synthetic tags with their owner.
    [fuel] bounds the recursion depth; [None] is a panic (or lack of fuel, which is excluded by the proofs). *)
Inductive item := IType (r : ref) | ITag (owner : ref) (value : str) (index : Z).
Fixpoint visit_children (visit : list ref -> ref -> option (list ref * list item)) (owner : ref)
         (visited : list ref) (cs : list child) : option (list ref * list item) :=
  match cs with
  | [] => Some (visited, [])
  | CRef r :: cs' =>
      match visit visited r with
      | None => None
      | Some (visited, out) =>
          match visit_children visit owner visited cs' with
          | None => None
          | Some (visited, out') => Some (visited, out ++ out')
          end
      end
  | CTag v i :: cs' =>
      match visit_children visit owner visited cs' with
      | None => None
      | Some (visited, out') => Some (visited, ITag owner v i :: out')
      end
  end.
Fixpoint visit (fuel : nat) (h : heap) (visited : list ref) (root : ref) : option (list ref * list item) :=
  match fuel with
  | O => None
  | S f =>
      if ref_in root visited then Some (visited, [])
      else match children_of h root with
           | None => None
           | Some cs =>
               match visit_children (visit f h) root (root :: visited) cs with
               | None => None
               | Some (visited, out) => Some (visited, out ++ [IType root])
               end
           end
  end.
(** btf/traversal.go:12-16 postorder, run to completion *)
Definition postorder_fuel (h : heap) : nat := (length h + 3)%nat.
Definition postorder (h : heap) (visited : list ref) (root : ref) : option (list ref * list item) :=
  visit (postorder_fuel h) h visited root.

(** btf/types.go:642-655 the sizer interface *)
Definition sizer (h : heap) (r : ref) : option Z :=
  match r with
  | RVoid => Some 0
  | RNil => None
  | RPtr _ =>
      match deref h r with
      | Some (NInt _ s _) => Some s
      | Some (NPtr _) => Some 8
      | Some (NStruct _ s _ _) | Some (NUnion _ s _ _) => Some s
      | Some (NEnum _ s _ _) => Some s
      | Some (NDatasec _ s _) => Some s
      | Some (NFloat _ s) => Some s
      | _ => None
      end
  end.
(** btf/types.go:657-666 the qualifier interface *)
Definition qualify (h : heap) (r : ref) : option ref :=
  match deref h r with
  | Some (NVolatile t) | Some (NConst t) | Some (NRestrict t) | Some (NTypeTag t _) => Some t
  | _ => None
  end.

Inductive szerr := Overflow | Unsized | TooDeep.
Definition maxInt64 := 9223372036854775807.
Definition maxResolveDepth := 32%nat. (* btf/types.go:17 *)
(** btf/types.go:673-722 Sizeof; int is 64 bits wide, so the final conversion does not change the value. *)
Fixpoint sizeof_loop (fuel : nat) (h : heap) (typ : ref) (n : Z) : res szerr Z :=
  match fuel with
  | O => Err TooDeep
  | S f =>
      match deref h typ with
      | Some (NArray _ e nelems) =>
          if (n >? 0) && (nelems >? Z.quot maxInt64 n) then Err Overflow
          else sizeof_loop f h e (i64 (n * nelems))
      | d =>
          match sizer h typ with
          | Some elem =>
              if (n >? 0) && (elem >? Z.quot maxInt64 n) then Err Overflow
              else Ok (i64 (n * elem))
          | None =>
              match d with
              | Some (NTypedef _ t _) => sizeof_loop f h t n
              | _ => match qualify h typ with
                     | Some t => sizeof_loop f h t n
                     | None => Err Unsized
                     end
              end
          end
      end
  end.
Definition Sizeof (h : heap) (typ : ref) : res szerr Z := sizeof_loop maxResolveDepth h typ 1.

(** btf/types.go:821-834 UnderlyingType: [None] is the cycle type. *)
Fixpoint underlying_loop (fuel : nat) (h : heap) (typ : ref) : option ref :=
  match fuel with
  | O => None
  | S f => match qualify h typ with
           | Some t => underlying_loop f h t
           | None => match deref h typ with
                     | Some (NTypedef _ t _) => underlying_loop f h t
                     | _ => Some typ
                     end
           end
  end.
Definition UnderlyingType (h : heap) (typ : ref) : option ref := underlying_loop (S maxResolveDepth) h typ.

(** btf/types.go: TypeName *)
Definition type_name (n : node) : str :=
  match n with
  | NInt s _ _ | NStruct s _ _ _ | NUnion s _ _ _ | NEnum s _ _ _ | NFwd s _ | NTypedef s _ _
  | NFunc s _ _ _ _ | NVar s _ _ _ | NDatasec s _ _ | NFloat s _ => s
  | _ => []
  end.

Fixpoint set_nth {A} (l : list A) (i : nat) (x : A) : list A :=
  match l, i with
  | [], _ => []
  | _ :: l', O => x :: l'
  | a :: l', S i' => a :: set_nth l' i' x
  end.

(** btf/types.go:772-795 copyType.  State: the heap (copies are allocated at its end) and the map [copies].
    [typ.copy()] is a shallow copy of the node.  The children of the copy are replaced one after the other; since
    nothing else writes to the copy, and the recursive calls for the synthetic tags only allocate temporaries, this is
    modelled as collecting the copies of all children (in order) and then replacing them. *)
Definition copies := list (ref * ref).
Fixpoint lookup_copy (m : copies) (r : ref) : option ref :=
  match m with
  | [] => None
  | (k, v) :: m' => if ref_eq_dec k r then Some v else lookup_copy m' r
  end.
Fixpoint copy_children (copy : heap * copies -> ref -> option (heap * copies * ref)) (st : heap * copies)
         (cs : list child) : option (heap * copies * list ref) :=
  match cs with
  | [] => Some (st, [])
  | CRef r :: cs' =>
      match copy st r with
      | None => None
      | Some (st, r') =>
          match copy_children copy st cs' with
          | None => None
          | Some (st, rs) => Some (st, r' :: rs)
          end
      end
  | CTag _ _ :: cs' => copy_children copy st cs'
  end.
(** the node with its child references replaced by the given ones, in order *)
Fixpoint set_members (ms : list member) (rs : list ref) : list member :=
  match ms, rs with
  | m :: ms', r :: rs' => mkMember (m_name m) r (m_offset m) (m_bits m) (m_tags m) :: set_members ms' rs'
  | _, _ => ms
  end.
Fixpoint set_params (ps : list fparam) (rs : list ref) : list fparam :=
  match ps, rs with
  | p :: ps', r :: rs' => mkParam (p_name p) r :: set_params ps' rs'
  | _, _ => ps
  end.
Fixpoint set_vars (vs : list secinfo) (rs : list ref) : list secinfo :=
  match vs, rs with
  | v :: vs', r :: rs' => mkVS r (vs_offset v) (vs_size v) :: set_vars vs' rs'
  | _, _ => vs
  end.
Definition set_children (n : node) (rs : list ref) : node :=
  match n, rs with
  | NPtr _, [t] => NPtr t
  | NVolatile _, [t] => NVolatile t
  | NConst _, [t] => NConst t
  | NRestrict _, [t] => NRestrict t
  | NTypeTag _ v, [t] => NTypeTag t v
  | NArray _ _ k, [i; e] => NArray i e k
  | NStruct s sz ms tags, _ => NStruct s sz (set_members ms rs) tags
  | NUnion s sz ms tags, _ => NUnion s sz (set_members ms rs) tags
  | NTypedef s _ tags, [t] => NTypedef s t tags
  | NVar s _ l tags, [t] => NVar s t l tags
  | NFunc s _ l tags pt, [t] => NFunc s t l tags pt
  | NFuncProto _ ps, t :: rs' => NFuncProto t (set_params ps rs')
  | NDatasec s sz vs, _ => NDatasec s sz (set_vars vs rs)
  | _, _ => n
  end.
Fixpoint copyType (fuel : nat) (st : heap * copies) (typ : ref) : option (heap * copies * ref) :=
  match fuel with
  | O => None
  | S f =>
      match typ with
      | RNil => Some (st, RNil)
      | _ =>
          match lookup_copy (snd st) typ with
          | Some c => Some (st, c)
          | None =>
              match typ with
              | RVoid | RNil => Some ((fst st, (RVoid, RVoid) :: snd st), RVoid)
              | RPtr a =>
                  match nth_error (fst st) a with
                  | None => None
                  | Some n =>
                      let c := length (fst st) in
                      match copy_children (copyType f) (fst st ++ [n], (typ, RPtr c) :: snd st) (children (fst st) n) with
                      | None => None
                      | Some ((h, m), rs) => Some ((set_nth h c (set_children n rs), m), RPtr c)
                      end
                  end
              end
          end
      end
  end.
(** btf/types.go:768-770 Copy *)
Definition Copy (h : heap) (typ : ref) : option (heap * ref) :=
  match copyType (length h + 3) (h, []) typ with
  | None => None
  | Some ((h', _), r) => Some (h', r)
  end.
