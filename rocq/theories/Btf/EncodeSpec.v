(** Vocabulary for C29, C30: the numbering of types added to a builder, and which types the wire format can hold.
    Independent of the encoder. *)
From Coq Require Import ZArith List Lia Bool.
From Verif.Base Require Import GoInt.
From Verif.Btf Require Import Types TypesSpec.
Import ListNotations.
Open Scope Z_scope.

(** Adding a type adds that type.  Adding a data section adds the types of those of its variables whose type is a typedef
    or a qualifier before it, for the sake of the kernel. *)
Definition qualified (h : heap) (t : ref) : bool :=
  match deref h t with
  | Some (NTypedef _ _ _) | Some (NVolatile _) | Some (NConst _) | Some (NRestrict _) | Some (NTypeTag _ _) => true
  | _ => false
  end.
Definition var_types (h : heap) (vs : list secinfo) : list ref :=
  flat_map (fun v => match deref h (vs_type v) with Some (NVar _ t _ _) => [t] | _ => [] end) vs.
Definition added (h : heap) (t : ref) : list ref :=
  match t with
  | RPtr _ => (match deref h t with Some (NDatasec _ _ vs) => filter (qualified h) (var_types h vs) | _ => [] end) ++ [t]
  | _ => []
  end.
(** the list without repetitions, in order of first occurrence *)
Fixpoint firsts (l : list ref) : list ref :=
  match l with [] => [] | x :: l' => x :: filter (fun y => negb (ref_eqb x y)) (firsts l') end.

(** the strings a type mentions *)
Definition strings_of (h : heap) (n : node) : list str :=
  type_name n :: map fst (decl_tags h n) ++
  match n with
  | NStruct _ _ ms _ | NUnion _ _ ms _ => map m_name ms
  | NEnum _ _ _ vs => map ev_name vs
  | NFuncProto _ ps => map p_name ps
  | NTypeTag _ v => [v]
  | _ => []
  end.
(** Go's types: what a uint32, a uint64, an IntEncoding (a byte) and so on can hold *)
Definition go_range (n : node) : Prop :=
  match n with
  | NInt _ z e => in_u 32 z /\ in_u 8 e
  | NArray _ _ k => in_u 32 k
  | NStruct _ z ms _ | NUnion _ z ms _ => in_u 32 z /\ Forall (fun m => in_u 32 (m_offset m) /\ in_u 32 (m_bits m)) ms
  | NEnum _ z _ vs => in_u 32 z /\ Forall (fun v => in_u 64 (ev_value v)) vs
  | NVar _ _ l _ => in_u 32 l
  | NDatasec _ z vs => in_u 32 z /\ Forall (fun v => in_u 32 (vs_offset v) /\ in_u 32 (vs_size v)) vs
  | NFloat _ z => in_u 32 z
  | _ => True
  end.
(** what the wire format can hold and the encoder doesn't check *)
Definition fits (n : node) : Prop :=
  match n with
  | NInt _ z e => z < 32 /\ e < 16                                       (* 8 bits for the size in bits, 4 for the encoding *)
  | NStruct _ _ ms _ | NUnion _ _ ms _ =>
      Z.of_nat (length ms) < 2 ^ 16 /\                                   (* vlen *)
      (Exists (fun m => 0 < m_bits m) ms -> Forall (fun m => m_offset m < 2 ^ 24 /\ m_bits m < 2 ^ 8) ms)
  | NEnum _ _ _ vs => Z.of_nat (length vs) < 2 ^ 16
  | NFwd _ k => 0 <= k < 2
  | NFunc _ _ l _ _ => 0 <= l < 2 ^ 16
  | NFuncProto _ ps => Z.of_nat (length ps) < 2 ^ 16
  | NDatasec _ _ vs => Z.of_nat (length vs) < 2 ^ 16
  | _ => True
  end.
(** and what it does check: the values of a 32 bit enum; strings may not contain NUL (see [strings_of]) *)
Definition enum_in_range (n : node) : Prop :=
  match n with
  | NEnum _ z sgn vs => z <> 8 ->
      Forall (fun v => if sgn then ev_value v < 2 ^ 31 \/ 2 ^ 64 - 2 ^ 31 <= ev_value v else ev_value v < 2 ^ 32) vs
  | _ => True
  end.
(** a function has a prototype which doesn't refer to that function *)
Definition func_ok (h : heap) (x : ref) : Prop :=
  forall s t l tags pt, deref h x = Some (NFunc s t l tags pt) ->
    (exists ret ps, deref h t = Some (NFuncProto ret ps)) /\ ~ reach h t x.
Definition user_type (n : node) : Prop := match n with NDeclTag _ _ _ | NCycle _ => False | _ => True end.

(** [encodable h strs t]: everything reachable from [t] is present, can be held by the wire format, and mentions only the
    strings [strs].  (A decl tag which is a type of its own isn't exported by the package.) *)
Definition encodable (h : heap) (strs : list str) (t : ref) : Prop :=
  complete h t /\
  forall x n, reach h t x -> deref h x = Some n ->
    user_type n /\ go_range n /\ fits n /\ enum_in_range n /\ func_ok h x /\ incl (strings_of h n) strs.

(** Two types are the same up to the representation of the parameters' tags of a function: missing is empty. *)
Definition same_ptags (np : nat) (a b : list (list str)) : Prop := forall i, (i < np)%nat -> nth i a [] = nth i b [].
Definition params_of (h : heap) (t : ref) : nat := match deref h t with Some (NFuncProto _ ps) => length ps | _ => 0%nat end.
Definition same_type (h : heap) (a b : node) : Prop :=
  match a, b with
  | NFunc s t l tags pt, NFunc s' t' l' tags' pt' => s = s' /\ t = t' /\ l = l' /\ tags = tags' /\ same_ptags (params_of h t') pt pt'
  | _, _ => a = b
  end.
(** [f] maps the graph reachable from [r] in [h] one to one onto types of [h'], preserving everything *)
Definition isomorphic (f : ref -> ref) (h : heap) (r : ref) (h' : heap) (r' : ref) : Prop :=
  f r = r' /\ f RVoid = RVoid /\
  (forall x, reach h r x -> f x = RVoid -> x = RVoid) /\
  (forall x y, reach h r x -> reach h r y -> f x = f y -> x = y) /\
  (forall x n, reach h r x -> deref h x = Some n -> exists n', deref h' (f x) = Some n' /\ same_type h' (rename f n) n').

(** a type with renamed references and without decl tags, which are records of their own *)
Definition bare_member (g : ref -> ref) (m : member) : member := mkMember (m_name m) (g (m_type m)) (m_offset m) (m_bits m) [].
Definition bare (g : ref -> ref) (n : node) : node :=
  match n with
  | NStruct s z ms _ => NStruct s z (map (bare_member g) ms) []
  | NUnion s z ms _ => NUnion s z (map (bare_member g) ms) []
  | NTypedef s t _ => NTypedef s (g t) []
  | NVar s t l _ => NVar s (g t) l []
  | NFunc s t l _ _ => NFunc s (g t) l [] []
  | _ => rename g n
  end.
(** an upper bound for the number of records: a type needs one (two if it is a 64 bit enum which is replaced), and so does
    every decl tag *)
Definition graph_size (h : heap) : nat := (2 * length h + fold_right (fun n k => length (decl_tags h n) + k) 0 h)%nat.
