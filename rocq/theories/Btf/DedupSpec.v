(** Vocabulary for C36: equivalence of types, up to the attributes which the deduper ignores.  Independent of the deduper. *)
From Coq Require Import ZArith List Lia Bool.
From Verif.Base Require Import GoInt.
From Verif.Btf Require Import Types TypesSpec.
Import ListNotations.
Open Scope Z_scope.

(** the types a type refers to; a decl tag refers to what it is attached to *)
Definition parts (n : node) : list ref := match n with NDeclTag t _ _ => [t] | _ => refs n end.
(** a type without the types it refers to, and without what is ignored: the size and signedness of an enum, the sizes of
    bitfields, tags, the linkage of a function, and the size of a data section *)
Definition skeleton (n : node) : node :=
  let mem m := mkMember (m_name m) RVoid (m_offset m) 0 [] in
  match n with
  | NInt _ _ _ | NFwd _ _ | NFloat _ _ => n
  | NEnum s _ _ vs => NEnum s 0 false vs
  | NPtr _ => NPtr RVoid
  | NVolatile _ => NVolatile RVoid
  | NConst _ => NConst RVoid
  | NRestrict _ => NRestrict RVoid
  | NTypeTag _ v => NTypeTag RVoid v
  | NDeclTag _ v i => NDeclTag RVoid v i
  | NCycle _ => NCycle RVoid
  | NArray _ _ k => NArray RVoid RVoid k
  | NStruct s z ms _ => NStruct s z (map mem ms) []
  | NUnion s z ms _ => NUnion s z (map mem ms) []
  | NTypedef s _ _ => NTypedef s RVoid []
  | NVar s _ l _ => NVar s RVoid l []
  | NFunc s _ _ _ _ => NFunc s RVoid 0 [] []
  | NFuncProto _ ps => NFuncProto RVoid (map (fun p => mkParam (p_name p) RVoid) ps)
  | NDatasec s _ vs => NDatasec s 0 (map (fun v => mkVS RVoid (vs_offset v) (vs_size v)) vs)
  end.
(** Two types are equivalent if they look the same, and refer to equivalent types: there is a relation between types which
    relates them and is preserved by following references. *)
Definition bisimulation (h h' : heap) (R : ref -> ref -> Prop) : Prop :=
  forall x y, R x y -> (x = RVoid /\ y = RVoid) \/
    exists n m, deref h x = Some n /\ deref h' y = Some m /\ skeleton n = skeleton m /\ Forall2 R (parts n) (parts m).
Definition equivalent (h : heap) (x : ref) (h' : heap) (y : ref) : Prop := exists R, bisimulation h h' R /\ R x y.

(** the types which are reachable from some roots *)
Definition link (h : heap) (x y : ref) : Prop := exists n, deref h x = Some n /\ In y (parts n).
Inductive reaches (h : heap) : ref -> ref -> Prop :=
| reaches_refl x : reaches h x x
| reaches_step x y z : link h x y -> reaches h y z -> reaches h x z.
Definition from (h : heap) (roots : list ref) (x : ref) : Prop := exists t, In t roots /\ reaches h t x.

(** what distinguishes structs and unions at first sight: kind, name, size, number of members *)
Definition heading := (bool * str * Z * nat)%type.
Definition head (n : node) : option heading :=
  match n with
  | NStruct s z ms _ => Some (true, s, z, length ms)
  | NUnion s z ms _ => Some (false, s, z, length ms)
  | _ => None
  end.
Definition is_key (key : heading -> bool) (n : node) : bool := match head n with Some hd => key hd | None => false end.
(** structs and unions with one of the headings [key] have a single definition (up to equivalence) *)
Definition one_definition (key : heading -> bool) (h : heap) (roots : list ref) : Prop :=
  forall s t n m, from h roots s -> from h roots t -> deref h s = Some n -> deref h t = Some m ->
    head n = head m -> is_key key n = true -> equivalent h s h t.
Definition supported (n : node) : Prop := match n with NCycle _ => False | _ => True end.
(** following references ends at types without references or at such structs: all cycles go through these *)
Inductive grounded (key : heading -> bool) (h : heap) : ref -> Prop :=
| grounded_void : grounded key h RVoid
| grounded_key x n : deref h x = Some n -> is_key key n = true -> grounded key h x
| grounded_node x n : deref h x = Some n -> supported n -> Forall (grounded key h) (parts n) -> grounded key h x.
