(** Specification for C39 and C40: the position of a field in the layout of a type, and the value of a bitfield. *)
From Coq Require Import ZArith List Lia Bool.
From Verif.Base Require Import GoInt.
From Verif.Btf Require Import Types TypesSpec.
From Verif.Core Require Import CompatSpec.
Import ListNotations.
Open Scope Z_scope.

(** ** Layout *)
Definition has_members (h : heap) (c : ref) (ms : list member) : Prop :=
  exists n s tg, deref h c = Some (NStruct n s ms tg) \/ deref h c = Some (NUnion n s ms tg).
(** [m] is a member of the composite [c] called [name], directly or in an anonymous struct or union, [off] bits from the
    start of [c] *)
Inductive member_at (h : heap) : ref -> str -> member -> Z -> Prop :=
| ma_here c ms m : has_members h c ms -> In m ms -> member_at h c (m_name m) m (m_offset m)
| ma_anon c ms a c' name m off : has_members h c ms -> In a ms -> m_name a = [] -> stripped h (m_type a) c' -> member_at h c' name m off ->
    member_at h c name m (m_offset a + off).
(** the offset in bytes of the [i]th of consecutive values of type [t] *)
Definition element_at (h : heap) (t : ref) (i off : Z) : Prop := i = 0 /\ off = 0 \/ exists d sz, has_size h t d sz /\ off = i * sz.

(** A path of member names and array indices.  [at_path h t p r off b]: following [p] in [t] leads to a value of type [r],
    [off] bits from the start of [t]; b is its size in bits if it is a bitfield, and 0 otherwise. *)
Inductive pstep := PMember (name : str) | PIndex (i : Z).
Inductive at_path (h : heap) : ref -> list pstep -> ref -> Z -> Z -> Prop :=
| ap_here t : at_path h t [] t 0 0
| ap_bitfield t c name m off : stripped h t c -> member_at h c name m off -> at_path h t [PMember name] (m_type m) off (m_bits m)
| ap_member t c name m off p r o b : stripped h t c -> member_at h c name m off -> m_bits m = 0 -> at_path h (m_type m) p r o b ->
    at_path h t (PMember name :: p) r (off + o) b
| ap_index t a x e n i eo p r o b : stripped h t a -> deref h a = Some (NArray x e n) -> 0 <= i -> (i < n \/ n = 0) -> element_at h e i eo -> at_path h e p r o b ->
    at_path h t (PIndex i :: p) r (8 * eo + o) b.
(** The path denoted by an accessor, which has indices of members instead of names, and the position of the value in the
    type it was written for.  Anonymous structs and unions are not part of the path. *)
Inductive denotes (h : heap) : ref -> list Z -> list pstep -> ref -> Z -> Z -> Prop :=
| dn_here t : denotes h t [] [] t 0 0
| dn_anon t c ms i m c' acc p r o b : stripped h t c -> has_members h c ms -> 0 <= i -> nth_error ms (Z.to_nat i) = Some m -> m_name m = [] -> stripped h (m_type m) c' ->
    denotes h c' acc p r o b -> denotes h t (i :: acc) p r (m_offset m + o) b
| dn_bitfield t c ms i m : stripped h t c -> has_members h c ms -> 0 <= i -> nth_error ms (Z.to_nat i) = Some m -> m_name m <> [] ->
    denotes h t [i] [PMember (m_name m)] (m_type m) (m_offset m) (m_bits m)
| dn_member t c ms i m acc p r o b : stripped h t c -> has_members h c ms -> 0 <= i -> nth_error ms (Z.to_nat i) = Some m -> m_name m <> [] -> m_bits m = 0 ->
    denotes h (m_type m) acc p r o b -> denotes h t (i :: acc) (PMember (m_name m) :: p) r (m_offset m + o) b
| dn_index t a x e n i eo acc p r o b : stripped h t a -> deref h a = Some (NArray x e n) -> 0 <= i -> (i < n \/ n = 0) -> element_at h e i eo -> denotes h e acc p r o b ->
    denotes h t (i :: acc) (PIndex i :: p) r (8 * eo + o) b.
(** sensible layouts: offsets are uint32, members which aren't bitfields start at a byte *)
Definition member_laid_out (m : member) : Prop := in_u 32 (m_offset m) /\ in_u 32 (m_bits m) /\ (m_bits m = 0 \/ m_name m = [] -> m_offset m mod 8 = 0).
Definition laid_out (h : heap) : Prop := heap_u32 h /\ forall c ms m, has_members h c ms -> In m ms -> member_laid_out m.

(** ** Bitfields *)
(** Memory maps addresses to bytes.  Bits are counted from the start of the memory; in a byte from the least significant
    bit on little endian machines, from the most significant on big endian ones. *)
Definition mem := Z -> Z.
Definition bit_at (little : bool) (m : mem) (k : Z) : bool := Z.testbit (m (k / 8)) (if little then k mod 8 else 7 - k mod 8).
(** [value little m p s v]: [v] is the unsigned number in the [s] bits from bit [p] *)
Definition is_value (little : bool) (m : mem) (p s v : Z) : Prop :=
  0 <= v < 2 ^ s /\ forall i, 0 <= i < s -> Z.testbit v i = bit_at little m (p + (if little then i else s - 1 - i)).
(** a load of [w] bytes at address [a]: byte [j] of the number in memory order *)
Fixpoint load (little : bool) (m : mem) (a : Z) (w : nat) : Z :=
  match w with
  | O => 0
  | S w' => if little then m a + 256 * load little m (a + 1) w' else m a * 256 ^ Z.of_nat w' + load little m (a + 1) w'
  end.
Definition bytes_in (m : mem) : Prop := forall a, 0 <= m a < 256.
