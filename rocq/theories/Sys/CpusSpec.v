(** C106, independently of the code: sets of CPUs and how the kernel prints them (bitmap_list_string). *)
From Coq Require Import ZArith List Bool.
Import ListNotations.
Open Scope Z_scope.

(** A set of CPUs as its ranges, in ascending order, with CPUs missing in between *)
Fixpoint ranges (from : Z) (l : list (Z * Z)) : Prop := match l with [] => True | (a, b) :: l => from <= a <= b /\ b < 2 ^ 63 - 1 /\ ranges (b + 2) l end.
Definition contains (l : list (Z * Z)) (c : Z) : Prop := exists a b, In (a, b) l /\ a <= c <= b.
(** Decimal, without leading zeros *)
Inductive prints : list Z -> Z -> Prop :=
| printsDigit c : 48 <= c <= 57 -> prints [c] (c - 48)
| printsMore s n c : prints s n -> 0 < n -> 48 <= c <= 57 -> prints (s ++ [c]) (10 * n + (c - 48)).
(** A range is one number or two with a dash in between. *)
Inductive printsRange : list Z -> Z * Z -> Prop :=
| printsOne s n : prints s n -> printsRange s (n, n)
| printsTwo s a t b : prints s a -> prints t b -> a < b -> printsRange (s ++ 45 :: t) (a, b).
(** Ranges have a comma in between; a newline ends them. *)
Inductive printsRanges : list Z -> list (Z * Z) -> Prop :=
| printsLast s r : printsRange s r -> printsRanges (s ++ [10]) [r]
| printsNext s r t l : printsRange s r -> printsRanges t l -> printsRanges (s ++ 44 :: t) (r :: l).
