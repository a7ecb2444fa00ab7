(** C105, independently of the code: the notes of an ELF file (elf(5)) and the version they hold. *)
From Coq Require Import ZArith List Bool.
From Verif Require Import Base.GoInt.
Import ListNotations.
Open Scope Z_scope.

Record note := Note { nname : list Z; ndesc : list Z; ntype : Z }.
(** The bytes up to the next multiple of four *)
Definition isPadding (p l : list Z) : Prop := length p = Nat.modulo (4 - Nat.modulo (length l) 4) 4.
(** The sizes of name and description, the type, the name and the description; what they are filled up with is not said. *)
Definition encodes (bo : byteorder) (n : note) (s : list Z) : Prop := exists p q, isPadding p (nname n) /\ isPadding q (ndesc n) /\
  s = put bo 4 (Z.of_nat (length (nname n))) ++ put bo 4 (Z.of_nat (length (ndesc n))) ++ put bo 4 (ntype n) ++ nname n ++ p ++ ndesc n ++ q.
(** [s] are the notes [l] *)
Inductive areNotes (bo : byteorder) : list note -> list Z -> Prop :=
| areNil : areNotes bo [] []
| areCons n l s t : encodes bo n s -> areNotes bo l t -> areNotes bo (n :: l) (s ++ t).
(** Names and descriptions that a 32-bit size can hold *)
Definition fits (n : note) : Prop := Z.of_nat (length (nname n)) <= 2147483644 /\ Z.of_nat (length (ndesc n)) <= 2147483644 /\ 0 <= ntype n < 4294967296.
(** The note with the version: its name is Linux, maybe with something after a zero byte, its type is 0 and it has four bytes. *)
Definition holdsVersion (n : note) : Prop := (nname n = [76; 105; 110; 117; 120] \/ exists rest, nname n = [76; 105; 110; 117; 120; 0] ++ rest) /\ length (ndesc n) = 4%nat /\ ntype n = 0.
(** [n] is the first such note of [l]. *)
Definition firstOf (n : note) (l : list note) : Prop := exists l1 l2, l = l1 ++ n :: l2 /\ holdsVersion n /\ Forall (fun m => ~ holdsVersion m) l1.
(** What is in the note sections: each holds the notes of one list; other sections, whose type is not 7, hold anything. *)
Inductive holds (bo : byteorder) : list (list note) -> list (Z * list Z) -> Prop :=
| holdsNil : holds bo [] []
| holdsNote l ls s secs : areNotes bo l s -> Forall fits l -> holds bo ls secs -> holds bo (l :: ls) ((7, s) :: secs)
| holdsOther ls t s secs : t <> 7 -> holds bo ls secs -> holds bo ls ((t, s) :: secs).
