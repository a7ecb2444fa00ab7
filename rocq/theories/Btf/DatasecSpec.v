(** Specification of C94 *)
From Verif Require Import Base.GoInt Btf.Datasec.
Open Scope Z_scope.

(** One after another from [off], aligned, without gaps other than for alignment, up to the end *)
Fixpoint consecutive (sizeof alignof : nat -> option Z) (off : Z) (vs : list vsi) (end_ : Z) : Prop :=
  match vs with
  | [] => end_ = off
  | v :: r => exists sz al, sizeof (v_type v) = Some sz /\ alignof (v_type v) = Some al /\
      v_off v mod al = 0 /\ off <= v_off v < off + al /\ consecutive sizeof alignof (v_off v + sz) r end_
  end.
(** Everything but the offset and the linkage *)
Definition same (v w : vsi) : Prop := v_kind v = v_kind w /\ v_name v = v_name w /\ v_type v = v_type w /\ v_size v = v_size w.
(** An upper bound for the space taken *)
Fixpoint space (sizeof alignof : nat -> option Z) (vs : list vsi) : Z :=
  match vs with
  | [] => 0
  | v :: r => match sizeof (v_type v), alignof (v_type v) with Some s, Some a => s + a | _, _ => 0 end + space sizeof alignof r
  end.
(** Sizes are not negative, alignments are powers of two. *)
Definition wfTypes (sizeof alignof : nat -> option Z) : Prop :=
  forall t, (forall z, sizeof t = Some z -> 0 <= z) /\ (forall a, alignof t = Some a -> 1 <= a < 2 ^ 32).
(** The file says that the section has this size. *)
Definition sectionSize (secs : list section_) (n : name) (z : Z) : Prop := exists s, In s secs /\ s_name s = n /\ s_type s <> OtherSec /\ s_size s = z.
(** ... and that this is where the variable is. *)
Definition symbolAt (secs : list section_) (syms : list symbol) (n v : name) (z : Z) : Prop :=
  exists y s, In y syms /\ y_name y = v /\ y_value y = z /\ ~ 0xff00 <= y_section y <= 0xffff /\ nth_error secs (Z.to_nat (y_section y)) = Some s /\ s_name s = n.
(** Any lookups *)
Fixpoint lookups (sizeof alignof : nat -> option Z) (s : spec) (ids : list nat) : spec :=
  match ids with [] => s | i :: r => lookups sizeof alignof (snd (lookup sizeof alignof s i)) r end.
Definition fresh (s : spec) : Prop := forall i, fixups s i = false.
