(** Model of internal/version.go and of the choice of a version (internal/platform/platform.go). *)
From Verif.Base Require Import GoInt.

(** version.go:16 Version: three uint16 *)
Record version := mkVersion { v_major : Z; v_minor : Z; v_patch : Z }.
Definition version_ok (v : version) : Prop := in_u 16 (v_major v) /\ in_u 16 (v_minor v) /\ in_u 16 (v_patch v).
(** version.go:30-37 NewVersionFromCode *)
Definition fromCode (code : Z) : version := mkVersion (u16 (u8 (Z.shiftr code 16))) (u16 (u8 (Z.shiftr code 8))) (u16 (u8 code)).
(** version.go:46-55 Less *)
Fixpoint lessList (a b : list Z) : bool := match a, b with x :: a', y :: b' => if x =? y then lessList a' b' else x <? y | _, _ => false end.
Definition less (v w : version) : bool := lessList [v_major v; v_minor v; v_patch v] [v_major w; v_minor w; v_patch w].
(** version.go:58-60 Unspecified *)
Definition unspecified (v : version) : bool := (v_major v =? 0) && (v_minor v =? 0) && (v_patch v =? 0).
(** version.go:64-74 Kernel *)
Definition kernel (v : version) : Z :=
  let s := Z.min (v_patch v) 255 in
  Z.lor (Z.lor (Z.shiftl (u8 (v_major v)) 16) (Z.shiftl (u8 (v_minor v)) 8)) (u8 s).

(** platform.go:36-61 selectVersion: the entries are split at the prefix; [None]: without a colon.  Strings are numbers; [""] is 0. *)
Inductive vtag := VTag (os : nat) (ver : nat) | VPlain (ver : nat).
Fixpoint selectVersion (goos native linux : nat) (l : list vtag) : option nat :=
  match l with
  | [] => None
  | VTag os v :: l' => if Nat.eqb os goos then Some v else if negb (Nat.eqb native 0) && negb (Nat.eqb native goos) && Nat.eqb os native then Some v else selectVersion goos native linux l'
  | VPlain v :: l' => if Nat.eqb native linux then Some v else selectVersion goos native linux l'
  end.
