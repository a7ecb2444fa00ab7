(** Model of internal/math.go: the helpers are generic over Go's integer types. *)
From Coq Require Import ZArith List Lia Bool.
From Verif.Base Require Import GoInt.
Open Scope Z_scope.

(** A Go integer type: width and signedness. *)
Record ity := mkIty { width : Z; signed : bool }.
Definition wrap (t : ity) (x : Z) : Z := if signed t then sext (width t) x else wrapu (width t) x.
Definition in_ity (t : ity) (x : Z) : Prop := if signed t then in_s (width t) x else in_u (width t) x.
Definition go_int (t : ity) : Prop := width t = 8 \/ width t = 16 \/ width t = 32 \/ width t = 64.

(** internal/math.go:4-6 Align; Go's integer division truncates towards zero. *)
Definition Align (t : ity) (n a : Z) : Z :=
  wrap t (Z.quot (wrap t (wrap t (n + a) - 1)) a * a).
(** internal/math.go:9-11 IsPow *)
Definition IsPow (t : ity) (n : Z) : bool := negb (n =? 0) && (Z.land n (wrap t (n - 1)) =? 0).
(** internal/math.go:14-22 Between *)
Definition Between (val a b : Z) : Z :=
  let '(lower, upper) := if a >? b then (b, a) else (a, b) in
  Z.max (Z.min val upper) lower.
