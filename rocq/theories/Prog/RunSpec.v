(** Specification of C96 *)
From Verif Require Import Base.GoInt Prog.Run.
Open Scope Z_scope.

(** When the kernel can be interrupted: up to Linux 5.10 before it checks whether the program ran often enough, afterwards after that *)
Definition signalsOld (repeat : Z) (c : choice) : Prop := match c with Complete => True | Signal m => (1 <= m <= Nat.max 1 (Z.to_nat repeat))%nat | Error e => e <> EINTR end.
Definition signalsNew (repeat : Z) (c : choice) : Prop := match c with Complete => True | Signal m => (1 <= m < Nat.max 1 (Z.to_nat repeat))%nat | Error e => e <> EINTR end.
(** The user asks for output with a buffer that isn't empty. *)
Definition usable (o : opts) : Prop := match o_out o with Some s => (0 < s_len s <= length (s_mem s))%nat | None => True end.
(** What the user gets of an execution *)
Definition outputIs (o : opts) (x : res) (out : option slice) : Prop :=
  match o_out o, out with
  | None, None => True
  | Some s, Some s' => firstn (s_len s') (s_mem s') = r_data x /\ length (s_mem s') = length (s_mem s) /\ s_len s' = length (r_data x)
  | _, _ => False
  end.
