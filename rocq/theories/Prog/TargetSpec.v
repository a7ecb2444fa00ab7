(** Specification of C95 *)
From Coq Require Import Sorting.Sorted.
From Verif Require Import Base.GoInt Prog.Target.
Open Scope Z_scope.

(** [id] is the only type of this name and kind. *)
Definition isTarget (ts : types) (n : name) (k : kind) (id : Z) : Prop :=
  In (Ty id k n) ts /\ forall t, In t ts -> t_name t = n -> t_kind t = k -> t = Ty id k n.
Definition lacks (ts : types) (n : name) (k : kind) : Prop := forall t, In t ts -> ~ (t_name t = n /\ t_kind t = k).
(** There are two of them. *)
Definition ambiguous (ts : types) (n : name) (k : kind) : Prop :=
  exists i j t u, i <> j /\ nth_error ts i = Some t /\ nth_error ts j = Some u /\ t_name t = n /\ t_kind t = k /\ t_name u = n /\ t_kind u = k.
Definition moduleObj (o : obj) : Prop := o_kernel o = true /\ o_name o <> vmlinux.
(** What programs attach to: documentation of AttachTo, and the kernel's naming conventions *)
Inductive attachesTo : name -> ptype -> atype -> name -> kind -> Prop :=
  | to_struct_ops n : attachesTo n PStructOps AStructOps n Struct
  | to_lsm n : attachesTo n PLSM ALSMMac ([98; 112; 102; 95; 108; 115; 109; 95] ++ n) Func
  | to_iter n : attachesTo n PTracing AIter ([98; 112; 102; 95; 105; 116; 101; 114; 95] ++ n) Func
  | to_fentry n : attachesTo n PTracing AFEntry n Func
  | to_fexit n : attachesTo n PTracing AFExit n Func
  | to_modify n : attachesTo n PTracing AModifyReturn n Func
  | to_raw_tp n : attachesTo n PTracing ARawTp ([98; 116; 102; 95; 116; 114; 97; 99; 101; 95] ++ n) Typedef.

Section Env.
Variable env : nat -> kernel.
Variable fails : nat -> option err.
(** The object exists from [a] until before [b]. *)
Definition present (o : obj) (a b : nat) : Prop := forall t, (a <= t < b)%nat -> In o (objs (env t)).
(** The kernel numbers BTF objects from 1, in ascending order. *)
Definition ordered : Prop := forall t, StronglySorted (fun a b => o_id a < o_id b) (objs (env t)) /\ Forall (fun o => 0 < o_id o) (objs (env t)).
(** System calls fail for lack of permission, or for any other reason. *)
Definition plainErrors : Prop := forall t e, fails t = Some e -> e = Perm \/ e = OtherErr.
(** A module is not replaced by a different one of the same name: [V] are its types. *)
Definition steady (V : name -> types) : Prop :=
  (forall t o, In o (objs (env t)) -> o_kernel o = true -> o_types o = V (o_name o)) /\ (forall t n ts, files (env t) n = Some ts -> ts = V n).
Definition goodCache (V : name -> types) (c : cache) : Prop :=
  (forall ts, c_kernel c = Some ts -> ts = V vmlinux) /\ (forall n ts, c_modules c n = Some ts -> ts = V n).
(** Handles have different numbers. *)
Definition goodHandles (w : world) : Prop := NoDup (map fst (opened w)) /\ Forall (fun h => (fst h < fresh w)%nat) (opened w).
End Env.
