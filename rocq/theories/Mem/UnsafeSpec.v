(** Specification of C93 *)
From Verif Require Import Base.GoInt Mem.Unsafe.
Open Scope Z_scope.

(** A type occurs in another one. *)
Inductive within : gty -> gty -> Prop :=
| Here : forall t, within t t
| InArr : forall u n t, within u t -> within u (Arr n t)
| InField : forall u t fs, In t fs -> within u t -> within u (Struct fs).
(** Nothing in it is a Go pointer or depends on the machine, and all structs are laid out as in C. *)
Definition shareable (t : gty) : Prop :=
  t <> HostLayout /\
  forall u, within u t -> match u with
  | Word | Ref _ | AtomicRef => False
  | Struct fs => In HostLayout fs
  | Arr _ t => t <> HostLayout
  | _ => True
  end.
Definition wfType (t : gty) : Prop := forall u, within u t -> match u with Basic n => In n [1; 2; 4; 8] | Atomic n => In n [4; 8] | Ref w => 0 < w | _ => True end.
Definition fitsMemory (m : memory) : Prop := 0 <= m_len m < 2 ^ 32 /\ m_nil m = false /\ m_base m mod 8 = 0.
(** ** Runs of the program and the collector *)
Definition initial (s : state) : Prop := (forall a, mem s a = Anon) /\ blocks s = [].
(** [holes]: mmap may unmap something although it fails. *)
Inductive runs (page : Z) (holes : bool) : state -> state -> Prop :=
| RunNil : forall s, runs page holes s s
| RunStep : forall s s1 h s2, runs page holes s s1 -> step page h s1 s2 -> (h = true -> holes = true) -> runs page holes s s2.
(** An address belongs to a region that a live or dying object has mapped. *)
Definition mapped (s : state) (x : Z) : Prop := exists b a sz id ro, In b (blocks s) /\ b_fin b = true /\ b_map b = Some (a, sz, id, ro) /\ a <= x < a + sz.
