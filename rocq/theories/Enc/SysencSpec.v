(** Specification of C91: what the bytes of a Go value are *)
From Verif Require Import Base.GoInt Enc.Sysenc.
Open Scope nat_scope.

Section Word.
Variable is64 : bool.
Notation size := (size is64). Notation leavesOf t := (leaves is64 0 RW false t).
(** Memory has the size of the type. *)
Definition wfData (d : data) : Prop :=
  match d with
  | DVal t m | DPtr t m => length m = size t
  | DSlice t n m | DPtrSlice t n m => length m = n * size t
  | _ => True
  end.
(** The numbers of a value one after another: no padding *)
Definition packed (t : gtype) (m : list Z) : list Z := concat (map (read m) (leavesOf t)).
Definition contents (d : data) : option (list Z) :=
  let p t m := match bsize t with Some _ => Some (packed t m) | None => None end in
  match d with
  | DMarshaler r => r
  | DString b | DBytes b => Some b
  | DVal t m | DPtr t m => p t m
  | DSlice t n m | DPtrSlice t n m => p (Arr n t) m
  | DNil | DNilPtr _ => None
  end.
(** Booleans are 0 or 1 and floats are not signalling NaNs *)
Definition plain (k : kind) (b : list Z) : Prop :=
  match k with
  | KBool => b = [0%Z] \/ b = [1%Z]
  | KF32 => forall b0 b1 b2 b3, b = [b0; b1; b2; b3] -> (Z.land b3 127 = 127 /\ 128 <= b2 -> b0 = 0 /\ b1 = 0 /\ Z.land b2 127 = 0 \/ Z.lor b2 64 = b2)%Z
  | _ => True
  end.
(** ... and blank fields are zero. *)
Definition cleanMem (t : gtype) (m : list Z) : Prop :=
  Forall (fun l => if l_blank l then read m l = zeros (width (l_kind l)) else plain (l_kind l) (read m l)) (leavesOf t).
Definition clean (d : data) : Prop :=
  match d with
  | DVal t m | DPtr t m => cleanMem t m
  | DSlice t n m | DPtrSlice t n m => cleanMem (Arr n t) m
  | _ => True
  end.
(** The bytes are those of the numbers in memory, apart from blank fields. *)
Fixpoint agrees (ls : list leaf) (m b : list Z) : Prop :=
  match ls with
  | [] => b = []
  | l :: r => let w := width (l_kind l) in (l_blank l = true \/ read m l = firstn w b) /\ agrees r m (skipn w b)
  end.
Fixpoint cleanBytes (ls : list leaf) (b : list Z) : Prop :=
  match ls with
  | [] => True
  | l :: r => let w := width (l_kind l) in (if l_blank l then firstn w b = zeros w else plain (l_kind l) (firstn w b)) /\ cleanBytes r (skipn w b)
  end.
(** Bytes between the numbers *)
Definition covered (t : gtype) (i : nat) : Prop := exists l, In l (leavesOf t) /\ l_off l <= i < l_off l + width (l_kind l).
(** The same kind of argument with other memory *)
Inductive differOnlyInPadding : data -> data -> Prop :=
| DiffVal : forall t m m', (forall l, In l (leavesOf t) -> read m l = read m' l) -> differOnlyInPadding (DVal t m) (DVal t m')
| DiffPtr : forall t m m', (forall l, In l (leavesOf t) -> read m l = read m' l) -> differOnlyInPadding (DPtr t m) (DPtr t m')
| DiffSlice : forall t n m m', (forall l, In l (leavesOf (Arr n t)) -> read m l = read m' l) -> differOnlyInPadding (DSlice t n m) (DSlice t n m')
| DiffPtrSlice : forall t n m m', (forall l, In l (leavesOf (Arr n t)) -> read m l = read m' l) -> differOnlyInPadding (DPtrSlice t n m) (DPtrSlice t n m').
(** Types a decoder can set: no field that is not exported, not even deep down *)
Fixpoint settable (t : gtype) : Prop :=
  match t with
  | Basic _ | Bad _ => True
  | Arr _ t => settable t
  | Struct fs => fold_right (fun f P => (match fst f with Exported | Blank => True | _ => False end /\ settable (snd f)) /\ P) True fs
  end.
End Word.
