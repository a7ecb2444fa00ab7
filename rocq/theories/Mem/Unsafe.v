(** Model of memory_unsafe.go and variable.go:216-248: pointers to variables of BPF programs *)
From Verif Require Import Base.GoInt.
Open Scope Z_scope.

(** Go types. [Basic n]: booleans, integers and floats of fixed size n; [Word]: int and uint; [Ref]: what contains Go pointers (pointers, strings, interfaces,
    channels, unsafe.Pointer); [Atomic n]: sync/atomic Bool, Int32, Uint32 (4) and Int64, Uint64 (8); [AtomicRef]: atomic.Pointer and atomic.Value;
    [HostLayout]: structs.HostLayout. *)
Inductive gty := Basic (n : Z) | Uintptr | Word | Ref (words : Z) | Atomic (n : Z) | AtomicUintptr | AtomicRef | HostLayout | Arr (n : nat) (t : gty) | Struct (fs : list gty).
Definition Align (n a : Z) : Z := (n + a - 1) / a * a.
Section Word.
Variable word : Z. (** 4 or 8 *)
(** reflect.Type.Align and Size: words are aligned to words, also 64 bit numbers on 32 bit machines, but for atomics *)
Fixpoint align (t : gty) : Z :=
  match t with
  | Basic n => Z.min n word
  | Uintptr | Word | Ref _ | AtomicUintptr | AtomicRef => word
  | Atomic n => n
  | HostLayout => 1
  | Arr _ t => align t
  | Struct fs => fold_right (fun t a => Z.max (align t) a) 1 fs
  end.
(** Fields one after another; a field of size 0 at the end takes a byte. *)
Fixpoint size (t : gty) : Z :=
  match t with
  | Basic n | Atomic n => n
  | Uintptr | Word | AtomicUintptr | AtomicRef => word
  | Ref w => w * word
  | HostLayout => 0
  | Arr n t => Z.of_nat n * size t
  | Struct fs =>
      let end_ := fold_left (fun o t => Align o (align t) + size t) fs 0 in
      let last_ := fold_left (fun _ t => size t) fs 1 in
      let end_ := if (0 <? end_) && (last_ =? 0) then end_ + 1 else end_ in
      Align end_ (align (Struct fs))
  end.
(** memory_unsafe.go:262-320 *)
Fixpoint checkType (t : gty) : bool :=
  match t with
  | Atomic _ | AtomicUintptr => true
  | Basic _ | Uintptr => true
  | Arr _ t => checkType t
  | Struct fs =>
      forallb (fun t => match t with HostLayout => true | _ => checkType t end) fs &&
      existsb (fun t => match t with HostLayout => true | _ => false end) fs
  | Word | Ref _ | AtomicRef | HostLayout => false
  end.
(** memory.go:39-45 *)
Record memory := Mem { m_base : Z; m_len : Z; m_nil : bool; m_ro : bool; m_heap : bool }.
Inductive error := ErrReadOnly | ErrNotSupported | ErrInvalidType | ErrUnaligned | ErrBounds | ErrNil.
Inductive result := Ptr (a : Z) | Err (e : error) | Panic.
(** memory.go:98-103 *)
Definition bounds (m : memory) (off sz : Z) : bool := if u32 (off + sz) <? off then false else u32 (off + sz) <=? u32 (m_len m).
(** memory_unsafe.go:220-251 *)
Definition checkUnsafeMemory (m : memory) (t : gty) (off : Z) : option error :=
  if m_nil m then Some ErrNil
  else if m_ro m then Some ErrReadOnly
  else if negb (m_heap m) then Some ErrNotSupported
  else if negb (checkType t) then Some ErrInvalidType
  else if size t =? 0 then Some ErrInvalidType
  else if negb (off mod u32 (align t) =? 0) then Some ErrUnaligned
  else if negb (bounds m off (u32 (size t))) then Some ErrBounds
  else None.
(** memory_unsafe.go:335-340; indexing panics *)
Definition memoryPointer (m : memory) (t : gty) (off : Z) : result :=
  match checkUnsafeMemory m t off with
  | Some e => Err e
  | None => if off <? m_len m then Ptr (m_base m + off) else Panic
  end.
(** variable.go:117-124; [None]: nil *)
Record variable := Var { v_off : Z; v_size : Z; v_mm : option memory }.
(** variable.go:126-140 *)
Definition newVariable (off sz : Z) (mm : option memory) : option variable :=
  match mm with Some m => if bounds m off sz then Some (Var off sz mm) else None | None => Some (Var off sz mm) end.
(** variable.go:151-156 *)
Definition ReadOnly (v : variable) : bool := match v_mm v with None => true | Some m => m_ro m end.
(** variable.go:216-235 *)
Definition checkVariable (t : gty) (v : variable) : option error :=
  if ReadOnly v then Some ErrReadOnly
  else match t with
  | Uintptr => if v_size v =? 8 then None else if negb (v_size v =? size t) then Some ErrInvalidType else None
  | _ => if negb (v_size v =? size t) then Some ErrInvalidType else None
  end.
(** variable.go:243-248; a nil memory would be dereferenced *)
Definition VariablePointer (t : gty) (v : variable) : result :=
  match checkVariable t v with
  | Some e => Err e
  | None => match v_mm v with Some m => memoryPointer m t (v_off v) | None => Panic end
  end.
End Word.

(** ** The heap. Each address is ordinary memory, that of a BPF map, or not mapped. *)
Inductive cell := Anon | MapMem (id : Z) (off : Z) (ro : bool) | Hole.
(** A heap object; where a map was put over it; whether it can be reached, and whether the finalizer is still to come *)
Record block := Block { b_base : Z; b_len : Z; b_map : option (Z * Z * Z * bool); b_ref : bool; b_fin : bool }.
Record state := St { mem : Z -> cell; blocks : list block }.
Definition inside (a base len : Z) : bool := (base <=? a) && (a <? base + len).
Definition setRange (f : Z -> cell) (base len : Z) (c : Z -> cell) (a : Z) : cell := if inside a base len then c (a - base) else f a.
(** What mmap answers. If it fails, it may have unmapped what was there (POSIX). *)
Inductive answer := Mapped | Denied (hole : bool) | Failed (hole : bool).
Definition punch (hole : bool) (f : Z -> cell) (a n : Z) : Z -> cell := if hole then setRange f a n (fun _ => Hole) else f.
(** memory_unsafe.go:100-143: the size that is allocated, and the address that is used *)
Definition allocSize (page sz : Z) : Z := Align (sz + page) page.
Definition aligned (page base : Z) : Z := u64 (Align base page).
(** memory_unsafe.go:51-94: what is mapped over the block at base; [None] is an error. mapmap: 147-184 *)
Definition newUnsafeMemory (page id sz base : Z) (first second : answer) (f : Z -> cell) : option (memory * block) * (Z -> cell) :=
  if negb (sz mod page =? 0) || (sz =? 0) then (None, f)
  else
    let a := aligned page base in
    let len := allocSize page sz in
    let ok ro f := (Some (Mem a sz false ro true, Block base len (Some (a, sz, id, ro)) true true), setRange f a sz (fun o => MapMem id o ro)) in
    match first with
    | Mapped => ok false f
    | Failed h => (None, punch h f a sz)
    | Denied h =>
        let f := punch h f a sz in
        match second with
        | Mapped => ok true f
        | Denied h | Failed h => (None, punch h f a sz)
        end
    end.
Definition disjoint (b c : block) : Prop := b_base b + b_len b <= b_base c \/ b_base c + b_len c <= b_base b.
(** Where the runtime may put an object *)
Definition fits (s : state) (b : block) : Prop := 0 <= b_base b /\ 0 < b_len b /\ b_base b + b_len b < 2 ^ 64 /\ forall c, In c (blocks s) -> disjoint b c.
Definition unref (b : block) := Block (b_base b) (b_len b) (b_map b) false (b_fin b).
Definition unfin (b : block) := Block (b_base b) (b_len b) None (b_ref b) false.
Inductive step (page : Z) : bool -> state -> state -> Prop :=
(** the program allocates something *)
| Alloc : forall s b, fits s b -> b_map b = None -> b_fin b = false -> step page false s (St (mem s) (b :: blocks s))
(** sizes are not negative: map.go:531-547 *)
| New : forall s id sz base f1 f2 m b f, 0 <= sz -> fits s (Block base (allocSize page sz) None true false) -> newUnsafeMemory page id sz base f1 f2 (mem s) = (Some (m, b), f) -> step page false s (St f (b :: blocks s))
| NewFails : forall h s id sz base f1 f2 f, 0 <= sz -> fits s (Block base (allocSize page sz) None true false) -> newUnsafeMemory page id sz base f1 f2 (mem s) = (None, f) ->
    (h = false -> match f1, f2 with Failed true, _ | Denied _, Denied true | Denied _, Failed true | Denied true, _ => False | _, _ => True end) ->
    step page h s (St f (Block base (allocSize page sz) None false false :: blocks s))
(** the last reference is gone *)
| Drop : forall s l b r, blocks s = l ++ b :: r -> step page false s (St (mem s) (l ++ unref b :: r))
(** memory_unsafe.go:191-213 unmap *)
| Finalize : forall s l b r a sz id ro, blocks s = l ++ b :: r -> b_ref b = false -> b_fin b = true -> b_map b = Some (a, sz, id, ro) ->
    step page false s (St (setRange (mem s) a sz (fun _ => Anon)) (l ++ unfin b :: r))
| Free : forall s l b r, blocks s = l ++ b :: r -> b_ref b = false -> b_fin b = false -> step page false s (St (mem s) (l ++ r)).
