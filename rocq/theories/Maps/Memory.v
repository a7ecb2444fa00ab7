(** Model of memory-mapped maps and global variables: memory.go:75-150, variable.go:110-215. *)
From Coq Require Import ZArith List Lia Bool.
From Verif.Base Require Import GoInt.
Import ListNotations.
Open Scope Z_scope.

Inductive memerr := Closed | NilBuffer | OutOfRange | EOF | ReadOnly | NotSupported | OutOfBounds | MarshalErr | UnmarshalErr.

(** memory.go:38-44 Memory; [None] is the nil slice left behind by close. The cleanup that unmaps the memory is not
    modelled. *)
Record memory := mkMem { mb : option (list Z); ro : bool }.
Definition bytes (mm : memory) : list Z := match mb mm with Some b => b | None => [] end.
(** memory.go:82-86 close *)
Definition close (mm : memory) : memory := mkMem None (ro mm).
(** memory.go:89-91 Size *)
Definition Size (mm : memory) : Z := u32 (Z.of_nat (length (bytes mm))).
(** memory.go:99-104 bounds, in uint32 arithmetic *)
Definition bounds (mm : memory) (off size : Z) : bool :=
  if u32 (off + size) <? off then false
  else u32 (off + size) <=? u32 (Z.of_nat (length (bytes mm))).

(** Go's copy(dst[at:], src): returns dst and the number of bytes copied *)
Definition copy_at (dst : list Z) (at_ : nat) (src : list Z) : list Z * nat :=
  let n := Nat.min (length dst - at_) (length src) in
  (firstn at_ dst ++ firstn n src ++ skipn (at_ + n) dst, n).

(** memory.go:109-128 ReadAt: the new content of p, n and the error. [p = None] is a nil slice. *)
Definition ReadAt (mm : memory) (p : option (list Z)) (off : Z) : option (list Z) * nat * option memerr :=
  match mb mm with
  | None => (p, 0%nat, Some Closed)
  | Some b =>
      match p with
      | None => (p, 0%nat, Some NilBuffer)
      | Some p =>
          if (off <? 0) || (off >=? Z.of_nat (length b)) then (Some p, 0%nat, Some OutOfRange)
          else let '(p', n) := copy_at p 0 (skipn (Z.to_nat off) b) in
               if (n <? length p)%nat then (Some p', n, Some EOF) else (Some p', n, None)
      end
  end.
(** memory.go:134-157 WriteAt: the new memory, n and the error *)
Definition WriteAt (mm : memory) (p : option (list Z)) (off : Z) : memory * nat * option memerr :=
  match mb mm with
  | None => (mm, 0%nat, Some Closed)
  | Some b =>
      if ro mm then (mm, 0%nat, Some ReadOnly)
      else match p with
      | None => (mm, 0%nat, Some NilBuffer)
      | Some p =>
          if (off <? 0) || (off >=? Z.of_nat (length b)) then (mm, 0%nat, Some OutOfRange)
          else let '(b', n) := copy_at b (Z.to_nat off) p in
               if (n <? length p)%nat then (mkMem (Some b') (ro mm), n, Some EOF) else (mkMem (Some b') (ro mm), n, None)
      end
  end.

(** variable.go:110-117 Variable: offset and size are uint32; the Memory is passed separately because it is
    shared; [None] is a nil mm. *)
Record variable := mkVar { voff : Z; vsize : Z }.
(** variable.go:119-134 newVariable *)
Definition newVariable (offset size : Z) (mm : option memory) : res memerr variable :=
  match mm with
  | Some mm => if bounds mm offset size then Ok (mkVar offset size) else Err OutOfBounds
  | None => Ok (mkVar offset size)
  end.
(** variable.go:170-195 Set: [buf] is the result of sysenc.Marshal(in, size), which on success has [size] bytes *)
Definition Set_ (v : variable) (mm : option memory) (buf : option (list Z)) : option memory * option memerr :=
  match mm with
  | None => (mm, Some NotSupported)
  | Some m =>
      if ro m then (mm, Some ReadOnly)
      else if negb (bounds m (voff v) (vsize v)) then (mm, Some OutOfBounds)
      else match buf with
           | None => (mm, Some MarshalErr)
           | Some buf =>
               if negb (Z.of_nat (length buf) =? vsize v) then (mm, Some MarshalErr)
               else let '(m', _, e) := WriteAt m (Some buf) (voff v) in (Some m', e)
           end
  end.
(** variable.go:197-213 Get: the bytes handed to sysenc.Unmarshal. [None] is a panic (slice bounds). *)
Definition Get (v : variable) (mm : option memory) : option (res memerr (list Z)) :=
  match mm with
  | None => Some (Err NotSupported)
  | Some m =>
      if negb (bounds m (voff v) (vsize v)) then Some (Err OutOfBounds)
      else let hi := u32 (voff v + vsize v) in
           if (voff v <=? hi) && (hi <=? Z.of_nat (length (bytes m)))
           then Some (Ok (firstn (Z.to_nat (hi - voff v)) (skipn (Z.to_nat (voff v)) (bytes m)))) else None
  end.
