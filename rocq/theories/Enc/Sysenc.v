(** Model of internal/sysenc (marshal.go:14-165, layout.go:12-42, buffer.go:22-85) and of
    marshalMapSyscallInput and makeMapSyscallOutput (marshalers.go:15-47).

    A variable is its memory: a list of bytes that is laid out as Go does. What encoding/binary does is a specification, in terms of the
    leaves of a type: numbers and booleans, in the order of memory. The cache of
    hasUnexportedFields is left out. *)
From Verif Require Import Base.GoInt.
Open Scope nat_scope.

(** ** Go types. Complex numbers are left out; [Bad]: types encoding/binary doesn't know, such as int, strings, pointers, maps *)
Inductive kind := KBool | KInt8 | KInt16 | KInt32 | KInt64 | KF32 | KF64.
Inductive fname := Exported | Blank | Unexported | EmbeddedUnexported.
Inductive gtype := Basic (k : kind) | Bad (sz : nat) | Arr (n : nat) (t : gtype) | Struct (fs : list (fname * gtype)).
Definition width (k : kind) : nat := match k with KBool | KInt8 => 1 | KInt16 => 2 | KInt32 | KF32 => 4 | KInt64 | KF64 => 8 end.
Section Word.
(** 64 or 32 bit machine *)
Variable is64 : bool.
Definition word : nat := if is64 then 8 else 4.
Definition alignUp (n a : nat) : nat := (n + a - 1) / a * a.
Fixpoint align (t : gtype) : nat :=
  match t with
  | Basic k => Nat.min (width k) word
  | Bad _ => word
  | Arr _ t => align t
  | Struct fs => fold_right (fun f m => Nat.max (align (snd f)) m) 1 fs
  end.
(** Where the fields end; a last field without size gets a byte, so that its address is in the struct *)
Fixpoint endOf (off : nat) (l : list (nat * nat)) : nat :=
  match l with
  | [] => off
  | (sz, al) :: r => endOf (alignUp off al + sz) r
  end.
Definition lastZero (l : list (nat * nat)) : bool := match rev l with (0, _) :: _ => true | _ => false end.
Fixpoint size (t : gtype) : nat :=
  match t with
  | Basic k => width k
  | Bad sz => sz
  | Arr n t => n * size t
  | Struct fs =>
      let l := map (fun f => (size (snd f), align (snd f))) fs in
      let e := endOf 0 l in
      alignUp (if lastZero l && (0 <? e) then e + 1 else e) (align t)
  end.
(** binary.Size of a type *)
Fixpoint bsize (t : gtype) : option nat :=
  match t with
  | Basic k => Some (width k)
  | Bad _ => None
  | Arr n t => match bsize t with Some s => Some (n * s) | None => None end
  | Struct fs => fold_right (fun f r => match bsize (snd f), r with Some s, Some x => Some (s + x) | _, _ => None end) (Some 0) fs
  end.
(** ** encoding/binary. Leaves: offset, kind, whether it is in a blank field, whether it can't be set *)
Record leaf := Leaf { l_off : nat; l_kind : kind; l_blank : bool; l_ro : bool }.
(** reflect's read only flags: sticky or only of the embedded struct itself *)
Inductive ro := RW | EmbedRO | StickyRO.
Definition fieldRO (r : ro) (n : fname) : ro :=
  match r, n with
  | StickyRO, _ => StickyRO
  | _, Exported => RW
  | _, EmbeddedUnexported => EmbedRO
  | _, _ => StickyRO
  end.
Fixpoint leaves (off : nat) (r : ro) (blank : bool) (t : gtype) : list leaf :=
  match t with
  | Basic k => [Leaf off k blank (match r with RW => false | _ => true end)]
  | Bad _ => []
  | Arr n t =>
      (fix go n off := match n with O => [] | S n => leaves off (match r with RW => RW | _ => StickyRO end) blank t ++ go n (off + size t) end) n off
  | Struct fs =>
      (fix go (fs : list (fname * gtype)) pos :=
         match fs with
         | [] => []
         | (n, t) :: fs => let o := alignUp pos (align t) in
                          leaves (off + o) (fieldRO r n) (blank || match n with Blank => true | _ => false end) t ++ go fs (o + size t)
         end) fs 0
  end.
(** Conversions: booleans are 0 or 1; floats of 32 bits go through 64 bits, which makes signalling NaNs quiet (little endian). *)
Definition conv (k : kind) (b : list Z) : list Z :=
  match k, b with
  | KBool, [x] => [if (x =? 0)%Z then 0%Z else 1%Z]
  | KF32, [b0; b1; b2; b3] =>
      if ((Z.land b3 127 =? 127) && (128 <=? b2) && negb ((b0 =? 0) && (b1 =? 0) && (Z.land b2 127 =? 0)))%Z
      then [b0; b1; Z.lor b2 64; b3] else b
  | _, _ => b
  end.
Definition read (m : list Z) (l : leaf) : list Z := firstn (width (l_kind l)) (skipn (l_off l) m).
Definition zeros (n : nat) : list Z := repeat 0%Z n.
Definition binaryEncode (t : gtype) (m : list Z) : option (list Z) :=
  match bsize t with
  | None => None
  | Some _ => Some (concat (map (fun l => if l_blank l then zeros (width (l_kind l)) else conv (l_kind l) (read m l)) (leaves 0 RW false t)))
  end.
Definition patch (m : list Z) (off : nat) (b : list Z) : list Z := firstn off m ++ b ++ skipn (off + length b) m.
Fixpoint scatter (ls : list leaf) (b m : list Z) : list Z :=
  match ls with
  | [] => m
  | l :: r => let w := width (l_kind l) in
              scatter r (skipn w b) (if l_blank l then m else patch m (l_off l) (conv (l_kind l) (firstn w b)))
  end.
Inductive out A := Ok' (a : A) | Err' | Panic.
Arguments Ok' {A}. Arguments Err' {A}. Arguments Panic {A}.
(** The new memory and how much was read *)
Definition binaryDecode (t : gtype) (b m : list Z) : out (list Z * nat) :=
  match bsize t with
  | None => Err'
  | Some s => let ls := leaves 0 RW false t in
              if length b <? s then Err'
              else if existsb (fun l => negb (l_blank l) && l_ro l) ls then Panic
              else Ok' (scatter ls b m, s)
  end.

(** ** What is passed: [DMarshaler] with what MarshalBinary returns; values that are neither pointers nor slices; pointers; slices and pointers to them, of n elements *)
Inductive data :=
| DNil | DMarshaler (r : option (list Z)) | DString (b : list Z) | DBytes (b : list Z)
| DVal (t : gtype) (m : list Z) | DPtr (t : gtype) (m : list Z) | DNilPtr (t : gtype)
| DSlice (t : gtype) (n : nat) (m : list Z) | DPtrSlice (t : gtype) (n : nat) (m : list Z).
(** layout.go:14-42 *)
Fixpoint hasUnexported (t : gtype) : bool :=
  match t with
  | Basic _ | Bad _ => false
  | Arr _ t => hasUnexported t
  | Struct fs => existsb (fun f => match fst f with Unexported | EmbeddedUnexported => true | _ => false end || hasUnexported (snd f)) fs
  end.
(** marshal.go:111-165. An empty list is nil. *)
Definition backing (d : data) : list Z :=
  match d with
  | DPtr t m => match bsize t with Some s => if (s =? size t) && negb (hasUnexported t) then m else [] | None => [] end
  | DSlice t n m | DPtrSlice t n m =>
      match bsize t with Some s => if (n * s =? size t * n) && negb (hasUnexported t) then m else [] | None => [] end
  | DBytes b => b
  | _ => []
  end.
(** binary.Append of anything *)
Definition binaryAppend (d : data) : out (list Z) :=
  let enc t m := match binaryEncode t m with Some b => Ok' b | None => Err' end in
  match d with
  | DVal t m | DPtr t m => enc t m
  | DSlice t n m | DPtrSlice t n m => enc (Arr n t) m
  | DBytes b => Ok' b
  | DNilPtr (Basic _) => Panic
  | _ => Err'
  end.
(** marshal.go:22-67. The buffer shows the memory of the variable if there is one. *)
Definition Marshal (d : data) (sz : nat) : out (list Z) :=
  let check r := match r with Ok' b => if length b =? sz then Ok' b else Err' | Err' => Err' | Panic => Panic end in
  match d with
  | DNil => Err'
  | DMarshaler r => check (match r with Some b => Ok' b | None => Err' end)
  | DString b | DBytes b => check (Ok' b)
  | DVal (Basic KInt16 as t) m | DVal (Basic KInt32 as t) m | DVal (Basic KInt64 as t) m => check (match binaryEncode t m with Some b => Ok' b | None => Err' end)
  | _ => if length (backing d) =? sz then Ok' (backing d) else check (binaryAppend d)
  end.
(** Where to decode to; [TUnmarshaler]: whether UnmarshalBinary accepts the bytes *)
Inductive target := TUnmarshaler (f : list Z -> bool) | TString | TBytes (old : list Z) | TData (d : data).
Definition memory (d : data) : list Z := match d with DVal _ m | DPtr _ m | DSlice _ _ m | DPtrSlice _ _ m => m | DString b | DBytes b => b | _ => [] end.
(** binary.Decode of anything, with the check of the length (marshal.go:93-102) *)
Definition decodeAll (d : data) (b : list Z) : out (list Z) :=
  let dec t m := match binaryDecode t b m with Ok' (m, n) => if n =? length b then Ok' m else Err' | Err' => Err' | Panic => Panic end in
  match d with
  | DPtr t m => dec t m
  | DSlice t n m | DPtrSlice t n m => dec (Arr n t) m
  | DBytes m => dec (Arr (length m) (Basic KInt8)) m
  | DNilPtr (Basic k) => if length b <? width k then Err' else Panic
  | _ => Err'
  end.
(** What the variable holds after copying to its backing memory *)
Definition copied (d : data) (b : list Z) : list Z := match backing d with [] => memory d | _ => b end.
(** marshal.go:73-104: the new contents of the variable *)
Definition Unmarshal (t : target) (b : list Z) : out (list Z) :=
  match t with
  | TUnmarshaler f => if f b then Ok' b else Err'
  | TString | TBytes _ => Ok' b
  | TData d => if length (backing d) =? length b then Ok' (copied d b) else decodeAll d b
  end.
(** A system call that writes bytes (buffer.go:41-53, 74-85, marshalers.go:34-47): directly to the variable if its memory has the right size *)
Definition output (t : target) (kernel : list Z) : out (list Z) :=
  match t with
  | TData d => if length (backing d) =? length kernel then Ok' (copied d kernel) else Unmarshal t kernel
  | TBytes old => if length old =? length kernel then Ok' kernel else Unmarshal t kernel
  | _ => Unmarshal t kernel
  end.
End Word.
Arguments Ok' {A}. Arguments Err' {A}. Arguments Panic {A}.
