(** Model of internal/linux/vdso.go and auxv.go: the version of the running kernel, from the notes of the vDSO. *)
From Coq Require Import ZArith List Bool.
From Verif Require Import Base.GoInt Internal.Math Internal.Version.
Import ListNotations.
Open Scope Z_scope.

Inductive error := EIO | EInvalidAddr | ENoVDSO | ENoSection | EHeader | EName | EDesc | ESkip | ENoNote.
(** What a call gives: a result, a panic, or [Stuck] if the model's fuel is used up. *)
Inductive out (A : Type) := Got (a : A) | Fails (e : error) | Panics | Stuck.
Arguments Got {A}. Arguments Fails {A}. Arguments Panics {A}. Arguments Stuck {A}.

(** auxv.go:19-20 *)
Definition AT_NULL := 0.
Definition AT_SYSINFO_EHDR := 33.
(** auxv.go:23-26 auxvRuntimeReader; auxv.go:32-47 ReadAuxvPair: [None] is io.EOF *)
Definition ReadAuxvPair (data : list (Z * Z)) (index : nat) : option (Z * Z) * nat :=
  if (length data + 2 <=? index)%nat then (None, index)
  else (Some (if (index <? length data)%nat then nth index data (0, 0) else (AT_NULL, AT_NULL)), S index).
(** vdso.go:57-80 vdsoMemoryAddress *)
Fixpoint vdsoMemoryAddress (fuel : nat) (data : list (Z * Z)) (index : nat) : out Z :=
  match fuel with O => Stuck | S fuel =>
  match ReadAuxvPair data index with
  | (None, _) => Fails EIO
  | (Some (tag, value), index) =>
      if tag =? AT_SYSINFO_EHDR then if negb (value =? 0) then Got value else Fails EInvalidAddr
      else if tag =? AT_NULL then Fails ENoVDSO
      else vdsoMemoryAddress fuel data index
  end end.

(** io.ReadFull of [n] bytes: the bytes, and what is left *)
Definition readFull (n : Z) (s : list Z) : option (list Z * list Z) :=
  if n <=? Z.of_nat (length s) then Some (firstn (Z.to_nat n) s, skipn (Z.to_nat n) s) else None.
(** internal/unix/strings_other.go ByteSliceToString *)
Fixpoint ByteSliceToString (s : list Z) : list Z := match s with [] => [] | b :: s => if b =? 0 then [] else b :: ByteSliceToString s end.
Definition Linux : list Z := [76; 105; 110; 117; 120].
Definition int32 := mkIty 32 true.

(** vdso.go:105-152: the notes of one section.  [None]: no note is the one.  Sections are as long as what can be read of them; memory doesn't run out. *)
Fixpoint readNotes (fuel : nat) (bo : byteorder) (sr : list Z) : out (option Z) :=
  match fuel with O => Stuck | S fuel =>
  match sr with [] => Got None | _ =>
  match readFull 12 sr with
  | None => Fails EHeader
  | Some (h, sr) =>
      let nameSize := i32 (get bo (firstn 4 h)) in
      let descSize := i32 (get bo (firstn 4 (skipn 4 h))) in
      let type := i32 (get bo (skipn 8 h)) in
      let name := if 0 <? nameSize
        then let a := Align int32 nameSize 4 in
             if a <? 0 then Panics
             else match readFull a sr with None => Fails EName | Some (buf, sr) => Got (ByteSliceToString (firstn (Z.to_nat nameSize) buf), sr) end
        else Got ([], sr) in
      match name with
      | Got (name, sr) =>
          if 0 <? descSize then
            if (if list_eq_dec Z.eq_dec name Linux then true else false) && (descSize =? 4) && (type =? 0)
            then match readFull 4 sr with None => Fails EDesc | Some (v, _) => Got (Some (get bo v)) end
            else (* io.CopyN of a negative number of bytes copies none *)
              let a := Align int32 descSize 4 in
              if a <? 0 then readNotes fuel bo sr
              else match readFull a sr with None => Fails ESkip | Some (_, sr) => readNotes fuel bo sr end
          else readNotes fuel bo sr
      | Fails e => Fails e | Panics => Panics | Stuck => Stuck
      end
  end end end.
(** elf.SHT_NOTE *)
Definition SHT_NOTE := 7.
Fixpoint readSections (bo : byteorder) (l : list (list Z)) : out Z :=
  match l with
  | [] => Fails ENoNote
  | s :: l => match readNotes (S (length s)) bo s with Got (Some v) => Got v | Got None => readSections bo l | Fails e => Fails e | Panics => Panics | Stuck => Stuck end
  end.
(** vdso.go:91-156 vdsoLinuxVersionCode, of the types and contents of the sections (debug/elf isn't modelled) *)
Definition vdsoLinuxVersionCode (bo : byteorder) (secs : list (Z * list Z)) : out Z :=
  match map snd (filter (fun s => fst s =? SHT_NOTE) secs) with [] => Fails ENoSection | l => readSections bo l end.
(** version.go:14-20 detectKernelVersion, vdso.go:23-53 vdsoVersion: [mem] is what is at an address *)
Definition detectKernelVersion (bo : byteorder) (auxv : list (Z * Z)) (mem : Z -> list (Z * list Z)) : out version :=
  match vdsoMemoryAddress (S (length auxv)) auxv 0 with
  | Got a => match vdsoLinuxVersionCode bo (mem a) with Got c => Got (fromCode c) | Fails e => Fails e | Panics => Panics | Stuck => Stuck end
  | Fails e => Fails e | Panics => Panics | Stuck => Stuck
  end.
