(** Model of btf/btf.go:111-193 (symbolOffsets, loadSpecFromELF) and 240-343, 345-383 (fixupDatasec, fixupDatasecLayout, Copy, TypeByID): data sections of ELF files *)
From Verif Require Import Base.GoInt.
Open Scope Z_scope.

Definition name := list Z.
Definition name_eqb (a b : name) : bool := if list_eq_dec Z.eq_dec a b then true else false.
Definition kconfig : name := [46; 107; 99; 111; 110; 102; 105; 103].
Definition ksyms : name := [46; 107; 115; 121; 109; 115].
(** Members of a Datasec are variables, functions or, in malformed BTF, something else. [v_type] stands for the type of the variable. *)
Inductive kind := Var | Func | Other.
Inductive linkage := Static | Global | Extern.
Record vsi := Vsi { v_kind : kind; v_name : name; v_type : nat; v_link : linkage; v_off : Z; v_size : Z }.
Record datasec := Ds { d_name : name; d_size : Z; d_vars : list vsi }.
Definition setOff (v : vsi) (o : Z) : vsi := Vsi (v_kind v) (v_name v) (v_type v) (v_link v) o (v_size v).
Definition setGlobal (v : vsi) : vsi := Vsi (v_kind v) (v_name v) (v_type v) Global (v_off v) (v_size v).

(** debug/elf: sections and symbols *)
Inductive sectype := Progbits | Nobits | OtherSec.
Record section_ := Sec { s_name : name; s_type : sectype; s_size : Z }.
Record symbol := Sym { y_name : name; y_section : Z; y_value : Z }.
(** btf.go:32-36; the maps are functions *)
Record elf := Elf { sizes : name -> option Z; offsets : name -> name -> option Z }.
Definition upd1 (m : name -> option Z) (k : name) (z : Z) : name -> option Z := fun j => if name_eqb j k then Some z else m j.
Definition upd2 (m : name -> name -> option Z) (k l : name) (z : Z) : name -> name -> option Z := fun i j => if name_eqb i k && name_eqb j l then Some z else m i j.
(** btf.go:111-138 *)
Fixpoint symbolOffsets (secs : list section_) (syms : list symbol) (m : name -> name -> option Z) : option (name -> name -> option Z) :=
  match syms with
  | [] => Some m
  | y :: r =>
      if (0xff00 <=? y_section y) && (y_section y <=? 0xffff) then symbolOffsets secs r m
      else if 0xffffffff <? y_value y then symbolOffsets secs r m
      else match nth_error secs (Z.to_nat (y_section y)) with
      | None => None
      | Some sec => symbolOffsets secs r (upd2 m (s_name sec) (y_name y) (y_value y))
      end
  end.
Definition btfName : name := [46; 66; 84; 70].
(** btf.go:146-164 *)
Fixpoint sectionSizes (secs : list section_) (m : name -> option Z) : option (name -> option Z) :=
  match secs with
  | [] => Some m
  | s :: r =>
      if name_eqb (s_name s) btfName then sectionSizes r m
      else match s_type s with
      | OtherSec => sectionSizes r m
      | _ => if 0xffffffff <? s_size s then None else sectionSizes r (upd1 m (s_name s) (s_size s))
      end
  end.
(** btf.go:140-193 *)
Definition loadElf (secs : list section_) (syms : list symbol) : option elf :=
  match sectionSizes secs (fun _ => None), symbolOffsets secs syms (fun _ _ => None) with
  | Some s, Some o => Some (Elf s o)
  | _, _ => None
  end.

Section Types.
(** types.go:690-737, 744-763: Sizeof and alignof of a variable's type *)
Variables sizeof alignof : nat -> option Z.
Definition Align (n a : Z) : Z := u32 (u32 (n + a - 1) / a * a).
(** btf.go:311-343; [None]: an error. What was written before it stays. *)
Fixpoint layout (off : Z) (vs : list vsi) : list vsi * option Z :=
  match vs with
  | [] => ([], Some off)
  | v :: r =>
      match v_kind v, sizeof (v_type v), alignof (v_type v) with
      | Var, Some sz, Some al =>
          let off := Align off (u32 al) in
          let '(r, e) := layout (u32 (off + u32 sz)) r in (setOff v off :: r, e)
      | _, _, _ => (vs, None)
      end
  end.
Fixpoint fillOffsets (m : name -> option Z) (vs : list vsi) : list vsi * bool :=
  match vs with
  | [] => ([], true)
  | v :: r => match m (v_name v) with
      | Some o => let '(r, ok) := fillOffsets m r in (setOff v o :: r, ok)
      | None => (setOff v 0 :: r, false)
      end
  end.
(** btf.go:253-304: the section afterwards, and whether it went well *)
Definition fix_ (e : elf) (d : datasec) : datasec * bool :=
  if name_eqb (d_name d) ksyms then (d, forallb (fun v => match v_kind v with Var | Func => true | Other => false end) (d_vars d))
  else if name_eqb (d_name d) kconfig then
    match layout 0 (d_vars d) with
    | (vs, Some end_) => (Ds (d_name d) end_ (map setGlobal vs), true)
    | (vs, None) => (Ds (d_name d) (d_size d) vs, false)
    end
  else if negb (d_size d =? 0) then (d, true)
  else match sizes e (d_name d) with
  | None => (Ds (d_name d) 0 (d_vars d), false)
  | Some sz => let '(vs, ok) := fillOffsets (offsets e (d_name d)) (d_vars d) in (Ds (d_name d) sz vs, ok)
  end.
(** A Spec: its data sections by ID, and those in elfData.fixups; btf.go:32-50 *)
Record spec := Spec { elf_ : option elf; secs_ : nat -> option datasec; fixups : nat -> bool }.
Definition set {A} (f : nat -> A) (k : nat) (a : A) (j : nat) : A := if Nat.eqb j k then a else f j.
(** btf.go:240-307, 372-383 TypeByID of a data section, which All, AnyTypesByName and TypeByName end up in too. The data section, an error, or nothing if
    there is no such section *)
Inductive answer := Found (d : datasec) | Failed | NotFound.
Definition lookup (s : spec) (id : nat) : answer * spec :=
  match secs_ s id, elf_ s with
  | None, _ => (NotFound, s)
  | Some d, None => (Found d, s)
  | Some d, Some e =>
      if fixups s id then (Found d, s)
      else let '(d, ok) := fix_ e d in
           (if ok then Found d else Failed, Spec (elf_ s) (set (secs_ s) id (Some d)) (set (fixups s) id true))
  end.
(** btf.go:345-366: the types are new objects, so that none of them is among the keys of fixups. *)
Definition Copy (s : spec) : spec := Spec (elf_ s) (secs_ s) (fun _ => false).
End Types.
