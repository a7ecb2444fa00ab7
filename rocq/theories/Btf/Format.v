(** Model of btf/format.go: GoFormatter.  The text of a declaration is modelled by its syntax tree. *)
From Coq Require Import ZArith List Lia Bool.
From Verif.Base Require Import GoInt.
From Verif.Btf Require Import Types.
Import ListNotations.
Open Scope Z_scope.

(** Go types as they are written.  [GUint n] is the text uint followed by the number 8*n, whether or not Go has that type.
    Every struct starts with the field [_ structs.HostLayout], which is left out; a field without name is padding. *)
Inductive gotype :=
| GBool
| GUint (bytes : Z)
| GInt (bytes : Z)
| GBytes (n : Z)
| GArray (n : Z) (elem : gotype)
| GStruct (fields : list (option str * gotype))
| GNamed (name : str).
Definition gofield := (option str * gotype)%type.

Inductive ferr := FTooDeep | FUnsupported | FInvalid | FSize (e : szerr) | FPanic.

Section Format.
  Variable h : heap.
  Variable Names : ref -> option str.      (* GoFormatter.Names; None for "" *)
  Variable Identifier : str -> str.        (* GoFormatter.identifier, btf/format.go:38-44 *)

  (** btf/format.go:341-353 skipQualifiers; [None] is the cycle type *)
  Fixpoint skip_loop (fuel : nat) (typ : ref) : option ref :=
    match fuel with
    | O => None
    | S f => match qualify h typ with Some t => skip_loop f t | None => Some typ end
    end.
  Definition skipQualifiers (typ : ref) : option ref := skip_loop (S maxResolveDepth) typ.

  (** btf/format.go:174-204 writeIntLit *)
  Definition writeIntLit (size enc : Z) : res ferr gotype :=
    let number := if size >? 8 then GBytes size else if enc =? 1 then GInt size else GUint size in
    if enc =? 4 then if negb (size =? 1) then Err FInvalid else Ok GBool
    else if enc =? 2 then if negb (size =? 1) then Err FInvalid else Ok number
    else if (enc =? 0) || (enc =? 1) then Ok number
    else Err FInvalid.
  (** btf/format.go:126-140 *)
  Definition writeEnumLit (size : Z) (sgn : bool) : res ferr gotype :=
    if (size =? 1) || (size =? 2) || (size =? 4) || (size =? 8) then Ok (if sgn then GInt size else GUint size) else Err FInvalid.
  (** btf/format.go:335-339 writePadding *)
  Definition padding (bytes : Z) : list gofield := if bytes >? 0 then [(None, GBytes bytes)] else [].

  (** btf/format.go:206-242 writeStructLit, the fields; [field] is writeStructField *)
  Fixpoint writeMembers (field : member -> res ferr (list gofield)) (size : Z) (prevOffset : Z) (ms : list member) : res ferr (list gofield) :=
    match ms with
    | [] => Ok (padding (u32 (size - prevOffset)))
    | m :: ms' =>
        if m_bits m >? 0 then writeMembers field size prevOffset ms'
        else
          let offset := m_offset m / 8 in
          let pad := padding (u32 (offset - prevOffset)) in
          match Sizeof h (m_type m) with
          | Err e => Err (FSize e)
          | Ok fieldSize =>
              let prevOffset := u32 (offset + u32 fieldSize) in
              if prevOffset >? size then Err FInvalid
              else match field m with
                   | Err e => Err e
                   | Ok f => match writeMembers field size prevOffset ms' with Err e => Err e | Ok fs => Ok (pad ++ f ++ fs) end
                   end
          end
    end.
  Definition writeStructLit (field : member -> res ferr (list gofield)) (size : Z) (ms : list member) : res ferr gotype :=
    match writeMembers field size 0 ms with Ok fs => Ok (GStruct fs) | Err e => Err e end.
  (** btf/format.go:95-106 writeType *)
  Definition writeType (lit : ref -> res ferr gotype) (typ : ref) : res ferr gotype :=
    match skipQualifiers typ with
    | None => Err FUnsupported
    | Some t => match Names t with Some name => Ok (GNamed name) | None => lit t end
    end.
  (** btf/format.go:244-289 writeStructField; [deeper] is writeStructField at the next depth, if that is permitted *)
  Definition writeStructField (lit : ref -> res ferr gotype) (deeper : option (member -> res ferr (list gofield))) (m : member) : res ferr (list gofield) :=
    if m_bits m >? 0 then Err FInvalid
    else if negb (m_offset m mod 8 =? 0) then Err FInvalid
    else match m_name m with
    | [] =>
        match deref h (m_type m) with
        | Some (NUnion _ usize ums _) =>
            match ums with
            | [] => Err FInvalid
            | u :: _ =>
                match deeper with
                | None => Err FTooDeep
                | Some field =>
                    match Sizeof h (m_type u) with
                    | Err e => Err (FSize e)
                    | Ok size => match field u with Err e => Err e | Ok f => Ok (f ++ padding (u32 (usize - u32 size))) end
                    end
                end
            end
        | _ => Err FInvalid
        end
    | _ => match writeType lit (m_type m) with Ok g => Ok [(Some (Identifier (m_name m)), g)] | Err e => Err e end
    end.
  (** btf/format.go:291-333 writeDatasecLit, the fields *)
  Fixpoint writeVars (lit : ref -> res ferr gotype) (size : Z) (prevOffset : Z) (vs : list secinfo) : res ferr (list gofield) :=
    match vs with
    | [] => Ok (padding (u32 (size - prevOffset)))
    | v :: vs' =>
        match deref h (vs_type v) with
        | Some (NVar name t linkage _) =>
            if negb (linkage =? 1) then writeVars lit size prevOffset vs'
            else match name with
            | [] => Err FInvalid
            | _ =>
                match writeType lit t with
                | Err e => Err e
                | Ok g =>
                    match writeVars lit size (u32 (vs_offset v + vs_size v)) vs' with
                    | Err e => Err e
                    | Ok fs => Ok (padding (u32 (vs_offset v - prevOffset)) ++ (Some (Identifier name), g) :: fs)
                    end
                end
            end
        | _ => Err FInvalid
        end
    end.
  (** btf/format.go:117-172 writeTypeLit, if the depth is permitted; [lit] and [field] are writeTypeLit and writeStructField at
      the next depth *)
  Definition writeLit (lit : ref -> res ferr gotype) (field : member -> res ferr (list gofield)) (typ : ref) : res ferr gotype :=
    match skipQualifiers typ with
    | None => Err FUnsupported
    | Some t =>
        match deref h t with
        | Some (NInt _ size enc) => writeIntLit size enc
        | Some (NEnum _ size sgn _) => writeEnumLit size sgn
        | Some (NTypedef _ t _) => writeType lit t
        | Some (NArray _ e n) => match writeType lit e with Ok g => Ok (GArray n g) | Err e => Err e end
        | Some (NStruct _ size ms _) => writeStructLit field size ms
        | Some (NUnion _ size ms _) => match ms with [] => Err FPanic | m :: _ => writeStructLit field size [m] end
        | Some (NDatasec _ size vs) => match writeVars lit size 0 vs with Ok fs => Ok (GStruct fs) | Err e => Err e end
        | Some (NVar _ t _ _) => lit t
        | _ => Err FUnsupported
        end
    end.
  (** writeTypeLit and writeStructField; [n] is maxResolveDepth - depth *)
  Fixpoint format (n : nat) : (ref -> res ferr gotype) * (member -> res ferr (list gofield)) :=
    match n with
    | O => let lit := fun _ => Err FTooDeep in (lit, writeStructField lit None)
    | S n' =>
        let lit := writeLit (fst (format n')) (snd (format n')) in
        (lit, writeStructField lit (Some (snd (format n'))))
    end.
  (** btf/format.go:30-36 TypeDeclaration and 61-88 writeTypeDecl: the declared type, and the constants of an enum *)
  Definition TypeDeclaration (name : str) (typ : ref) : res ferr (gotype * list (str * Z)) :=
    match name with
    | [] => Err FInvalid
    | _ =>
        match skipQualifiers typ with
        | None => Err FUnsupported
        | Some t =>
            match fst (format maxResolveDepth) t with
            | Err e => Err e
            | Ok g =>
                Ok (g, match deref h t with
                       | Some (NEnum _ _ sgn vs) => map (fun v => (name ++ Identifier (ev_name v), if sgn then i64 (ev_value v) else ev_value v)) vs
                       | _ => []
                       end)
            end
        end
    end.
End Format.
