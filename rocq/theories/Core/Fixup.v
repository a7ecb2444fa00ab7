(** Model of CO-RE fixups: applying them to instructions and choosing the best target (btf/core.go:22-354). *)
From Coq Require Import ZArith List Lia Bool String.
From Verif.Base Require Import GoInt.
From Verif.Asm Require Import Model.
Import ListNotations.
Open Scope Z_scope.

(** btf/core.go:23 *)
Definition COREBadRelocationSentinel := 0xbad2310.

(** btf/core.go:131-147 coreKind *)
Definition reloFieldByteOffset := 0.
Definition reloFieldByteSize := 1.
Definition reloFieldExists := 2.
Definition reloFieldSigned := 3.
Definition reloFieldLShiftU64 := 4.
Definition reloFieldRShiftU64 := 5.
Definition reloTypeIDLocal := 6.
Definition reloTypeIDTarget := 7.
Definition reloTypeExists := 8.
Definition reloTypeSize := 9.
Definition reloEnumvalExists := 10.
Definition reloEnumvalValue := 11.
Definition reloTypeMatches := 12.
(** btf/core.go:149-151 *)
Definition checksForExistence (k : Z) : bool :=
  (k =? reloEnumvalExists) || (k =? reloTypeExists) || (k =? reloFieldExists) || (k =? reloTypeMatches).

(** btf/core.go:26-36 COREFixup *)
Record fixup := mkFixup { f_kind : Z; f_local : Z; f_target : Z; f_poison : bool; f_skip : bool }.
(** btf/core.go:38-40 *)
Definition fixup_equal (f g : fixup) : bool := (f_local f =? f_local g) && (f_target f =? f_target g).
(** btf/core.go:126-128 *)
Definition isNonExistant (f : fixup) : bool := checksForExistence (f_kind f) && (f_target f =? 0).

(** btf/core.go:49-123 Apply, on Linux.  The comment attached as source to a poisoned instruction is not modelled;
    the replaced instruction has no other metadata: [*ins] is overwritten before [ins.Source()] is read.
    asm/instruction.go:343-345 IsConstantLoad *)
Definition IsConstantLoad (i : instr) (size : Z) : bool := (OpCode i =? LoadImmOp size) && (Src i =? R0) && (Offset i =? 0).
Inductive aerr := BadOffset | OffsetTooLarge | NotConstantLoad | BadImmediate | SwapReloc | NotImmediate | ImmediateTooLarge | BadClass.
Definition R10 := 10.
Definition apply_alu (f : fixup) (i : instr) : res aerr instr :=
  if negb (Source (OpCode i) =? ImmSource) then Err NotImmediate
  else if negb (f_skip f) && negb (i64 (f_local f) =? Constant i) then Err BadImmediate
  else if f_target f >? 2147483647 then Err ImmediateTooLarge
  else Ok (set_cons i (i64 (f_target f))).
Definition Apply (f : fixup) (i : instr) : res aerr instr :=
  if f_poison f then
    Ok (if IsDWordLoad (OpCode i) then LoadImm R10 COREBadRelocationSentinel DWord else Builtin_Call COREBadRelocationSentinel)
  else
    let class := Class (OpCode i) in
    if (class =? LdXClass) || (class =? StClass) || (class =? StXClass) then
      if negb (f_skip f) && negb (i16 (f_local f) =? Offset i) then Err BadOffset
      else if f_target f >? 32767 then Err OffsetTooLarge
      else Ok (set_off i (i16 (f_target f)))
    else if class =? LdClass then
      if negb (IsConstantLoad i DWord) then Err NotConstantLoad
      else if negb (f_skip f) && negb (i64 (f_local f) =? Constant i) then Err BadImmediate
      else Ok (set_cons i (i64 (f_target f)))
    else if class =? ALUClass then
      if ALUOp (OpCode i) =? Swap then Err SwapReloc else apply_alu f i
    else if class =? ALU64Class then apply_alu f i
    else Err BadClass.

(** ** Choosing a target: btf/core.go:300-354 coreCalculateFixups.
    Generic in the computation of one fixup ([None] is an error), in relocations and targets. *)
Inductive serr := Failed | Ambiguous.
Section Select.
  Variables relo target : Type.
  Variable kind_of : relo -> Z.
  Variable calc : relo -> target -> option fixup.

  Definition bad (f : fixup) : bool := f_poison f || isNonExistant f.
  Fixpoint fixups_for (relos : list relo) (t : target) : option (list fixup * Z) :=
    match relos with
    | [] => Some ([], 0)
    | r :: relos' =>
        match calc r t with
        | None => None
        | Some f =>
            match fixups_for relos' t with
            | None => None
            | Some (fs, s) => Some (f :: fs, (if bad f then 1 else 0) + s)
            end
        end
    end.
  (** the comparison with the best fixups so far; a nil slice has no elements *)
  Fixpoint agree (best fs : list fixup) : bool :=
    match best, fs with
    | f :: best', g :: fs' => fixup_equal f g && agree best' fs'
    | _, _ => true
    end.
  Fixpoint select (relos : list relo) (targets : list target) (bestScore : Z) (best : option (list fixup)) : res serr (option (list fixup)) :=
    match targets with
    | [] => Ok best
    | t :: targets' =>
        match fixups_for relos t with
        | None => Err Failed
        | Some (fs, score) =>
            if score >? bestScore then select relos targets' bestScore best
            else if score <? bestScore then select relos targets' score (Some fs)
            else match best with
                 | None => select relos targets' bestScore best
                 | Some b => if agree b fs then select relos targets' bestScore best else Err Ambiguous
                 end
        end
    end.
  Definition default_fixup (r : relo) : fixup :=
    if checksForExistence (kind_of r) then mkFixup (kind_of r) 1 0 false false else mkFixup (kind_of r) 0 0 true false.
  Definition coreCalculateFixups (relos : list relo) (targets : list target) : res serr (list fixup) :=
    match select relos targets (Z.of_nat (length relos)) None with
    | Err e => Err e
    | Ok None => Ok (map default_fixup relos)
    | Ok (Some fs) => Ok fs
    end.
End Select.
