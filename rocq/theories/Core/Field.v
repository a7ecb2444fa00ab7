(** Model of field relocations: btf/core.go:359-545 coreCalculateFixup, 612-929 coreField, coreFindField, coreFindMember,
    coreFindEnumValue, 1044-1081 coreAreMembersCompatible; btf/types.go:744-763 alignof. *)
From Coq Require Import ZArith List Lia Bool.
From Verif.Base Require Import GoInt.
From Verif.Internal Require Import Math.
From Verif.Btf Require Import Names Types.
From Verif.Core Require Import Fixup Compat.
Import ListNotations.
Open Scope Z_scope.

(** errImpossibleRelocation, or any other error *)
Inductive ferr := Impossible | Other.

(** btf/types.go:744-763 alignof.  The recursion on arrays has no limit, [fuel] bounds its depth: [None] is lack of fuel. *)
Definition int64 := mkIty 64 true.
Fixpoint alignof (fuel : nat) (h : heap) (typ : ref) : option (res ferr Z) :=
  match fuel with
  | O => None
  | S f =>
      match UnderlyingType h typ with
      | None => Some (Err Other)
      | Some r =>
          match deref h r with
          | Some (NEnum _ n _ _) | Some (NInt _ n _) => Some (if IsPow int64 n then Ok n else Err Other)
          | Some (NArray _ e _) => alignof f h e
          | _ => Some (Err Other)
          end
      end
  end.

(** btf/core.go:636-649 coreField *)
Record field := mkField { cf_type : ref; cf_offset : Z; cf_bfoff : Z; cf_bfsize : Z }.
Definition Bytes (b : Z) : Z := b / 8. (* btf/types.go:299-301 *)
(** btf/core.go:651-663 adjustOffsetToNthElement *)
Definition adjustOffsetToNthElement (h : heap) (cf : field) (n : Z) : res ferr field :=
  if n =? 0 then Ok cf
  else match Sizeof h (cf_type cf) with
       | Err _ => Err Other
       | Ok size => Ok (mkField (cf_type cf) (u32 (cf_offset cf + u32 (u32 n * u32 size))) (cf_bfoff cf) (cf_bfsize cf))
       end.
(** btf/core.go:665-686 adjustOffsetBits *)
Definition adjustOffsetBits (fuel : nat) (h : heap) (cf : field) (offset : Z) : option (res ferr field) :=
  match alignof fuel h (cf_type cf) with
  | None => None
  | Some (Err e) => Some (Err e)
  | Some (Ok align) =>
      let offsetBytes := u32 (Bytes offset / u32 align * u32 align) in
      Some (Ok (mkField (cf_type cf) (u32 (cf_offset cf + offsetBytes)) (u32 (offset - u32 (offsetBytes * 8))) (cf_bfsize cf)))
  end.
(** btf/core.go:688-701 sizeBits *)
Definition sizeBits (h : heap) (cf : field) : res ferr Z :=
  if cf_bfsize cf >? 0 then Ok (cf_bfsize cf)
  else match Sizeof h (cf_type cf) with
       | Err _ => Err Other
       | Ok size => Ok (u32 (size * 8))
       end.

(** a type implementing composite, after stripping: As[composite] *)
Definition members_of (h : heap) (r : ref) : option (list member) :=
  match deref h r with
  | Some (NStruct _ _ ms _) | Some (NUnion _ _ ms _) => Some ms
  | _ => None
  end.
Definition as_composite (h : heap) (typ : ref) : option (ref * list member) :=
  match UnderlyingType h typ with
  | None => None
  | Some r => match members_of h r with Some ms => Some (r, ms) | None => None end
  end.

(** btf/core.go:852-903 coreFindMember.  One composite: the result, an error, or the anonymous composites to visit later. *)
Inductive scanned := Found (m : member) (last : bool) | BadAnonymous | More (l : list (ref * Z)).
Definition is_nil {A} (l : list A) : bool := match l with [] => true | _ => false end.
Fixpoint scan (h : heap) (ms : list member) (name : str) (off : Z) : scanned :=
  match ms with
  | [] => More []
  | m :: ms' =>
      if str_eqb (m_name m) name then Found (mkMember (m_name m) (m_type m) (u32 (m_offset m + off)) (m_bits m) (m_tags m)) (is_nil ms')
      else if negb (is_nil (m_name m)) then scan h ms' name off
      else match as_composite h (m_type m) with
           | None => BadAnonymous
           | Some (c, _) => match scan h ms' name off with
                            | More l => More ((c, u32 (off + m_offset m)) :: l)
                            | r => r
                            end
           end
  end.
Definition target_eq_dec (x y : ref * Z) : {x = y} + {x <> y}.
Proof. decide equality; [apply Z.eq_dec|apply ref_eq_dec]. Defined.
Definition was_visited (x : ref * Z) (l : list (ref * Z)) : bool := existsb (fun y => if target_eq_dec x y then true else false) l.
(** the next entry of the queue that wasn't visited *)
Fixpoint next_target (vis queue : list (ref * Z)) : option (ref * Z * list (ref * Z)) :=
  match queue with
  | [] => None
  | t :: q => if was_visited t vis then next_target vis q else Some (t, q)
  end.
(** [left]: how many more composites may be visited *)
Fixpoint find_loop (left : nat) (h : heap) (name : str) (vis queue : list (ref * Z)) : res ferr (member * bool) :=
  match next_target vis queue with
  | None => Err Impossible
  | Some (t, q) =>
      match left with
      | O => Err Other
      | S left' =>
          match members_of h (fst t) with
          | None => Err Other (* not a composite: excluded by the types *)
          | Some ms => match scan h ms name (snd t) with
                       | Found m last => Ok (m, last)
                       | BadAnonymous => Err Other
                       | More l => find_loop left' h name (t :: vis) (q ++ l)
                       end
          end
      end
  end.
Definition coreFindMember (h : heap) (typ : ref) (name : str) : res ferr (member * bool) :=
  if is_nil name then Err Other else find_loop maxResolveDepth h name [] [(typ, 0)].

(** btf/core.go:1044-1081 coreAreMembersCompatible; a type nested too deeply is of kind *cycle *)
Definition coreAreMembersCompatible (h : heap) (l t : ref) : res ferr unit :=
  match as_composite h l, as_composite h t with
  | Some _, Some _ => Ok tt
  | _, _ =>
      let l' := UnderlyingType h l in
      let t' := UnderlyingType h t in
      if negb (dyn h l' =? dyn h t') then Err Impossible
      else match l', t' with
           | Some a, Some b =>
               match deref h a, deref h b with
               | Some (NArray _ _ _), _ | Some (NPtr _), _ | Some (NFloat _ _), _ | Some (NInt _ _ _), _ => Ok tt
               | Some (NEnum n _ _ _), Some (NEnum n' _ _ _) => if coreEssentialNamesMatch n n' then Ok tt else Err Impossible
               | Some (NFwd n _), Some (NFwd n' _) => if coreEssentialNamesMatch n n' then Ok tt else Err Impossible
               | _, _ => Err Other
               end
           | _, _ => Err Other
           end
  end.

(** btf/core.go:708-848 coreFindField: the loop over the accessor.  A negative accessor index can't occur. *)
Definition nth_z {A} (l : list A) (i : Z) : option A := if i <? 0 then None else nth_error l (Z.to_nat i).
Fixpoint field_loop (fuel : nat) (h : heap) (accs : list Z) (local target : field) (lflex tflex : bool) : option (res ferr (field * field)) :=
  match accs with
  | [] => Some (Ok (local, target))
  | acc :: rest =>
      let continue local target lflex tflex :=
        match coreAreMembersCompatible h (cf_type local) (cf_type target) with
        | Err e => Some (Err e)
        | Ok _ => field_loop fuel h rest local target lflex tflex
        end in
      match UnderlyingType h (cf_type local) with
      | None => Some (Err Other)
      | Some lr =>
          match deref h lr with
          | Some (NStruct _ _ lms _) | Some (NUnion _ _ lms _) =>
              match nth_z lms acc with
              | None => Some (Err Other)
              | Some lm =>
                  if is_nil (m_name lm) then
                    match as_composite h (m_type lm) with
                    | None => Some (Err Other)
                    | Some (c, _) => field_loop fuel h rest (mkField c (u32 (cf_offset local + Bytes (m_offset lm))) 0 0) target false tflex
                    end
                  else
                    match as_composite h (cf_type target) with
                    | None => Some (Err Impossible)
                    | Some (tc, _) =>
                        match coreFindMember h tc (m_name lm) with
                        | Err e => Some (Err e)
                        | Ok (tm, last) =>
                            let lflex := acc =? Z.of_nat (length lms) - 1 in
                            if (m_bits lm =? 0) && (m_bits tm =? 0) then
                              continue (mkField (m_type lm) (u32 (cf_offset local + Bytes (m_offset lm))) 0 0)
                                       (mkField (m_type tm) (u32 (cf_offset target + Bytes (m_offset tm))) 0 0) lflex last
                            else if negb (is_nil rest) then Some (Err Other)
                            else match adjustOffsetBits fuel h (mkField (m_type lm) (cf_offset local) 0 (m_bits lm)) (m_offset lm) with
                                 | None => None
                                 | Some (Err e) => Some (Err e)
                                 | Some (Ok local) =>
                                     match adjustOffsetBits fuel h (mkField (m_type tm) (cf_offset target) 0 (m_bits tm)) (m_offset tm) with
                                     | None => None
                                     | Some (Err e) => Some (Err e)
                                     | Some (Ok target) => continue local target lflex last
                                     end
                                 end
                        end
                    end
              end
          | Some (NArray _ le ln) =>
              match match UnderlyingType h (cf_type target) with Some r => deref h r | None => None end with
              | Some (NArray _ te tn) =>
                  if (ln =? 0) && negb lflex then Some (Err Other)
                  else if (tn =? 0) && negb tflex then Some (Err Other)
                  else if (ln >? 0) && (acc >=? ln) then Some (Err Other)
                  else if (tn >? 0) && (acc >=? tn) then Some (Err Impossible)
                  else match adjustOffsetToNthElement h (mkField le (cf_offset local) 0 0) acc with
                       | Err e => Some (Err e)
                       | Ok local =>
                           match adjustOffsetToNthElement h (mkField te (cf_offset target) 0 0) acc with
                           | Err e => Some (Err e)
                           | Ok target => continue local target false false
                           end
                       end
              | _ => Some (Err Impossible)
              end
          | _ => Some (Err Other)
          end
      end
  end.
Definition coreFindField (fuel : nat) (h : heap) (localT : ref) (localAcc : list Z) (targetT : ref) : option (res ferr (field * field)) :=
  match localAcc with
  | [] => Some (Err Other) (* index out of range: accessors aren't empty, C43_nonempty *)
  | a0 :: accs =>
      match coreAreMembersCompatible h localT targetT with
      | Err e => Some (Err e)
      | Ok _ =>
          match adjustOffsetToNthElement h (mkField localT 0 0 0) a0 with
          | Err e => Some (Err e)
          | Ok local =>
              match adjustOffsetToNthElement h (mkField targetT 0 0 0) a0 with
              | Err e => Some (Err e)
              | Ok target => field_loop fuel h accs local target false false
              end
          end
      end
  end.

(** btf/core.go:612-628 enumValue and 906-929 coreFindEnumValue *)
Definition as_enum (h : heap) (typ : ref) : option (str * Z * bool * list enumvalue) :=
  match UnderlyingType h typ with
  | Some r => match deref h r with Some (NEnum n s g vs) => Some (n, s, g, vs) | _ => None end
  | None => None
  end.
Definition coreFindEnumValue (h : heap) (local : ref) (acc : list Z) (target : ref) : res ferr (enumvalue * enumvalue) :=
  match as_enum h local with
  | None => Err Other
  | Some (_, _, _, lvs) =>
      match acc with
      | [i] =>
          match nth_z lvs i with
          | None => Err Other
          | Some lv =>
              match as_enum h target with
              | None => Err Impossible
              | Some (_, _, _, tvs) =>
                  match find (fun tv => str_eqb (newEssentialName (ev_name tv)) (newEssentialName (ev_name lv))) tvs with
                  | None => Err Impossible
                  | Some tv => Ok (lv, tv)
                  end
              end
          end
      | _ => Err Other
      end
  end.

(** btf/ext_info.go:680-687 CORERelocation *)
Record relo := mkRelo { r_type : ref; r_acc : list Z; r_kind : Z; r_id : Z }.
(** btf/core.go:359-545 coreCalculateFixup.  [little]: the byte order; [resolve] is resolveTargetTypeID, with
    [Err Impossible] for ErrNotFound.  [None] if alignof or the comparison of types doesn't terminate (the latter can't
    happen: C42_terminates, C55_terminates). *)
Definition fix_up (r : relo) (l t : Z) : res ferr fixup := Ok (mkFixup (r_kind r) l t false false).
Definition fix_without (r : relo) (l t : Z) : res ferr fixup := Ok (mkFixup (r_kind r) l t false true).
Definition poison (r : relo) : res ferr fixup :=
  if checksForExistence (r_kind r) then fix_up r 1 0 else Ok (mkFixup (r_kind r) 0 0 true false).
Definition maybe_skip (lf : field) (f : res ferr fixup) : res ferr fixup :=
  match f with Ok f => Ok (mkFixup (f_kind f) (f_local f) (f_target f) (f_poison f) (cf_bfsize lf >? 0)) | e => e end.
Definition boolToUint64 (b : bool) : Z := if b then 1 else 0.
Definition calc_field (h : heap) (little : bool) (r : relo) (lf tf : field) : res ferr fixup :=
  let k := r_kind r in
  if k =? reloFieldExists then fix_up r 1 1
  else if k =? reloFieldByteOffset then maybe_skip lf (fix_up r (cf_offset lf) (cf_offset tf))
  else if k =? reloFieldByteSize then
    match Sizeof h (cf_type lf) with
    | Err _ => Err Other
    | Ok ls => match Sizeof h (cf_type tf) with
               | Err _ => Err Other
               | Ok ts => maybe_skip lf (fix_up r (u64 ls) (u64 ts))
               end
    end
  else if k =? reloFieldLShiftU64 then
    if little then match sizeBits h tf with
                   | Err e => Err e
                   | Ok s => fix_without r 0 (u32 (64 - cf_bfoff tf - s))
                   end
    else match Sizeof h (cf_type tf) with
         | Err _ => Err Other
         | Ok w => fix_without r 0 (u32 (u32 (64 - u32 (w * 8)) + cf_bfoff tf))
         end
  else if k =? reloFieldRShiftU64 then
    match sizeBits h tf with
    | Err e => Err e
    | Ok s => fix_without r 0 (u32 (64 - s))
    end
  else (* reloFieldSigned *)
    match UnderlyingType h (cf_type lf) with
    | None => Err Other
    | Some lr =>
        match deref h lr with
        | Some (NEnum _ _ g _) =>
            match as_enum h (cf_type tf) with
            | Some (_, _, g', _) => fix_up r (boolToUint64 g) (boolToUint64 g')
            | None => Err Other
            end
        | Some (NInt _ _ e) =>
            match UnderlyingType h (cf_type tf) with
            | Some tr => match deref h tr with
                         | Some (NInt _ _ e') => fix_up r (Z.land e 1) (Z.land e' 1)
                         | _ => Err Other
                         end
            | None => Err Other
            end
        | _ => Err Other
        end
    end.
Definition bad_accessor (r : relo) : bool := match r_acc r with [0] => false | _ => true end.
Definition coreCalculateFixup (fuel : nat) (h : heap) (little : bool) (resolve : ref -> res ferr Z) (r : relo) (target : ref) : option (res ferr fixup) :=
  let k := r_kind r in
  if k =? reloTypeMatches then
    if bad_accessor r then Some (Err Other)
    else match coreTypesMatch h (r_type r) target with
         | None => None
         | Some (Err Incompatible) => Some (poison r)
         | Some (Err Unsupported) => Some (Err Other)
         | Some (Ok _) => Some (fix_up r 1 1)
         end
  else if (k =? reloTypeIDTarget) || (k =? reloTypeSize) || (k =? reloTypeExists) then
    if bad_accessor r then Some (Err Other)
    else match CheckTypeCompatibility h (r_type r) target with
         | None => None
         | Some (Err Incompatible) => Some (poison r)
         | Some (Err Unsupported) => Some (Err Other)
         | Some (Ok _) =>
             Some (if k =? reloTypeExists then fix_up r 1 1
                   else if k =? reloTypeIDTarget then
                     match resolve target with
                     | Err Impossible => poison r
                     | Err Other => Err Other
                     | Ok id => fix_up r (r_id r) id
                     end
                   else match Sizeof h (r_type r) with
                        | Err _ => Err Other
                        | Ok ls => match Sizeof h target with
                                   | Err _ => Err Other
                                   | Ok ts => fix_up r (u64 ls) (u64 ts)
                                   end
                        end)
         end
  else if (k =? reloEnumvalValue) || (k =? reloEnumvalExists) then
    Some (match coreFindEnumValue h (r_type r) (r_acc r) target with
          | Err Impossible => poison r
          | Err Other => Err Other
          | Ok (lv, tv) => if k =? reloEnumvalExists then fix_up r 1 1 else fix_up r (ev_value lv) (ev_value tv)
          end)
  else if (k =? reloFieldByteOffset) || (k =? reloFieldByteSize) || (k =? reloFieldExists) || (k =? reloFieldLShiftU64) || (k =? reloFieldRShiftU64) || (k =? reloFieldSigned) then
    match as_fwd h target with
    | Some _ => Some (poison r)
    | None =>
        match coreFindField fuel h (r_type r) (r_acc r) target with
        | None => None
        | Some (Err Impossible) => Some (poison r)
        | Some (Err Other) => Some (Err Other)
        | Some (Ok (lf, tf)) => Some (calc_field h little r lf tf)
        end
    end
  else Some (Err Other).
