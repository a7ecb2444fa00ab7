(** Model of the type comparisons of CO-RE: CheckTypeCompatibility and coreTypesMatch (btf/core.go:932-1266).

    Both functions are the same recursion over pairs of types with a shared map of visited pairs: strip qualifiers and
    typedefs, compare the two types ([pre]), stop if the pair was visited, mark it, then go through the parts of the
    types in order ([steps]) and return the first error.  [check] is this recursion, the two functions are instances. *)
From Coq Require Import ZArith List Lia Bool.
From Verif.Base Require Import GoInt.
From Verif.Btf Require Import Names Types.
Import ListNotations.
Open Scope Z_scope.

(** errIncompatibleTypes, or "unsupported type" *)
Inductive cerr := Incompatible | Unsupported.
Inductive step := Sub (a b : ref) | Fail (e : cerr).
Definition pair := (ref * ref)%type.
Definition pair_eq_dec (x y : pair) : {x = y} + {x <> y}.
Proof. decide equality; apply ref_eq_dec. Defined.
Definition pair_in (p : pair) (l : list pair) : bool := existsb (fun q => if pair_eq_dec p q then true else false) l.

Section Check.
  Variable h : heap.
  Variable pre : option ref -> option ref -> option cerr.
  Variable steps : ref -> ref -> list step.
  Fixpoint run_steps (chk : list pair -> ref -> ref -> option (res cerr (list pair))) (vis : list pair) (ss : list step) : option (res cerr (list pair)) :=
    match ss with
    | [] => Some (Ok vis)
    | Fail e :: _ => Some (Err e)
    | Sub a b :: ss' =>
        match chk vis a b with
        | None => None
        | Some (Err e) => Some (Err e)
        | Some (Ok vis) => run_steps chk vis ss'
        end
    end.
  (** [fuel] bounds the depth of the recursion, [None] is lack of fuel.  [UnderlyingType] is [None] for the
      placeholder of a type nested too deeply, which is unsupported if it gets past [pre]. *)
  Fixpoint check (fuel : nat) (vis : list pair) (l t : ref) : option (res cerr (list pair)) :=
    match fuel with
    | O => None
    | S f =>
        let l' := UnderlyingType h l in
        let t' := UnderlyingType h t in
        match pre l' t' with
        | Some e => Some (Err e)
        | None =>
            match l', t' with
            | Some a, Some b => if pair_in (a, b) vis then Some (Ok vis) else run_steps (check f) ((a, b) :: vis) (steps a b)
            | _, _ => Some (Err Unsupported)
            end
        end
    end.
End Check.
Definition compat_fuel (h : heap) : nat := (length h * length h + 2)%nat.

(** reflect.TypeOf *)
Definition dyn (h : heap) (r : option ref) : Z :=
  match r with
  | None => 100
  | Some RVoid => 0
  | Some RNil => -1
  | Some (RPtr a) =>
      match nth_error h a with
      | None => -1
      | Some n =>
          match n with
          | NInt _ _ _ => 1 | NPtr _ => 2 | NArray _ _ _ => 3 | NStruct _ _ _ _ => 4 | NUnion _ _ _ _ => 5 | NEnum _ _ _ _ => 6
          | NFwd _ _ => 7 | NTypedef _ _ _ => 8 | NVolatile _ => 9 | NConst _ => 10 | NRestrict _ => 11 | NFunc _ _ _ _ _ => 12
          | NFuncProto _ _ => 13 | NVar _ _ _ _ => 14 | NDatasec _ _ _ => 15 | NFloat _ _ => 16 | NDeclTag _ _ _ => 17 | NTypeTag _ _ => 18
          | NCycle _ => 100
          end
      end
  end.

(** btf/core.go:963-1017 coreAreTypesCompatible.  In the model a nil type is unsupported. *)
Definition compat_pre (h : heap) (l t : option ref) : option cerr := if dyn h l =? dyn h t then None else Some Incompatible.
Fixpoint sub_params (ps qs : list fparam) : list step :=
  match ps, qs with
  | p :: ps', q :: qs' => Sub (p_type p) (p_type q) :: sub_params ps' qs'
  | _, _ => []
  end.
Definition compat_steps (h : heap) (l t : ref) : list step :=
  match l with
  | RVoid => []
  | _ =>
      match deref h l, deref h t with
      | Some (NStruct _ _ _ _), _ | Some (NUnion _ _ _ _), _ | Some (NEnum _ _ _ _), _ | Some (NFwd _ _), _ | Some (NInt _ _ _), _ => []
      | Some (NPtr x), Some (NPtr y) => [Sub x y]
      | Some (NArray i e _), Some (NArray i' e' _) => [Sub i i'; Sub e e']
      | Some (NFuncProto r ps), Some (NFuncProto r' qs) =>
          Sub r r' :: (if (length ps =? length qs)%nat then sub_params ps qs else [Fail Incompatible])
      | _, _ => [Fail Unsupported]
      end
  end.
(** btf/core.go:932-934 CheckTypeCompatibility *)
Definition CheckTypeCompatibility (h : heap) (l t : ref) : option (res cerr unit) :=
  match check h (compat_pre h) (compat_steps h) (compat_fuel h) [] l t with
  | None => None
  | Some (Err e) => Some (Err e)
  | Some (Ok _) => Some (Ok tt)
  end.

(** btf/core.go:1087-1094 coreEssentialNamesMatch *)
Definition str_eqb (a b : str) : bool := if list_eq_dec Z.eq_dec a b then true else false.
Definition coreEssentialNamesMatch (a b : str) : bool :=
  match a, b with
  | [], _ | _, [] => true
  | _, _ => str_eqb (newEssentialName a) (newEssentialName b)
  end.
(** TypeName of a stripped type *)
Definition name_of (h : heap) (r : option ref) : str :=
  match r with
  | Some r => match deref h r with Some n => type_name n | None => [] end
  | None => []
  end.
(** btf/types.go:383-393 Fwd.matches; FwdStruct is 0, FwdUnion is 1 (types.go:350-353) *)
Definition fwd_matches (h : heap) (kind : Z) (typ : ref) : bool :=
  match UnderlyingType h typ with
  | Some r => match deref h r with
              | Some (NStruct _ _ _ _) => kind =? 0
              | Some (NUnion _ _ _ _) => kind =? 1
              | _ => false
              end
  | None => false
  end.
(** As[*Fwd](typ) *)
Definition as_fwd (h : heap) (typ : ref) : option Z :=
  match UnderlyingType h typ with
  | Some r => match deref h r with Some (NFwd _ k) => Some k | _ => None end
  | None => None
  end.
(** btf/core.go:1234-1236 coreEncodingMatches; Signed is 1 (types.go:97) *)
Definition coreEncodingMatches (s e s' e' : Z) : bool := (s =? s') && Bool.eqb (e =? 1) (e' =? 1).
(** btf/core.go:1241-1266 coreEnumsMatch *)
Definition enum_steps (s : Z) (vs : list enumvalue) (s' : Z) (ws : list enumvalue) : list step :=
  if negb (s =? s') then [Fail Incompatible]
  else if (length ws <? length vs)%nat then [Fail Incompatible]
  else if forallb (fun v => existsb (fun w => coreEssentialNamesMatch (ev_name v) (ev_name w)) ws) vs then [] else [Fail Incompatible].
(** the map of members by name: a later member replaces an earlier one of the same name *)
Fixpoint last_member (name : str) (ms : list member) : option member :=
  match ms with
  | [] => None
  | m :: ms' => match last_member name ms' with
                | Some m' => Some m'
                | None => if str_eqb (m_name m) name then Some m else None
                end
  end.
Definition member_steps (ms ns : list member) : list step :=
  if (length ns <? length ms)%nat then [Fail Incompatible]
  else map (fun m => match last_member (m_name m) ns with
                     | None => Fail Incompatible
                     | Some n => Sub (m_type m) (m_type n)
                     end) ms.
(** btf/core.go:1125-1230 coreTypesMatch *)
Definition match_pre (h : heap) (l t : option ref) : option cerr :=
  if negb (coreEssentialNamesMatch (name_of h l) (name_of h t)) then Some Incompatible
  else if dyn h l =? dyn h t then None else Some Incompatible.
Definition ptr_steps (h : heap) (x y : ref) : list step :=
  if match as_fwd h x with Some k => fwd_matches h k y | None => false end then []
  else if match as_fwd h y with Some k => fwd_matches h k x | None => false end then []
  else [Sub x y].
Definition match_steps (h : heap) (l t : ref) : list step :=
  match l with
  | RVoid => []
  | _ =>
      match deref h l, deref h t with
      | Some (NFwd _ k), Some (NFwd _ k') => if k =? k' then [] else [Fail Incompatible]
      | Some (NEnum _ s _ vs), Some (NEnum _ s' _ ws) => enum_steps s vs s' ws
      | Some (NStruct _ _ ms _), Some (NStruct _ _ ns _) | Some (NUnion _ _ ms _), Some (NUnion _ _ ns _) => member_steps ms ns
      | Some (NInt _ s e), Some (NInt _ s' e') => if coreEncodingMatches s e s' e' then [] else [Fail Incompatible]
      | Some (NPtr x), Some (NPtr y) => ptr_steps h x y
      | Some (NArray _ e n), Some (NArray _ e' n') => if n =? n' then [Sub e e'] else [Fail Incompatible]
      | Some (NFuncProto r ps), Some (NFuncProto r' qs) =>
          if (length ps =? length qs)%nat then sub_params ps qs ++ [Sub r r'] else [Fail Incompatible]
      | _, _ => [Fail Unsupported]
      end
  end.
Definition coreTypesMatch (h : heap) (l t : ref) : option (res cerr unit) :=
  match check h (match_pre h) (match_steps h) (compat_fuel h) [] l t with
  | None => None
  | Some (Err e) => Some (Err e)
  | Some (Ok _) => Some (Ok tt)
  end.
