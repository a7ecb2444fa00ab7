(** Model of btf/dedup.go: the deduper used by a Builder with BuilderOptions.Deduplicate. *)
From Coq Require Import ZArith List Lia Bool.
From Verif.Base Require Import GoInt.
From Verif.Btf Require Import Types.
Import ListNotations.
Open Scope Z_scope.

(** the errors: "types are not equivalent" (internal), and a type which is not supported *)
Inductive derr := NotEquivalent | Unsupported.

(** what is written to a hash: numbers, strings, hashes of other types *)
Inductive wr := WZ (z : Z) | WS (s : str) | WH (hash : Z).

(** btf/dedup.go:20-32 deduper.  The seed selects the hash function, see below.  A map is an association list, its newest
    entry first. *)
Record dedup := mkDedup {
  dd_heap : heap;
  dd_visited : list ref;
  dd_hashCache : list ((ref * Z) * Z);
  dd_done : list (ref * ref);
  dd_hashed : list (Z * ref);      (* in order of insertion; the types of a hash value keep that order *)
  dd_eqCache : list ((ref * ref) * bool) }.
(** btf/dedup.go:34-43 newDeduper *)
Definition newDeduper (h : heap) : dedup := mkDedup h [] [] [] [] [].
Definition with_dheap (d : dedup) (h : heap) : dedup := mkDedup h (dd_visited d) (dd_hashCache d) (dd_done d) (dd_hashed d) (dd_eqCache d).
Definition with_visited (d : dedup) (v : list ref) : dedup := mkDedup (dd_heap d) v (dd_hashCache d) (dd_done d) (dd_hashed d) (dd_eqCache d).
Definition with_hashCache (d : dedup) (c : list ((ref * Z) * Z)) : dedup := mkDedup (dd_heap d) (dd_visited d) c (dd_done d) (dd_hashed d) (dd_eqCache d).
Definition with_done (d : dedup) (l : list (ref * ref)) : dedup := mkDedup (dd_heap d) (dd_visited d) (dd_hashCache d) l (dd_hashed d) (dd_eqCache d).
Definition with_hashed (d : dedup) (l : list (Z * ref)) : dedup := mkDedup (dd_heap d) (dd_visited d) (dd_hashCache d) (dd_done d) l (dd_eqCache d).
Definition with_eqCache (d : dedup) (l : list ((ref * ref) * bool)) : dedup := mkDedup (dd_heap d) (dd_visited d) (dd_hashCache d) (dd_done d) (dd_hashed d) l.

Fixpoint find_done (m : list (ref * ref)) (t : ref) : option ref :=
  match m with [] => None | (k, v) :: m' => if ref_eq_dec k t then Some v else find_done m' t end.
Fixpoint find_eq (m : list ((ref * ref) * bool)) (a b : ref) : option bool :=
  match m with
  | [] => None
  | ((x, y), v) :: m' => if ref_eq_dec x a then if ref_eq_dec y b then Some v else find_eq m' a b else find_eq m' a b
  end.
Fixpoint find_hash (m : list ((ref * Z) * Z)) (t : ref) (budget : Z) : option Z :=
  match m with
  | [] => None
  | ((x, y), v) :: m' => if ref_eq_dec x t then if y =? budget then Some v else find_hash m' t budget else find_hash m' t budget
  end.

(** ** Hashing *)
(** what the hash of a type consists of: values, hashes of other types; [HAgain r] computes the hash of [r] and writes the
    previous hash again (the element type of an array, btf/dedup.go:167-171) *)
Inductive hstep := HW (w : wr) | HSub (r : ref) | HAgain (r : ref).
Definition hash_steps (n : node) : option (list hstep) :=
  let num z := HW (WZ z) in
  let text s := HW (WS s) in
  let member m := [text (m_name m); num (m_offset m); HSub (m_type m)] in
  match n with
  | NInt s z e => Some [num 1; text s; num z; num e]
  | NPtr t => Some [num 2; HSub t]
  | NArray i e k => Some [num 3; num k; HSub i; HAgain e]
  | NStruct s z ms _ => Some ([num 4; text s; num z; num (Z.of_nat (length ms))] ++ flat_map member ms)
  | NUnion s z ms _ => Some ([num 5; text s; num z; num (Z.of_nat (length ms))] ++ flat_map member ms)
  | NEnum s z sgn vs => Some ([num 6; text s; num z; num (if sgn then 1 else 0)] ++ flat_map (fun v => [text (ev_name v); num (ev_value v)]) vs)
  | NFwd s k => Some [num 7; text s; num k]
  | NTypedef s t _ => Some [num 8; text s; HSub t]
  | NVolatile t => Some [num 9; HSub t]
  | NConst t => Some [num 10; HSub t]
  | NRestrict t => Some [num 11; HSub t]
  | NFunc s t _ _ _ => Some [num 12; text s; HSub t]
  | NFuncProto ret ps => Some ([num 13] ++ flat_map (fun p => [text (p_name p); HSub (p_type p)]) ps ++ [HSub ret])
  | NVar s t l _ => Some [num 14; text s; num l; HSub t]
  | NDatasec s _ vs => Some ([num 15; text s] ++ flat_map (fun v => [num (vs_offset v); num (vs_size v); HSub (vs_type v)]) vs)
  | NFloat s z => Some [num 16; text s; num z]
  | NDeclTag t v i => Some [num 17; text v; num i; HSub t]
  | NTypeTag t v => Some [num 18; text v; HSub t]
  | NCycle _ => None
  end.
(** the depth budget for the children *)
Definition child_budget (h : heap) (n : node) (budget : Z) : Z :=
  match n with
  | NPtr t =>
      let budget := if budget >? 0 then budget - 1 else budget in
      if budget <? 0 then match deref h t with Some (NPtr _) => 2 | _ => 1 end else budget
  | NFuncProto _ _ => if budget >=? 0 then budget + 1 else budget
  | _ => budget
  end.
Definition composite (n : node) : bool := match n with NStruct _ _ _ _ | NUnion _ _ _ _ => true | _ => false end.

Section Hash.
  (** maphash with the deduper's seed: some function of what is written *)
  Variable sum : list wr -> Z.

  Fixpoint run_hash (hash : list ((ref * Z) * Z) -> ref -> Z -> option (list ((ref * Z) * Z) * res derr Z)) (budget : Z)
           (c : list ((ref * Z) * Z)) (last : Z) (steps : list hstep) : option (list ((ref * Z) * Z) * res derr (list wr)) :=
    match steps with
    | [] => Some (c, Ok [])
    | HW w :: steps' =>
        match run_hash hash budget c last steps' with
        | Some (c, Ok ws) => Some (c, Ok (w :: ws))
        | r => r
        end
    | HSub r :: steps' =>
        match hash c r budget with
        | None => None
        | Some (c, Err e) => Some (c, Err e)
        | Some (c, Ok sub) =>
            match run_hash hash budget c sub steps' with
            | Some (c, Ok ws) => Some (c, Ok (WH sub :: ws))
            | r => r
            end
        end
    | HAgain r :: steps' =>
        match hash c r budget with
        | None => None
        | Some (c, Err e) => Some (c, Err e)
        | Some (c, Ok _) =>
            match run_hash hash budget c last steps' with
            | Some (c, Ok ws) => Some (c, Ok (WH last :: ws))
            | r => r
            end
        end
    end.
  (** btf/dedup.go:121-353 hash.  [None]: the recursion is deeper than [fuel]. *)
  Fixpoint hash (fuel : nat) (h : heap) (c : list ((ref * Z) * Z)) (t : ref) (budget : Z) : option (list ((ref * Z) * Z) * res derr Z) :=
    match fuel with
    | O => None
    | S f =>
        if budget =? 0 then Some (c, Ok 0)
        else match t with
        | RVoid => Some (c, Ok (sum [WZ 0]))
        | _ =>
            match deref h t with
            | None => Some (c, Err Unsupported)
            | Some n =>
                match (if composite n then find_hash c t budget else None) with
                | Some cached => Some (c, Ok cached)
                | None =>
                    match hash_steps n with
                    | None => Some (c, Err Unsupported)
                    | Some steps =>
                        match run_hash (hash f h) (child_budget h n budget) c 0 steps with
                        | None => None
                        | Some (c, Err e) => Some (c, Err e)
                        | Some (c, Ok ws) => Some (if composite n then ((t, budget), sum ws) :: c else c, Ok (sum ws))
                        end
                    end
                end
            end
        end
    end.

  (** ** Equivalence *)
  (** the comparisons of two types, in order: a condition, or a comparison of two further types *)
  Inductive estep := EIs (b : bool) | EPair (a b : ref).
  Definition str_eq (a b : str) : bool := if list_eq_dec Z.eq_dec a b then true else false.
  Fixpoint zip {A} (f : A -> A -> list estep) (a b : list A) : list estep :=
    match a, b with x :: a', y :: b' => f x y ++ zip f a' b' | _, _ => [] end.
  (** btf/dedup.go:358-590 typesEquivalent and 594-633 compositeEquivalent, without the pointers' cycle check and the cache *)
  Definition eq_steps (a b : node) : list estep :=
    let lens {A} (x y : list A) := EIs (Nat.eqb (length x) (length y)) in
    let members := zip (fun x y => [EIs (str_eq (m_name x) (m_name y) && (m_offset x =? m_offset y)); EPair (m_type x) (m_type y)]) in
    match a, b with
    | NInt s z e, NInt s' z' e' => [EIs (str_eq s s' && (z =? z') && (e =? e'))]
    | NEnum s _ _ vs, NEnum s' _ _ vs' => [EIs (str_eq s s'); lens vs vs'] ++ zip (fun x y => [EIs (str_eq (ev_name x) (ev_name y) && (ev_value x =? ev_value y))]) vs vs'
    | NFwd s k, NFwd s' k' => [EIs (str_eq s s' && (k =? k'))]
    | NFloat s z, NFloat s' z' => [EIs (str_eq s s' && (z =? z'))]
    | NArray i e k, NArray i' e' k' => [EIs (k =? k'); EPair i i'; EPair e e']
    | NPtr t, NPtr t' => [EPair t t']
    | NStruct s z ms _, NStruct s' z' ms' _ => [EIs (str_eq s s' && (z =? z')); lens ms ms'] ++ members ms ms'
    | NUnion s z ms _, NUnion s' z' ms' _ => [EIs (str_eq s s' && (z =? z')); lens ms ms'] ++ members ms ms'
    | NTypedef s t _, NTypedef s' t' _ => [EIs (str_eq s s'); EPair t t']
    | NVolatile t, NVolatile t' => [EPair t t']
    | NConst t, NConst t' => [EPair t t']
    | NRestrict t, NRestrict t' => [EPair t t']
    | NFunc s t _ _ _, NFunc s' t' _ _ _ => [EIs (str_eq s s'); EPair t t']
    | NFuncProto r ps, NFuncProto r' ps' => [EPair r r'; lens ps ps'] ++ zip (fun x y => [EIs (str_eq (p_name x) (p_name y)); EPair (p_type x) (p_type y)]) ps ps'
    | NVar s t l _, NVar s' t' l' _ => [EIs (str_eq s s'); EPair t t'; EIs (l =? l')]
    | NDatasec s _ vs, NDatasec s' _ vs' => [EIs (str_eq s s'); lens vs vs'] ++ zip (fun x y => [EIs ((vs_offset x =? vs_offset y) && (vs_size x =? vs_size y)); EPair (vs_type x) (vs_type y)]) vs vs'
    | NDeclTag t v i, NDeclTag t' v' i' => [EIs (str_eq v v' && (i =? i')); EPair t t']
    | NTypeTag t v, NTypeTag t' v' => [EIs (str_eq v v'); EPair t t']
    | _, _ => [EIs false]
    end.
  Definition cache := list ((ref * ref) * bool).
  Fixpoint run_eq (eq : cache -> ref -> ref -> option (cache * res derr unit)) (c : cache) (steps : list estep) : option (cache * res derr unit) :=
    match steps with
    | [] => Some (c, Ok tt)
    | EIs false :: _ => Some (c, Err NotEquivalent)
    | EIs true :: steps' => run_eq eq c steps'
    | EPair a b :: steps' =>
        match eq c a b with
        | None => None
        | Some (c, Err e) => Some (c, Err e)
        | Some (c, Ok _) => run_eq eq c steps'
        end
    end.
  (** [visited] is the slice of pointers on the path: siblings reuse its backing array, but never what is below their length *)
  Fixpoint typesEquivalent (fuel : nat) (h : heap) (visited : list ref) (c : cache) (ta tb : ref) : option (cache * res derr unit) :=
    match fuel with
    | O => None
    | S f =>
        if ref_eq_dec ta tb then Some (c, Ok tt)
        else match ta with
        | RVoid => Some (c, Err NotEquivalent)
        | _ =>
            match deref h ta with
            | None | Some (NCycle _) => Some (c, Err Unsupported)
            | Some a =>
                match a with
                | NPtr _ =>
                    match deref h tb with
                    | Some (NPtr _ as b) => if ref_in ta visited then Some (c, Ok tt) else run_eq (typesEquivalent f h (visited ++ [ta])) c (eq_steps a b)
                    | _ => Some (c, Err NotEquivalent)
                    end
                | NStruct _ _ _ _ | NUnion _ _ _ _ =>
                    match find_eq c ta tb with
                    | Some true => Some (c, Ok tt)
                    | Some false => Some (c, Err NotEquivalent)
                    | None =>
                        match (match deref h tb with Some b => run_eq (typesEquivalent f h visited) c (eq_steps a b) | None => Some (c, Err NotEquivalent) end) with
                        | None => None
                        | Some (c, r) => Some (((ta, tb), match r with Ok _ => true | Err _ => false end) :: c, r)
                        end
                    end
                | _ =>
                    match deref h tb with
                    | Some b => run_eq (typesEquivalent f h visited) c (eq_steps a b)
                    | None => Some (c, Err NotEquivalent)
                    end
                end
            end
        end
    end.

  (** btf/dedup.go:86-104, the loop over the candidates with the same hash *)
  Fixpoint try_candidates (fuel : nat) (d : dedup) (t : ref) (cs : list ref) : option (dedup * res derr (option ref)) :=
    match cs with
    | [] => Some (d, Ok None)
    | cand :: cs' =>
        match typesEquivalent fuel (dd_heap d) [] (dd_eqCache d) cand t with
        | None => None
        | Some (c, r) =>
            let d := with_eqCache d c in
            match r with
            | Err NotEquivalent => try_candidates fuel d t cs'
            | Err e => Some (d, Err e)
            | Ok _ => Some (with_done d ((t, cand) :: dd_done d), Ok (Some cand))
            end
        end
    end.
  (** btf/dedup.go:71-108 hashInsert *)
  Definition hashInsert (fuel : nat) (d : dedup) (t : ref) : option (dedup * res derr ref) :=
    match find_done (dd_done d) t with
    | Some r => Some (d, Ok r)
    | None =>
        match hash fuel (dd_heap d) (dd_hashCache d) t (-1) with
        | None => None
        | Some (c, Err e) => Some (with_hashCache d c, Err e)
        | Some (c, Ok hv) =>
            let d := with_hashCache d c in
            match try_candidates fuel d t (map snd (filter (fun p => fst p =? hv) (dd_hashed d))) with
            | None => None
            | Some (d, Err e) => Some (d, Err e)
            | Some (d, Ok (Some cand)) => Some (d, Ok cand)
            | Some (d, Ok None) => Some (with_hashed d (dd_hashed d ++ [(hv, t)]), Ok t)
            end
        end
    end.
  (** btf/dedup.go:55-61, the loop over the children of the type at [a].  [rs] are its current children, [k] is the index
      of the next one.  The decl tags are new types.  If there is an error the child becomes nil.
      A Func's tags are those of the parameters of its prototype, which has been replaced by then; an equivalent one has the
      same number of parameters. *)
  Definition child_refs (cs : list child) : list ref := flat_map (fun c => match c with CRef r => [r] | CTag _ _ => [] end) cs.
  Fixpoint dedup_children (fuel : nat) (d : dedup) (a : nat) (n : node) (rs : list ref) (k : nat) (cs : list child) : option (dedup * res derr unit) :=
    match cs with
    | [] => Some (d, Ok tt)
    | CRef r :: cs' =>
        match hashInsert fuel d r with
        | None => None
        | Some (d, Err e) => Some (with_dheap d (set_nth (dd_heap d) a (set_children n (set_nth rs k RNil))), Err e)
        | Some (d, Ok r') =>
            let rs := set_nth rs k r' in
            dedup_children fuel (with_dheap d (set_nth (dd_heap d) a (set_children n rs))) a n rs (S k) cs'
        end
    | CTag v i :: cs' =>
        let t := RPtr (length (dd_heap d)) in
        match hashInsert fuel (with_dheap d (dd_heap d ++ [NDeclTag (RPtr a) v i])) t with
        | None => None
        | Some (d, Err e) => Some (d, Err e)
        | Some (d, Ok _) => dedup_children fuel d a n rs k cs'
        end
    end.
  (** btf/dedup.go:54-62, the loop over the types in post order.  The traversal reads the children of a type before any of
      them is replaced, because a type's children are replaced after it has been visited; so it is run first here. *)
  Fixpoint dedup_items (fuel : nat) (d : dedup) (items : list item) : option (dedup * res derr unit) :=
    match items with
    | [] => Some (d, Ok tt)
    | IType (RPtr a) :: items' =>
        match nth_error (dd_heap d) a with
        | None => None
        | Some n =>
            let cs := children (dd_heap d) n in
            match dedup_children fuel d a n (child_refs cs) 0 cs with
            | None => None
            | Some (d, Err e) => Some (d, Err e)
            | Some (d, Ok _) => dedup_items fuel d items'
            end
        end
    | _ :: items' => dedup_items fuel d items'
    end.
  (** btf/dedup.go:45-65 deduplicate *)
  Definition deduplicate (fuel : nat) (d : dedup) (t : ref) : option (dedup * res derr ref) :=
    match find_done (dd_done d) t with
    | Some r => Some (d, Ok r)
    | None =>
        match postorder (dd_heap d) (dd_visited d) t with
        | None => None
        | Some (visited, items) =>
            match dedup_items fuel (with_visited d visited) items with
            | None => None
            | Some (d, Err e) => Some (d, Err e)
            | Some (d, Ok _) => hashInsert fuel d t
            end
        end
    end.
  (** a history of additions to a Builder with BuilderOptions.Deduplicate *)
  Fixpoint dedup_all (fuel : nat) (d : dedup) (ts : list ref) : option (dedup * list (res derr ref)) :=
    match ts with
    | [] => Some (d, [])
    | t :: ts' =>
        match deduplicate fuel d t with
        | None => None
        | Some (d, r) => match dedup_all fuel d ts' with None => None | Some (d, rs) => Some (d, r :: rs) end
        end
    end.
End Hash.
