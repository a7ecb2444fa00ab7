(** Model of CO-RE accessor strings and essential names: btf/core.go:584-611, btf/types.go:809-818. *)
From Coq Require Import ZArith List Lia Bool.
From Verif.Base Require Import GoInt.
Import ListNotations.
Open Scope Z_scope.

(** A Go string is a list of bytes. *)
Definition colon := 58.
Definition underscore := 95.

(** strings.Split(s, ":") for a one byte separator: always at least one part. *)
Fixpoint split (s : list Z) : list (list Z) :=
  match s with
  | [] => [[]]
  | c :: s' =>
      if c =? colon then [] :: split s'
      else match split s' with
           | p :: ps => (c :: p) :: ps
           | [] => [[c]]
           end
  end.

(** strings.Join(parts, ":") *)
Fixpoint join (ps : list (list Z)) : list Z :=
  match ps with
  | [] => []
  | [p] => p
  | p :: ps' => p ++ colon :: join ps'
  end.

(** strconv.ParseUint(s, 10, 31) (Go standard library, strconv/atoi.go): the loop over the digits.
    cutoff is maxUint64/10 + 1, the additions are done in uint64. *)
Inductive perr := Syntax | Range | EmptyAccessor.
Definition maxUint64 := 18446744073709551615.
Definition cutoff := maxUint64 / 10 + 1.
Definition maxVal := 2147483647. (* 1<<31 - 1 *)
Fixpoint parse_digits (s : list Z) (n : Z) : res perr Z :=
  match s with
  | [] => Ok n
  | c :: s' =>
      if (48 <=? c) && (c <=? 57) then
        let d := c - 48 in
        if n >=? cutoff then Err Range
        else let n := u64 (n * 10) in
             let n1 := u64 (n + d) in
             if (n1 <? n) || (n1 >? maxVal) then Err Range else parse_digits s' n1
      else Err Syntax
  end.
Definition ParseUint (s : list Z) : res perr Z :=
  match s with [] => Err Syntax | _ => parse_digits s 0 end.

(** btf/core.go:584-602 parseCOREAccessor *)
Fixpoint parse_parts (ps : list (list Z)) : res perr (list Z) :=
  match ps with
  | [] => Ok []
  | p :: ps' =>
      match ParseUint p with
      | Err e => Err e
      | Ok i => match parse_parts ps' with Err e => Err e | Ok r => Ok (i :: r) end
      end
  end.
Definition parseCOREAccessor (accessor : list Z) : res perr (list Z) :=
  match accessor with
  | [] => Err EmptyAccessor
  | _ => parse_parts (split accessor)
  end.

(** strconv.Itoa for non-negative ints (an int has at most 19 decimal digits). *)
Fixpoint itoa_fuel (fuel : nat) (n : Z) : list Z :=
  match fuel with
  | O => []
  | S f => if n <? 10 then [48 + n] else itoa_fuel f (n / 10) ++ [48 + n mod 10]
  end.
Definition itoa (n : Z) : list Z := itoa_fuel 20 n.
(** btf/core.go:604-610 coreAccessor.String *)
Definition accessorString (ca : list Z) : list Z := join (map itoa ca).

(** strings.LastIndex(s, "___") *)
Definition flavour_at (s : list Z) : bool :=
  match s with
  | a :: b :: c :: _ => (a =? underscore) && (b =? underscore) && (c =? underscore)
  | _ => false
  end.
Fixpoint lastIndex (s : list Z) : Z :=
  match s with
  | [] => -1
  | _ :: s' =>
      let i := lastIndex s' in
      if i >=? 0 then i + 1 else if flavour_at s then 0 else -1
  end.
(** btf/types.go:809-818 newEssentialName *)
Definition newEssentialName (name : list Z) : list Z :=
  match name with
  | [] => []
  | _ => let lastIdx := lastIndex name in
         if lastIdx >? 0 then firstn (Z.to_nat lastIdx) name else name
  end.
