(** Model of creating trace events (internal/tracefs/kprobe.go:44-105, 181-205, 232-241, 262-331,
    401-420, internal/tracefs/uprobe.go:6-16, link/kprobe.go:131-160). Strings are lists of bytes. *)
From Verif Require Import Base.GoInt.
Open Scope Z_scope.
Definition str := list Z.

(** tracefs/kprobe.go:80-98 *)
Definition lower (c : Z) : bool := (97 <=? c) && (c <=? 122).
Definition upper (c : Z) : bool := (65 <=? c) && (c <=? 90).
Definition number (c : Z) : bool := (48 <=? c) && (c <=? 57).
Fixpoint validFrom (first : bool) (s : str) : bool :=
  match s with
  | [] => true
  | c :: r => (lower c || upper c || (c =? 95) || (negb first && ((c =? 45) || number c))) && validFrom false r
  end.
Definition validIdentifier (s : str) : bool := match s with [] => false | _ => validFrom true s end.
(** link/kprobe.go:131-157 *)
Fixpoint kprobeFrom (first : bool) (s : str) : bool :=
  match s with
  | [] => true
  | c :: r => (lower c || upper c || (c =? 95) || (negb first && number c) || (negb first && (c =? 46))) && kprobeFrom false r
  end.
Definition isValidKprobeSymbol (s : str) : bool := match s with [] => false | _ => kprobeFrom true s end.

(** tracefs/kprobe.go:184-205. strings.Map goes over the characters; those of more than one
    byte, and invalid ones, are all replaced, so going over the bytes is the same. *)
Fixpoint sanitize (skip : bool) (s : str) : str :=
  match s with
  | [] => []
  | c :: r => if lower c || upper c || number c then c :: sanitize false r
              else if skip then sanitize skip r
              else 95 :: sanitize true r
  end.
Definition sanitizeIdentifier (s : str) : str := sanitize false s.

(** fmt: %d and %x of numbers below 2^64 *)
Definition digit (d : Z) : Z := if d <? 10 then 48 + d else 87 + d.
Fixpoint digits (base : Z) (fuel : nat) (n : Z) : str :=
  match fuel with
  | O => []
  | S fuel => if n <? base then [digit n] else digits base fuel (n / base) ++ [digit (n mod base)]
  end.
Definition fmt_d (n : Z) : str := digits 10 20 n.
Definition fmt_x (n : Z) : str := [48; 120] ++ digits 16 16 n.
(** %x of bytes *)
Definition fmt_bytes (b : str) : str := flat_map (fun c => [digit (c / 16); digit (c mod 16)]) b.

(** tracefs/kprobe.go:57-74; [b]: the random bytes *)
Inductive failure := EInvalid | EName | EMaxActive.
Definition RandomGroup (prefix b : str) : res failure str :=
  if negb (validIdentifier prefix) then Err EInvalid
  else let group := prefix ++ [95] ++ fmt_bytes b in
       if 63 <? Z.of_nat (length group) then Err EInvalid else Ok group.

(** tracefs/kprobe.go:44-51 *)
Inductive kind := Kprobe | Uprobe.
Record args := Args { a_kind : kind; a_symbol : str; a_group : str; a_path : str; a_offset : Z; a_ref : Z; a_maxActive : Z; a_ret : bool }.
(** tracefs/kprobe.go:411-420 *)
Definition KprobeToken (a : args) : str := a_symbol a ++ if a_offset a =? 0 then [] else [43] ++ fmt_x (a_offset a).
(** tracefs/uprobe.go:6-16 *)
Definition UprobeToken (a : args) : str := a_path a ++ [58] ++ fmt_x (a_offset a) ++ if a_ref a =? 0 then [] else [40] ++ fmt_x (a_ref a) ++ [41].
(** tracefs/kprobe.go:232-241 *)
Definition probePrefix (ret : bool) (maxActive : Z) : str :=
  if ret then (if 0 <? maxActive then 114 :: fmt_d maxActive else [114]) else [112].
(** tracefs/kprobe.go:262-331: the line that is written, if any. EventID fails for names that are
    not valid (lines 209-216). *)
Definition eventLine (a : args) : res failure str :=
  let name := sanitizeIdentifier (a_symbol a) in
  if negb (validIdentifier (a_group a)) || negb (validIdentifier name) then Err EName
  else match a_kind a with
       | Kprobe => if negb (a_maxActive a =? 0) && negb (a_ret a) then Err EMaxActive
                   else Ok (probePrefix (a_ret a) (a_maxActive a) ++ [58] ++ a_group a ++ [47] ++ name ++ [32] ++ KprobeToken a)
       | Uprobe => if negb (a_maxActive a =? 0) then Err EMaxActive
                   else Ok (probePrefix (a_ret a) 0 ++ [58] ++ a_group a ++ [47] ++ name ++ [32] ++ UprobeToken a)
       end.
