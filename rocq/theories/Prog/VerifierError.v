(** Model of internal/errors.go: parsing, summarising and printing verifier logs.

    Go byte slices and strings are lists of bytes ([ascii]). *)
From Coq Require Import List Bool Arith Lia Ascii String DecimalString DecimalNat.
Import ListNotations.
Open Scope char_scope. Open Scope list_scope.

Definition bytes := list ascii.
Definition lit (s : string) : bytes := list_ascii_of_string s.

Definition NUL : ascii := "000".
Definition TAB : ascii := "009".
Definition NL : ascii := "010".

(** internal/errors.go:16 the whitespace cutset (no form feed) *)
Definition whitespace (c : ascii) : bool :=
  existsb (Ascii.eqb c) ["009"; "013"; "011"; "010"; " "].
(** unicode.IsSpace for ASCII; strings.TrimSpace also drops U+0085, U+00A0 and other
    Unicode spaces, which is not modelled (verifier logs are ASCII). *)
Definition isSpace (c : ascii) : bool :=
  existsb (Ascii.eqb c) ["009"; "010"; "011"; "012"; "013"; " "].

(** bytes.TrimLeft / bytes.TrimRight / bytes.Trim with an ASCII cutset *)
Fixpoint trimLeft (p : ascii -> bool) (l : bytes) : bytes :=
  match l with c :: l' => if p c then trimLeft p l' else l | [] => [] end.
Definition trimRight (p : ascii -> bool) (l : bytes) : bytes := rev (trimLeft p (rev l)).
Definition trim (p : ascii -> bool) (l : bytes) : bytes := trimRight p (trimLeft p l).

(** log[:bytes.IndexByte(log, 0)], or log without a zero byte *)
Fixpoint cstr (l : bytes) : bytes :=
  match l with [] => [] | c :: l' => if Ascii.eqb c NUL then [] else c :: cstr l' end.

(** bytes.Split(l, {sep}): never the empty list *)
Fixpoint split (sep : ascii) (l : bytes) : list bytes :=
  match l with
  | [] => [[]]
  | c :: l' => if Ascii.eqb c sep then [] :: split sep l'
               else match split sep l' with h :: t => (c :: h) :: t | [] => [[c]] end
  end.

(** internal/errors.go:43-49 VerifierError; Cause is kept as a value of any type [C] *)
Record verifierError (C : Type) := VE { ve_source : bytes; ve_cause : C; ve_log : list bytes }.
Arguments VE {C}. Arguments ve_source {C}. Arguments ve_cause {C}. Arguments ve_log {C}.

(** internal/errors.go:15-38 ErrorWithLog *)
Definition logLines (log : bytes) : list bytes :=
  let l := trim whitespace (cstr log) in
  match l with
  | [] => []
  | _ => List.map (trimRight whitespace) (split NL l)
  end.
Definition ErrorWithLog {C} (source : bytes) (cause : C) (log : bytes) : verifierError C :=
  VE source cause (logLines log).

(** strings.HasPrefix *)
Fixpoint hasPrefix (l p : bytes) : bool :=
  match p, l with
  | [], _ => true
  | c :: p', d :: l' => Ascii.eqb c d && hasPrefix l' p'
  | _ :: _, [] => false
  end.

(** fmt's %d of a non-negative int *)
Definition decimal (n : nat) : bytes := lit (NilZero.string_of_uint (Nat.to_uint n)).

Definition isDigit (c : ascii) : bool := (nat_of_ascii "0" <=? nat_of_ascii c)%nat && (nat_of_ascii c <=? nat_of_ascii "9")%nat.

(** internal/errors.go:95-121 includePreviousLine *)
Definition includePreviousLine (line : bytes) : bool :=
  if hasPrefix line [TAB] then true
  else if (match line with c :: d :: _ => Ascii.eqb c "R" && isDigit d | _ => false end) then true
  else hasPrefix line (lit "invalid bpf_context access").

(** log[n-k:] *)
Definition lastn {A} (k : nat) (l : list A) : list A := skipn (List.length l - k) l.

Section Print.
Context {C : Type} (text : C -> bytes).  (* Cause.Error() *)

Definition omittedMsg (n : nat) : bytes := "(" :: decimal n ++ lit " line(s) omitted)".

(** internal/errors.go:55-91 Error *)
Definition Error (le : verifierError C) : bytes :=
  let log := ve_log le in
  let n := List.length log in
  let log := if (0 <? n)%nat && hasPrefix (nth (n - 1) log []) (lit "processed ") then firstn (n - 1) log else log in
  let b := ve_source le ++ lit ": " ++ text (ve_cause le) in
  let n := List.length log in
  if (n =? 0)%nat then b
  else
    let lines := if (2 <=? n)%nat && includePreviousLine (nth (n - 1) log []) then lastn 2 log else lastn 1 log in
    let b := b ++ flat_map (fun l => lit ": " ++ trim isSpace l) lines in
    let omitted := (List.length (ve_log le) - List.length lines)%nat in
    if (0 <? omitted)%nat then b ++ " " :: omittedMsg omitted else b.

(** fmt.State: the width, and the flags + and - *)
Record state := State { f_width : option nat; f_plus : bool; f_minus : bool }.

(** internal/errors.go:133-183 Format: what is written for a verb. In the default case the
    verb is one rune, here one byte. *)
Definition Format (le : verifierError C) (f : state) (verb : ascii) : bytes :=
  if Ascii.eqb verb "s" then Error le
  else if Ascii.eqb verb "v" then
    let len := List.length (ve_log le) in
    let n := match f_width f with Some n => if (len <? n)%nat then len else n | None => len end in
    if negb (f_plus f) && negb (f_minus f) then
      match f_width f with Some _ => lit "%!v(BADWIDTH)" | None => Error le end
    else if f_plus f && f_minus f then lit "%!v(BADFLAG)"
    else
      let b := ve_source le ++ lit ": " ++ text (ve_cause le) ++ lit ":" in
      let omitted := (len - n)%nat in
      let lines := if f_minus f then skipn (len - n) (ve_log le) else firstn n (ve_log le) in
      let b := if f_minus f && (0 <? omitted)%nat then b ++ [NL; TAB] ++ omittedMsg omitted else b in
      let b := b ++ flat_map (fun l => [NL; TAB] ++ l) lines in
      if negb (f_minus f) && (0 <? omitted)%nat then b ++ [NL; TAB] ++ omittedMsg omitted else b
  else lit "%!" ++ verb :: lit "(BADVERB)".
End Print.
