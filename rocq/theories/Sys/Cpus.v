(** Model of internal/linux/cpu.go: the number of CPUs from /sys/devices/system/cpu/possible. *)
From Coq Require Import ZArith List Bool.
From Verif Require Import Base.GoInt.
Import ListNotations.
Open Scope Z_scope.

(** strings.Trim(s, newline) *)
Fixpoint trimLeft (s : list Z) : list Z := match s with [] => [] | c :: t => if c =? 10 then trimLeft t else s end.
Definition trim (s : list Z) : list Z := rev (trimLeft (rev (trimLeft s))).
(** fmt/scan.go isSpace, without newline; of the ASCII characters *)
Definition isSpace (c : Z) : bool := (c =? 9) || ((11 <=? c) && (c <=? 13)) || (c =? 32).
Fixpoint skipSpace (s : list Z) : list Z := match s with [] => [] | c :: t => if isSpace c then skipSpace t else s end.
Definition isDigit (c : Z) : bool := (48 <=? c) && (c <=? 57).
(** the digits at the front and what follows *)
Fixpoint digits (s : list Z) : list Z * list Z := match s with [] => ([], []) | c :: t => if isDigit c then let '(d, r) := digits t in (c :: d, r) else ([], s) end.
Definition value (d : list Z) : Z := fold_left (fun a c => 10 * a + (c - 48)) d 0.
(** fmt.Sscanf with %d, into an int of 64 bits: spaces, a sign, digits *)
Definition scanInt (s : list Z) : option (Z * list Z) :=
  let s := skipSpace s in
  let '(neg, s) := match s with c :: t => if c =? 43 then (false, t) else if c =? 45 then (true, t) else (false, s) | [] => (false, s) end in
  match digits s with
  | ([], _) => None
  | (d, r) => let v := if neg then - value d else value d in if (- 2 ^ 63 <=? v) && (v <? 2 ^ 63) then Some (v, r) else None
  end.
(** a newline in the format: spaces, then a newline or the end; what follows isn't looked at *)
Definition scanNewline (s : list Z) : bool := match skipSpace s with [] => true | c :: _ => c =? 10 end.
(** fmt.Sscanf(spec, format, low, high) where the format is two numbers with a dash between them and a newline *)
Definition sscanf (s : list Z) : option (Z * Z) :=
  match scanInt s with
  | Some (low, c :: s) => if c =? 45 then match scanInt s with Some (high, s) => if scanNewline s then Some (low, high) else None | None => None end else None
  | _ => None
  end.
(** cpu.go:30-46 parseCPUs; [None]: an error *)
Definition parseCPUs (spec : list Z) : option Z :=
  if list_eq_dec Z.eq_dec (trim spec) [48] then Some 1
  else match sscanf spec with
  | None => None
  | Some (low, high) => if negb (low =? 0) then None else Some (i64 (high + 1))
  end.
