(** Specification of C87: how the kernel reads kprobe_events and uprobe_events
    (Documentation/trace/kprobetrace.rst, uprobetracer.rst; trace.c: trace_parse_run_command;
    argv_split), and what the regular expressions in the comments mean. *)
From Verif Require Import Base.GoInt Probe.Event.
Open Scope Z_scope.

Definition isLetter (c : Z) : Prop := 65 <= c <= 90 \/ 97 <= c <= 122.
Definition isNumber (c : Z) : Prop := 48 <= c <= 57.
Definition alnum (c : Z) : Prop := isLetter c \/ isNumber c.
(** ^[a-zA-Z_][0-9a-zA-Z_-]*$ *)
Definition identifier (s : str) : Prop :=
  exists c r, s = c :: r /\ (isLetter c \/ c = 95) /\ Forall (fun c => alnum c \/ c = 95 \/ c = 45) r.
(** ^[a-zA-Z_][0-9a-zA-Z_.]*$ *)
Definition kernelSymbol (s : str) : Prop :=
  exists c r, s = c :: r /\ (isLetter c \/ c = 95) /\ Forall (fun c => alnum c \/ c = 95 \/ c = 46) r.
(** Replacing all [^a-zA-Z0-9]+ by _: each maximal run of other characters becomes one *)
Inductive replacedAll : str -> str -> Prop :=
| R_nil : replacedAll [] []
| R_keep : forall c s t, alnum c -> replacedAll s t -> replacedAll (c :: s) (c :: t)
| R_run : forall run s t, run <> [] -> Forall (fun c => ~ alnum c) run -> (s = [] \/ exists c r, s = c :: r /\ alnum c) -> replacedAll s t -> replacedAll (run ++ s) (95 :: t).

(** Lines end at newlines; comments begin with #. *)
Fixpoint lines (s : str) : list str :=
  match s with
  | [] => [[]]
  | c :: r => if c =? 10 then [] :: lines r
              else match lines r with [] => [[c]] | l :: ls => (c :: l) :: ls end
  end.
Fixpoint beforeChar (x : Z) (s : str) : str := match s with [] => [] | c :: r => if c =? x then [] else c :: beforeChar x r end.
(** isspace of the kernel: also the byte 160 *)
Definition isspace (c : Z) : bool := (9 <=? c) && (c <=? 13) || (c =? 32) || (c =? 160).
Fixpoint words (cur s : str) : list str :=
  let flush := match cur with [] => [] | _ => [rev cur] end in
  match s with
  | [] => flush
  | c :: r => if isspace c then flush ++ words [] r else words (c :: cur) r
  end.
(** The parts before and after the first and the last occurrence of a character *)
Fixpoint cutFirst (x : Z) (s : str) : option (str * str) :=
  match s with
  | [] => None
  | c :: r => if c =? x then Some ([], r) else match cutFirst x r with Some (a, b) => Some (c :: a, b) | None => None end
  end.
Fixpoint cutLast (x : Z) (s : str) : option (str * str) :=
  match s with
  | [] => None
  | c :: r => match cutLast x r with
              | Some (a, b) => Some (c :: a, b)
              | None => if c =? x then Some ([], r) else None
              end
  end.
(** Numbers: decimal, or hexadecimal with 0x *)
Definition digitVal (base c : Z) : option Z :=
  let d := if (48 <=? c) && (c <=? 57) then Some (c - 48) else if (97 <=? c) && (c <=? 102) then Some (c - 87) else None in
  match d with Some v => if v <? base then Some v else None | None => None end.
Fixpoint numFrom (base acc : Z) (s : str) : option Z :=
  match s with
  | [] => Some acc
  | c :: r => match digitVal base c with Some v => numFrom base (acc * base + v) r | None => None end
  end.
Definition num (s : str) : option Z :=
  match s with
  | [] => None
  | [a] => numFrom 10 0 s
  | a :: b :: t => if a =? 48 then (if (b =? 120) && negb (match t with [] => true | _ => false end) then numFrom 16 0 t else None)
                   else numFrom 10 0 s
  end.
Inductive place := PSymbol (sym : str) (off : Z) | PFile (path : str) (off ref : Z).
Record cmd := Cmd { c_ret : bool; c_max : Z; c_group : str; c_event : str; c_place : place }.
Definition bind {A B} (o : option A) (f : A -> option B) : option B := match o with Some a => f a | None => None end.
Definition parsePlace (k : kind) (w : str) : option place :=
  match k with
  | Kprobe => match cutFirst 43 w with
              | None => Some (PSymbol w 0)
              | Some (s, n) => bind (num n) (fun v => Some (PSymbol s v))
              end
  | Uprobe => bind (cutLast 58 w) (fun '(path, rest) =>
                match cutFirst 40 rest with
                | None => bind (num rest) (fun v => Some (PFile path v 0))
                | Some (n, r) => bind (num n) (fun v => bind (cutFirst 41 r) (fun '(m, e) => bind (num m) (fun x => match e with [] => Some (PFile path v x) | _ => None end)))
                end)
  end.
(** A command: p or r with a number, the names, and the place *)
Definition parseCmd (k : kind) (line : str) : option cmd :=
  match words [] (beforeChar 35 line) with
  | [w0; w1] =>
      bind (cutFirst 58 w0) (fun '(t, names) =>
      bind (cutFirst 47 names) (fun '(group, event) =>
      bind (parsePlace k w1) (fun pl =>
      match t with
      | [] => None
      | c :: n => if c =? 112 then match n with [] => Some (Cmd false 0 group event pl) | _ => None end
                  else if c =? 114 then match n with [] => Some (Cmd true 0 group event pl) | _ => bind (num n) (fun v => Some (Cmd true v group event pl)) end
                  else None
      end)))
  | _ => None
  end.
Definition kernelReads (k : kind) (s : str) : list (option cmd) := map (parseCmd k) (lines s).
(** What is asked for *)
Definition wanted (a : args) : cmd :=
  Cmd (a_ret a) (Z.max 0 (a_maxActive a)) (a_group a) (sanitizeIdentifier (a_symbol a))
    match a_kind a with Kprobe => PSymbol (a_symbol a) (a_offset a) | Uprobe => PFile (a_path a) (a_offset a) (a_ref a) end.
Definition plainPath (p : str) : Prop := Forall (fun c => isspace c = false /\ c <> 35) p.
