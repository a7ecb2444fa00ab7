(** What the lines of a verifier log are, and what printing an error shows. *)
From Coq Require Import List Bool Arith Ascii String.
From Verif Require Import Prog.VerifierError.
Import ListNotations.
Open Scope char_scope. Open Scope list_scope.

(** tab, carriage return, vertical tab, newline and blank *)
Definition Ws (c : ascii) : Prop := c = "009" \/ c = "013" \/ c = "011" \/ c = "010" \/ c = " ".
Definition blank (l : bytes) : Prop := Forall Ws l.
Definition ends_black (l : bytes) : Prop := forall l' c, l = l' ++ [c] -> ~ Ws c.
Definition starts_black (l : bytes) : Prop := forall c l', l = c :: l' -> ~ Ws c.

(** [t] is what a C reader sees in the buffer [log] *)
Definition text_of (log t : bytes) : Prop :=
  ~ In NUL t /\ (log = t \/ exists rest, log = t ++ NUL :: rest).

(** the lines [ls] of text [t], one after the other, separated by newlines, each followed
    by insignificant white space *)
Inductive joined : bytes -> list bytes -> Prop :=
| joined_one : forall l pad, blank pad -> ~ In NL (l ++ pad) -> ends_black l -> joined (l ++ pad) [l]
| joined_more : forall l pad t ls, blank pad -> ~ In NL (l ++ pad) -> ends_black l -> joined t ls ->
    joined (l ++ pad ++ NL :: t) (l :: ls).

(** the lines of a text: none if it is blank; otherwise the text between the first and the
    last black character *)
Inductive lines_of : bytes -> list bytes -> Prop :=
| lines_blank : forall t, blank t -> lines_of t []
| lines_some : forall lead body trail ls, blank lead -> blank trail ->
    body <> [] -> starts_black body -> ends_black body -> joined body ls ->
    lines_of (lead ++ body ++ trail) ls.

Definition log_lines (log : bytes) (ls : list bytes) : Prop := exists t, text_of log t /\ lines_of t ls.

(** A line that is better understood together with the one before it: an indented one, one
    about a register, or about a context access. *)
Definition dependent (l : bytes) : Prop :=
  (exists l', l = TAB :: l') \/
  (exists d l', l = "R" :: d :: l' /\ In d (lit "0123456789")) \/
  (exists l', l = lit "invalid bpf_context access" ++ l').
Definition statistics (l : bytes) : Prop := exists l', l = lit "processed " ++ l'.

(** What a summary shows of a log: [before] and [stats] are omitted. *)
Inductive shown : list bytes -> list bytes -> list bytes -> list bytes -> Prop :=
| shown_none : forall stats, (forall s, In s stats -> statistics s) -> List.length stats <= 1 -> shown stats [] [] stats
| shown_one : forall before l stats, (stats = [] /\ ~ statistics l \/ exists s, stats = [s] /\ statistics s) ->
    (before = [] \/ ~ dependent l) -> shown (before ++ l :: stats) before [l] stats
| shown_two : forall before p l stats, (stats = [] /\ ~ statistics l \/ exists s, stats = [s] /\ statistics s) ->
    dependent l -> shown (before ++ p :: l :: stats) before [p; l] stats.

(** [t] is [l] without the white space around it *)
Definition Space (c : ascii) : Prop := Ws c \/ c = "012".
Definition stripped (l t : bytes) : Prop :=
  exists lead trail, l = lead ++ t ++ trail /\ Forall Space lead /\ Forall Space trail /\
    (forall c t', t = c :: t' -> ~ Space c) /\ (forall t' c, t = t' ++ [c] -> ~ Space c).

(** Lines printed one per row, each row starting with a newline and a tab. *)
Inductive rows : bytes -> list bytes -> Prop :=
| rows_nil : rows [] []
| rows_cons : forall l t ls, ~ In NL l -> rows t ls -> rows (NL :: TAB :: l ++ t) (l :: ls).
