(** C107, independently of the code: what the kernel prints about a map into fdinfo. *)
From Coq Require Import ZArith List Bool String.
From Verif Require Import Base.GoInt Internal.Kallsyms Internal.KconfigSpec Maps.FdInfo.
Import ListNotations.
Open Scope Z_scope.

(** The text of a value: a number that fits, or 0 or 1; no spaces *)
Definition textOf (bits : Z) (s : str) (v : Z) : Prop := Forall (fun c => 33 <= c <= 126) s /\
  ((bits = 1 /\ ((s = [48] /\ v = 0) \/ (s = [49] /\ v = 1))) \/ (1 < bits <= 64 /\ numeral s v /\ v < 2 ^ bits)).
(** The lines of a file: a key, a colon, a tab and the value of the map, for some of [keys] in any order; and lines of other keys, or of none. *)
Inductive line (m : str -> Z) (keys : list (str * Z)) : str -> option str -> Prop :=
| lineKey k bits s : In (k, bits) keys -> textOf bits s (m k) -> line m keys (k ++ 58 :: 9 :: s) (Some k)
| lineOther k s : ~ In 58 k -> ~ In k (map fst keys) -> line m keys (k ++ 58 :: s) None
| lineNone s : ~ In 58 s -> line m keys s None.
(** [printed] are the keys that lines are for *)
Inductive file (m : str -> Z) (keys : list (str * Z)) : list str -> list str -> Prop :=
| fileEnd : file m keys [] []
| fileKey l ls k ks : line m keys l (Some k) -> file m keys ls ks -> file m keys (l :: ls) (k :: ks)
| fileOther l ls ks : line m keys l None -> file m keys ls ks -> file m keys (l :: ls) ks.
(** The keys and the sizes in bits of their values; 1 is a bool. *)
Definition allKeys : list (str * Z) := [(lit "map_type", 32); (lit "map_id", 32); (lit "key_size", 32); (lit "value_size", 32); (lit "max_entries", 32); (lit "map_flags", 32); (lit "map_extra", 64); (lit "memlock", 64); (lit "frozen", 1)].
