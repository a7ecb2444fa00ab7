(** Specification of C101: what the kernel shows in /proc/self/mountinfo (fs/proc_namespace.c show_mountinfo) *)
From Coq Require Import List Bool Arith.
From Verif Require Import Sys.Mounts.
Import ListNotations.

(** mangle, seq_path_root, seq_dentry with " \t\n\\" *)
Definition escape1 (c : nat) : str :=
  match c with 32 => [92; 48; 52; 48] | 9 => [92; 48; 49; 49] | 10 => [92; 48; 49; 50] | 92 => [92; 49; 51; 52] | _ => [c] end.
Definition escape (s : str) : str := flat_map escape1 s.
(** A mount: numbers, the directory that is mounted, where, options, optional fields, file system, source, options *)
Record mount := Mount { m_id : str; m_parent : str; m_dev : str; m_root : str; m_point : str; m_opts : str; m_optional : list str; m_type : str; m_source : str; m_super : str }.
Fixpoint spaced (l : list str) : str := match l with [] => [] | [x] => x | x :: r => x ++ 32 :: spaced r end.
Definition line (m : mount) : str :=
  spaced ([m_id m; m_parent m; m_dev m; escape (m_root m); escape (m_point m); m_opts m] ++ m_optional m) ++ [32; 45; 32] ++ m_type m ++ [32] ++ escape (m_source m) ++ [32] ++ m_super m ++ [10].
Definition mountinfo (l : list mount) : str := flat_map line l.
(** Fields without spaces, that aren't "-" *)
Definition plain (s : str) : Prop := s <> [] /\ s <> [45] /\ forall c, In c s -> isSpace c = false.
(** Paths have no other white space than the kernel escapes. *)
Definition path (s : str) : Prop := s <> [] /\ s <> [45] /\ forall c, In c s -> isSpace c = true -> c = 32 \/ c = 9 \/ c = 10.
Definition usual (m : mount) : Prop :=
  plain (m_id m) /\ plain (m_parent m) /\ plain (m_dev m) /\ path (m_root m) /\ path (m_point m) /\ plain (m_opts m) /\ Forall plain (m_optional m) /\ plain (m_type m) /\ ~ In 10 (m_super m).
Definition entryOf (m : mount) : entry := Entry (m_point m) (m_root m) (m_type m).
(** Each element where it is first *)
Fixpoint firsts (l : list str) : list str := match l with [] => [] | x :: r => x :: filter (fun y => negb (streqb x y)) (firsts r) end.
