(** Specification of C100 *)
From Coq Require Import List Bool Arith NArith.
From Verif Require Import Link.Mprog.
Import ListNotations.

(** Ids are never 0 nor used twice; a program is attached once; a link has one program. *)
Record wf (s : st) : Prop := {
  wf_once : NoDup (map e_prog (ents s));
  wf_max : length (ents s) <= 64;
  wf_link : forall e l, In e (ents s) -> e_link e = Some l -> In (l, e_prog e) (links s);
  wf_links : NoDup (map fst (links s));
  wf_one : forall e f l, In e (ents s) -> In f (ents s) -> e_link e = Some l -> e_link f = Some l -> e = f;
  wf_new : forall l p, In (l, p) (links s) -> 0 < l < next s;
  wf_pos : ~ In 0 (progs s);
  wf_fdprog : forall f p, In (f, OProg p) (fdt s) -> In p (progs s);
  wf_fds : forall f o, In (f, o) (fdt s) -> f < next s;
  wf_rev : 0 < rev s;
  wf_next : 0 < next s;
  wf_attached : forall e, In e (ents s) -> In (e_prog e) (progs s) }.
(** The program or link that an anchor refers to is that of an entry. *)
Definition is (s : st) (t : target) (e : ent) : Prop :=
  match t with
  | TProgram (Some f) => progFd s f = Some (e_prog e)
  | TProgramID p => e_prog e = p
  | TLink (Some f) => exists l, linkFd s f = Some l /\ e_link e = Some l
  | TLinkID l => e_link e = Some l
  | _ => False
  end.
(** Where a new entry goes *)
Inductive placed (s : st) (n : ent) : option anchor -> list ent -> list ent -> Prop :=
| placed_none l : placed s n None l (l ++ [n])
| placed_head l : placed s n (Some Head) l (n :: l)
| placed_tail l : placed s n (Some Tail) l (l ++ [n])
| placed_before t l1 e l2 : is s t e -> placed s n (Some (At t Before)) (l1 ++ e :: l2) (l1 ++ n :: e :: l2)
| placed_after t l1 e l2 : is s t e -> placed s n (Some (At t After)) (l1 ++ e :: l2) (l1 ++ e :: n :: l2)
| placed_replace t l1 e l2 : is s t e -> e_link e = None -> placed s n (Some (At t Replace)) (l1 ++ e :: l2) (l1 ++ n :: l2).
(** The revision that the caller expects is the current one. *)
Definition expected (o : opts) (s : st) : Prop := o_rev o = 0 \/ o_rev o = rev s.
(** The descriptors of the options refer to the same objects in both states. *)
Definition sameFd (s s' : st) (f : option nat) : Prop := match f with Some f => assoc f (fdt s) = assoc f (fdt s') | None => True end.
Definition fdOf (a : option anchor) : option nat := match a with Some (At (TProgram f) _) | Some (At (TLink f) _) => f | _ => None end.
Definition kept (o : opts) (s s' : st) : Prop := sameFd s s' (o_prog o) /\ sameFd s s' (fdOf (o_anchor o)).
(** What a caller can ask for: no descriptor of the library is 0 (internal/sys/fd.go); only programs can be replaced (anchor.go:35-105). *)
Definition valid (o : opts) : Prop :=
  fdOf (o_anchor o) <> Some 0 /\ match o_anchor o with Some (At (TProgram _ | TProgramID _) Replace) => True | Some (At _ Replace) => False | _ => True end.
(** What the library's calls do. Those that fail change nothing. *)
Inductive step (s : st) : st -> Prop :=
| step_link sys o s' l : valid o -> attachLink sys o s = Some (s', l) -> step s s'
| step_raw sys o s' : valid o -> rawAttach sys o s = Some s' -> step s s'
| step_detach sys o s' : rawDetach sys o s = Some s' -> step s s'
| step_update sys lf pf s' : update sys lf pf s = Some s' -> step s s'
| step_close lf : step s (close lf s).
(** A program is loaded and has a descriptor. *)
Definition load (p : nat) (s : st) : st := St (ents s) (rev s) (p :: progs s) (links s) ((next s, OProg p) :: fdt s) (S (next s)).
Definition init : st := St [] 1 [] [] [] 1.
