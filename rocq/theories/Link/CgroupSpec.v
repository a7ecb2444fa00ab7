(** Specification of C98 *)
From Coq Require Import List Bool Arith Permutation.
From Verif Require Import Link.Cgroup.
Import ListNotations.

(** An open link, and an entry in the kernel, that belong together *)
Definition belongs (h : handle) (e : ent) : bool :=
  match h_kind h, e_link e with
  | KLink l, Some l' => Nat.eqb l l'
  | KLegacy _, None => Nat.eqb (h_prog h) (e_prog e)
  | _, _ => false
  end.
Definition mine (h : list handle) (e : ent) : bool := existsb (fun x => belongs x e) h.
Definition entryOf (h : handle) : ent := Ent (h_prog h) (match h_kind h with KLink l => Some l | KLegacy _ => None end).
(** What everybody else has attached, before and after *)
Definition others (s s' : st) (l : list ent) : list ent := filter (fun e => negb (mine (hs s) e || mine (hs s') e)) l.
(** Executions: calls that succeed or fail, on links that are open; others attach and detach programs of theirs, which don't change the mode while there are programs *)
Inductive op := Attach (p : nat) | Update (h : handle) (p : nat) | Close (h : handle).
Definition does (hasLink hasReplace : bool) (o : op) (ch : choice) (s : st) : st * bool :=
  match o with Attach p => attach hasLink hasReplace ch p s | Update h p => update ch h p s | Close h => close ch h s end.
Definition valid (o : op) (s : st) : Prop := match o with Attach _ => True | Update h _ | Close h => In h (hs s) end.
Inductive step (hasLink hasReplace : bool) : st -> st -> Prop :=
| step_op o ch s : valid o s -> step hasLink hasReplace s (fst (does hasLink hasReplace o ch s))
| step_env s l m n : filter (mine (hs s)) l = filter (mine (hs s)) (ents s) -> (hs s <> [] -> m = md s) -> next s <= n -> (forall e k, In e l -> e_link e = Some k -> k < n) ->
    step hasLink hasReplace s (St l m (hs s) (fds s) n).
Definition init : st := St [] Override [] [] 0.
Inductive reachable (hasLink hasReplace : bool) : st -> Prop :=
| reach_init : reachable hasLink hasReplace init
| reach_step s s' : reachable hasLink hasReplace s -> step hasLink hasReplace s s' -> reachable hasLink hasReplace s'.
