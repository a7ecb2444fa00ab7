(** Specification of C97: what may happen after a history (newest event first) *)
From Coq Require Import List String Bool Arith Sorted Permutation.
From Verif Require Import Kernel.Cache.
Import ListNotations.
Open Scope string_scope.

(** The Specs loaded for the kernel, for a module; the lists of entries read *)
Definition kloads (h : list event) : list ptr := flat_map (fun e => match e with EvLoadK _ (Some p) => [p] | _ => [] end) h.
Definition mloads (n : string) (h : list event) : list ptr := flat_map (fun e => match e with EvLoadM _ n' _ (Some p) => if String.eqb n' n then [p] else [] | _ => [] end) h.
Definition dirs (h : list event) : list (list string) := flat_map (fun e => match e with EvDir _ (Some l) => [l] | _ => [] end) h.
(** The modules that are loaded *)
Fixpoint modulesOf (e : list string) (h : list event) : list string := match h with [] => e | EvEnv l :: _ => l | _ :: h => modulesOf e h end.
(** The last thing a goroutine did; the call it is in *)
Definition by_ (t : tid) (e : event) : bool := match e with EvCall t' _ | EvLoadK t' _ | EvLoadM t' _ _ _ | EvDir t' _ | EvRet t' _ _ _ => Nat.eqb t' t | _ => false end.
Definition lastOf (t : tid) (h : list event) : option event := List.find (by_ t) h.
Fixpoint callOf (t : tid) (h : list event) : option call :=
  match h with [] => None | EvCall t' c :: h => if Nat.eqb t' t then Some c else callOf t h | EvRet t' _ _ _ :: h => if Nat.eqb t' t then None else callOf t h | _ :: h => callOf t h end.
(** A call may fail only because something it needs could just not be loaded. *)
Definition failure (t : tid) (c : call) (e : option event) : Prop :=
  match c with
  | Kernel => e = Some (EvLoadK t None)
  | Module n => e = Some (EvLoadK t None) \/ exists b, e = Some (EvLoadM t n b None)
  | Modules => e = Some (EvDir t None)
  end.
(** The names of modules, in order *)
Definition sorted (l : list string) : Prop := Sorted (fun a b => String.leb a b = true) l.
Definition ok (env0 : list string) (e : event) (h : list event) : Prop :=
  match e with
  | EvCall t _ => callOf t h = None
  | EvLoadK t r => kloads h = [] /\ (callOf t h = Some Kernel \/ exists n, callOf t h = Some (Module n) /\ mloads n h = []) /\ (forall p, r = Some p -> forall n, ~ In p (mloads n h))
  | EvLoadM t n b r => callOf t h = Some (Module n) /\ kloads h = [b] /\ mloads n h = [] /\ (forall p, r = Some p -> In n (modulesOf env0 h) /\ p <> b /\ forall n', ~ In p (mloads n' h))
  | EvDir t r => callOf t h = Some Modules /\ dirs h = [] /\ (forall l, r = Some l -> Permutation l ("vmlinux" :: modulesOf env0 h))
  | EvRet t c r l => callOf t h = Some c /\
      match r, c with
      | RErr, _ => failure t c (lastOf t h)
      | RSpec p, Kernel => kloads h = [p]
      | RSpec p, Module n => mloads n h = [p]
      | RList a, Modules => ~ In a (returned h) /\ exists d, dirs h = [d] /\ sorted l /\ Permutation l (filter (fun n => negb (String.eqb n "vmlinux")) d)
      | _, _ => False
      end
  | EvUser a _ => In a (returned h)
  | EvEnv _ => True
  end.
(** Two goroutines are about to access the same field, one of them to write it. *)
Definition race (s : st) : Prop := exists t u f w, t <> u /\ access (pcs s t) = Some (f, true) /\ access (pcs s u) = Some (f, w).
