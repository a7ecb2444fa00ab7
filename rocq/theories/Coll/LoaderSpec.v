(** What it means that a collection is loaded correctly: a specification of the logs of the loader which doesn't know how it works. *)
From Coq Require Import ZArith List Lia Bool Permutation.
From Verif.Base Require Import GoInt.
From Verif.Coll Require Import Loader.
Import ListNotations.
Local Open Scope nat_scope.

(** maps by name, programs by name, everything which has been created, closed, and finalized *)
Definition created_maps (log : list event) : list (name * obj) :=
  flat_map (fun e => match e with ECreateMap n o | EClone n _ o => [(n, o)] | _ => [] end) log.
Definition created_progs (log : list event) : list (name * obj) := flat_map (fun e => match e with ECreateProg n o _ => [(n, o)] | _ => [] end) log.
Definition created (log : list event) : list obj := map snd (created_maps log) ++ map snd (created_progs log).
Definition closed (log : list event) : list obj := flat_map (fun e => match e with EClose o => [o] | _ => [] end) log.
Definition finalized (log : list event) : list obj := flat_map (fun e => match e with EFinalize o _ => [o] | _ => [] end) log.

(** the map which an instruction of a program refers to *)
Definition map_of (i : insn) : option name := if in_map i && (i32 (in_const i) <=? 0)%Z then in_ref i else None.

Section Spec.
  Variable sp : spec.
  Variable repl : replacements.
  Variable base : obj.

  (** a map which has contents as soon as it exists *)
  Definition early (n : name) : Prop := get repl n = None /\ exists ms, get (s_maps sp) n = Some ms /\ ms_kind ms = Scalar.
  (** an instruction is linked to the right map, which is ready *)
  Definition linked (pre : list event) (i : insn) (r : option obj) : Prop :=
    match map_of i with
    | None => r = None
    | Some n => exists o, r = Some o /\ In (n, o) (created_maps pre) /\ (early n -> In o (finalized pre))
    end.
  (** a key and value of the contents of a MapSpec, and what is put into the map *)
  Definition resolved (pre : list event) (k : mkind) (kv : Z * value) (kr : Z * rvalue) : Prop :=
    fst kr = fst kv /\
    match snd kv, k with
    | VString n, OfProgs => exists o, snd kr = RProg o /\ In (n, o) (created_progs pre)
    | VString n, OfMaps => exists o, snd kr = RMap o /\ In (n, o) (created_maps pre)
    | VString n, _ => snd kr = RString n
    | VData d, _ => snd kr = RData d
    end.
  (** [e] may happen after [pre] *)
  Definition valid (pre : list event) (e : event) : Prop :=
    match e with
    | ECreateMap n o =>
        closed pre = [] /\ base <= o /\ ~ In o (created pre) /\ ~ In n (map fst (created_maps pre)) /\
        get repl n = None /\ get (s_maps sp) n <> None
    | EClone n src o =>
        closed pre = [] /\ base <= o /\ ~ In o (created pre) /\ ~ In n (map fst (created_maps pre)) /\
        get repl n = Some src /\ get (s_maps sp) n <> None
    | ECreateProg n o refs =>
        closed pre = [] /\ base <= o /\ ~ In o (created pre) /\ ~ In n (map fst (created_progs pre)) /\
        exists ps, get (s_progs sp) n = Some ps /\ ps_unspec ps = false /\ Forall2 (linked pre) (ps_insns ps) refs
    | EFinalize o c =>
        closed pre = [] /\ ~ In o (finalized pre) /\
        exists n ms, In (n, o) (created_maps pre) /\ get (s_maps sp) n = Some ms /\ Forall2 (resolved pre (ms_kind ms)) (ms_contents ms) c
    | EClose o => In o (created pre) /\ ~ In o (closed pre)
    end.
  Definition history (log : list event) : Prop := forall pre e post, log = pre ++ e :: post -> valid pre e.
End Spec.

(** the fields of a struct which own a file descriptor, with what they have been set to *)
Definition owned (fs : list field) (l : list obj) : list obj :=
  flat_map (fun fo => match f_type (fst fo) with FVar => [] | _ => [snd fo] end) (combine fs l).
(** maps which are needed before any map is populated *)
Definition needed_by (sp : spec) (f : field) : list name :=
  match f_type f with
  | FMap => [f_name f]
  | FProg => match get (s_progs sp) (f_name f) with Some ps => flat_map (fun i => match map_of i with Some n => [n] | None => [] end) (ps_insns ps) | None => [] end
  | FVar => match get (s_vars sp) (f_name f) with Some n => [n] | None => [] end
  end.
