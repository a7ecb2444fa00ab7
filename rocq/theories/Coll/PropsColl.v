(** Properties C66-C69: loading collections. *)
From Coq Require Import ZArith List Lia Bool Permutation Arith.
From Verif.Base Require Import GoInt.
From Verif.Coll Require Import Loader LoaderSpec LoaderProofs Collection CollectionProofs.
Import ListNotations.
Local Open Scope nat_scope.

(** *** C66: whatever step fails, nothing leaks and nothing is closed twice.  Objects below [base] belong to the user. *)
Theorem C66_collection_error : forall fails sp repl base os log e, NoDup (o_populate os) -> newCollection fails sp repl base os = (log, Err e) ->
  Permutation (closed log) (created log) /\ NoDup (closed log) /\ (forall o, o < base -> ~ In o (closed log)).
Proof.
  intros fails sp repl base os log e ND H. pose proof (newCollection_log _ _ _ _ _ _ _ ND H) as Hh. apply history_once in Hh. destruct Hh as (_ & H2 & _ & H4 & _ & _ & H7).
  split; [exact (newCollection_error_closes _ _ _ _ _ _ _ ND H)|]. split; auto. intros o Ho Hin. apply H4, H7 in Hin. lia.
Qed.
Theorem C66_collection_success : forall fails sp repl base os log progs maps vars, NoDup (o_populate os) ->
  newCollection fails sp repl base os = (log, Ok (progs, maps, vars)) -> closed log = [] /\ maps = created_maps log /\ progs = created_progs log.
Proof. intros fails sp repl base os log progs maps vars ND H. destruct (newCollection_success_owns _ _ _ _ _ _ _ _ _ ND H) as (H1 & H2 & H3 & _). auto. Qed.
Theorem C66_assign_error : forall fails sp repl base fs order log l e, NoDup order -> loadAndAssign fails sp repl base fs order = (log, l, Err e) ->
  Permutation (closed log) (created log) /\ NoDup (closed log) /\ (forall o, o < base -> ~ In o (closed log)).
Proof.
  intros fails sp repl base fs order log l e ND H. pose proof (loadAndAssign_log _ _ _ _ _ _ _ _ _ ND H) as Hh. apply history_once in Hh. destruct Hh as (_ & H2 & _ & H4 & _ & _ & H7).
  split; [exact (loadAndAssign_error_closes _ _ _ _ _ _ _ _ _ ND H)|]. split; auto. intros o Ho Hin. apply H4, H7 in Hin. lia.
Qed.
(** exactly what isn't in a field is closed; a field holds the object of its name *)
Theorem C66_assign_success : forall fails sp repl base fs order log l u, NoDup order -> loadAndAssign fails sp repl base fs order = (log, l, Ok u) ->
  Forall2 (assigned sp log) fs l /\ Permutation (created log) (closed log ++ owned fs l) /\ NoDup (created log) /\ (forall o, o < base -> ~ In o (closed log)).
Proof.
  intros fails sp repl base fs order log l u ND H. pose proof (loadAndAssign_log _ _ _ _ _ _ _ _ _ ND H) as Hh. apply history_once in Hh. destruct Hh as (H1 & _ & _ & H4 & _ & _ & H7).
  destruct (loadAndAssign_success_owns _ _ _ _ _ _ _ _ _ ND H) as (A & B & _). split; [auto|]. split; [auto|]. split; [auto|]. intros o Ho Hin. apply H4, H7 in Hin. lia.
Qed.
(** *** C67: every program is loaded with the right maps, every reference in a map is resolved to the right object; nothing is used after it
    is closed, no object of a name is created twice.  [history] is in LoaderSpec.v. *)
Theorem C67_collection : forall fails sp repl base os log r, NoDup (o_populate os) -> newCollection fails sp repl base os = (log, r) ->
  history sp repl base log /\ NoDup (map fst (created_maps log)) /\ NoDup (map fst (created_progs log)).
Proof. intros fails sp repl base os log r ND H. pose proof (newCollection_log _ _ _ _ _ _ _ ND H) as Hh. split; auto. apply history_once in Hh. tauto. Qed.
Theorem C67_assign : forall fails sp repl base fs order log l r, NoDup order -> loadAndAssign fails sp repl base fs order = (log, l, r) ->
  history sp repl base log /\ NoDup (map fst (created_maps log)) /\ NoDup (map fst (created_progs log)).
Proof. intros fails sp repl base fs order log l r ND H. pose proof (loadAndAssign_log _ _ _ _ _ _ _ _ _ ND H) as Hh. split; auto. apply history_once in Hh. tauto. Qed.
(** *** C68: a collection is complete, and every map is populated exactly once, unless it replaces an ordinary map *)
Theorem C68_collection : forall fails sp repl base os log progs maps vars,
  Permutation (o_maps os) (map fst (s_maps sp)) -> Permutation (o_progs os) (map fst (s_progs sp)) -> Permutation (o_vars os) (map fst (s_vars sp)) ->
  Permutation (o_populate os) (map fst (s_maps sp)) -> NoDup (map fst (s_maps sp)) ->
  newCollection fails sp repl base os = (log, Ok (progs, maps, vars)) ->
  Permutation (map fst maps) (map fst (s_maps sp)) /\
  (forall n, In n (map fst progs) <-> exists ps, get (s_progs sp) n = Some ps /\ ps_unspec ps = false) /\
  (forall n, In n (map fst (s_vars sp)) -> In n (map fst vars)) /\
  (forall n o, In (n, o) maps -> (In o (finalized log) <-> ~ (get repl n <> None /\ exists ms, get (s_maps sp) n = Some ms /\ ms_kind ms = Scalar))) /\
  NoDup (finalized log).
Proof. exact newCollection_complete. Qed.
Theorem C68_assign : forall fails sp repl base fs order log l u, NoDup order -> incl (flat_map (needed_by sp) fs) order ->
  loadAndAssign fails sp repl base fs order = (log, l, Ok u) ->
  (forall n, In n (flat_map (needed_by sp) fs) -> exists o, In (n, o) (created_maps log) /\
     (In o (finalized log) <-> ~ (get repl n <> None /\ exists ms, get (s_maps sp) n = Some ms /\ ms_kind ms = Scalar))) /\
  (forall n o ms, In (n, o) (created_maps log) -> get (s_maps sp) n = Some ms -> ms_kind ms = OfProgs -> ms_contents ms <> [] -> In (FMap, n) (map (fun f => (f_type f, f_name f)) fs)) /\
  NoDup (finalized log).
Proof.
  intros fails sp repl base fs order log l u ND Hi H. destruct (loadAndAssign_populated _ _ _ _ _ _ _ _ _ ND Hi H) as [A B]. split; [auto|]. split; [auto|].
  pose proof (loadAndAssign_log _ _ _ _ _ _ _ _ _ ND H) as Hh. apply history_once in Hh. tauto.
Qed.
Theorem C68_refuted_lazy :
  flat_map (needed_by lazy_spec) [mkField FMap 0 true] = [0] /\
  exists log1 log2,
    loadAndAssign never lazy_spec [] 100 [mkField FMap 0 true] [0] = (log1, [100], Ok tt) /\
    loadAndAssign never lazy_spec [] 100 [mkField FMap 0 true] [0; 1] = (log2, [100], Ok tt) /\
    (In (1, 101) (created_maps log1) /\ In (ECreateProg 10 102 [Some 101]) log1 /\ In (EFinalize 100 [(7%Z, RProg 102)]) log1 /\ ~ In 101 (finalized log1)) /\
    (In (1, 101) (created_maps log2) /\ In (ECreateProg 10 102 [Some 101]) log2 /\ In (EFinalize 100 [(7%Z, RProg 102)]) log2 /\ In (EFinalize 101 [(0%Z, RMap 103)]) log2).
Proof. exact loadAndAssign_lazy_populate_refuted. Qed.
Theorem C68_refuted_fields : exists fails log l e,
  loadAndAssign fails lazy_spec [] 100 [mkField FMap 0 true] [0] = (log, l, Err e) /\ l = [100] /\ In 100 (closed log).
Proof. exact loadAndAssign_error_fields_refuted. Qed.
(** *** C69: every object of a collection has one owner *)
Theorem C69_ownership : forall fails sp repl base os log progs maps vars ops, NoDup (o_populate os) ->
  newCollection fails sp repl base os = (log, Ok (progs, maps, vars)) ->
  let (c, received) := run_ops (mkColl progs maps vars) ops in
  Permutation (created log) (received ++ closeColl c) /\ NoDup (received ++ closeColl c).
Proof.
  intros fails sp repl base os log progs maps vars ops ND H. pose proof (newCollection_wf _ _ _ _ _ _ _ _ _ ND H) as W. destruct (collection_ownership ops _ W) as [A B].
  destruct (run_ops (mkColl progs maps vars) ops) as [c r]. cbn [fst snd] in *. split; auto. rewrite <- A. unfold closeColl, created. cbn. destruct (newCollection_success_owns _ _ _ _ _ _ _ _ _ ND H) as (_ & -> & -> & _). apply Permutation_app_comm.
Qed.
Theorem C69_assign : forall c fs c' l r, assign c fs = (c', l, r) ->
  match r with
  | Ok _ => Forall2 (fun f o => In (f_name f, o) (match f_type f with FProg => c_progs c | FMap => c_maps c | FVar => c_vars c end)) fs l /\ NoDup (map (fun f => (f_type f, f_name f)) fs)
  | Err _ => c' = c
  end.
Proof. intros c fs c' l [u|e] H; [destruct (assign_values _ _ _ _ _ H) as (A & B & _); auto|eapply assign_error_keeps; eauto]. Qed.
Theorem C69_fields : forall h ty n r, (exists fuel, ebpfFields fuel h ty [] n = Ok r) <-> fields_of h n r.
Proof. exact ebpfFields_correct. Qed.
Theorem C69_refuted_recursion : exists h ty, forall fuel, ebpfFields fuel h ty [] 0 = Err FDiverges.
Proof. exact ebpfFields_recursion_refuted. Qed.

Print Assumptions C66_collection_error.
Print Assumptions C66_collection_success.
Print Assumptions C66_assign_error.
Print Assumptions C66_assign_success.
Print Assumptions C67_collection.
Print Assumptions C67_assign.
Print Assumptions C68_collection.
Print Assumptions C68_assign.
Print Assumptions C69_ownership.
Print Assumptions C69_assign.
Print Assumptions C69_fields.
