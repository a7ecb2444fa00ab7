(** C104: the limit of locked memory. *)
From Coq Require Import List Bool Arith NArith Lia.
From Verif Require Import Sys.Rlimit.
Import ListNotations.
Open Scope N_scope.

Definition wf (p : proc) : Prop := cur (lim p) <= max (lim p) /\ max (lim p) <= RLIM_INFINITY.
Ltac go := repeat match goal with
  | |- context[match ?x with _ => _ end] => match x with context[match _ with _ => _ end] => fail 1 | _ => destruct x eqn:? end
  | H : context[match ?x with _ => _ end] |- _ => match x with context[match _ with _ => _ end] => fail 1 | _ => destruct x eqn:? end
  end.
(** Looking whether the limit counts leaves it as it was, and leaves no map behind, whatever fails, unless setting the limit back fails by itself; even then the upper limit, which can't be raised again, isn't lowered. *)
Theorem C104_restored : forall k o1 o2 p h p', wf p -> detectMemcgAccounting k o1 o2 None p = (h, p') -> p' = p.
Proof.
  intros k o1 o2 [[c m] n] h p' [W1 W2] E. cbn in W1, W2. unfold detectMemcgAccounting, getLimit, setLimit, mapCreate, exceeds in E. cbn [lim cur max probes] in E.
  assert (L1 : m <? 0 = false) by (apply N.ltb_ge; lia). assert (L2 : m <? m = false) by (apply N.ltb_irrefl). assert (L3 : m <? c = false) by (apply N.ltb_ge; lia).
  destruct o1; [inversion E; auto|]. destruct o2; [inversion E; auto|]. rewrite L1, L2 in E. cbn [andb] in E. destruct (refuses k) as [[e b]|].
  - cbn [lim cur max probes] in E. rewrite L3, L2 in E. cbn [andb] in E. destruct b; [inversion E; auto|]. destruct (e =? EPERM); inversion E; auto.
  - destruct (_ && _); cbn [lim cur max probes] in E; rewrite L3, L2 in E; cbn [andb pred] in E; inversion E; auto.
Qed.
Theorem C104_max : forall k o1 o2 o3 p h p', detectMemcgAccounting k o1 o2 o3 p = (h, p') -> max (lim p') = max (lim p).
Proof.
  intros k o1 o2 o3 [[c m] n] h p' E. unfold detectMemcgAccounting, getLimit, setLimit, mapCreate in E. cbn [lim cur max probes] in E. repeat (go; cbn [lim cur max probes] in *; try (inversion E; subst; clear E)); repeat match goal with H : (_, _) = (_, _) |- _ => inversion H; subst; clear H end; cbn in *; auto.
Qed.
(** If the process may make maps, it is found out whether the limit counts. *)
Theorem C104_detected : forall k p, wf p -> 0 < size k -> refuses k = None -> fst (detectMemcgAccounting k None None None p) = if memcg k then Supported else Unsupported.
Proof.
  intros k [[c m] n] [W1 W2] S R. cbn in W1, W2. unfold detectMemcgAccounting, getLimit, setLimit, mapCreate, exceeds. rewrite R. cbn [lim cur max probes].
  assert (L1 : m <? 0 = false) by (apply N.ltb_ge; lia). assert (L2 : m <? m = false) by (apply N.ltb_irrefl). assert (L3 : m <? c = false) by (apply N.ltb_ge; lia). assert (L4 : 0 <? locked k + size k = true) by (apply N.ltb_lt; lia).
  rewrite L1, L2. cbn [andb lim cur max probes]. rewrite L4. destruct (memcg k); cbn [negb andb lim cur max probes]; rewrite L3, L2; reflexivity.
Qed.
Definition detected (k : kernel) (p : proc) : have := fst (detectMemcgAccounting k None None None p).
(** Where the limit doesn't count, RemoveMemlock succeeds and changes nothing. Where it does, it succeeds exactly if the process may raise the limit, and no map of any size is then refused for the limit; if not, nothing changes. This is so however often it is called. *)
Theorem C104_remove : forall k p os, wf p -> 0 < size k -> refuses k = None -> (forall o, In o os -> o = None) -> os <> [] ->
  let '(rs, p') := removes k (detected k p) os p in
  if memcg k then Forall (eq None) rs /\ p' = p
  else if resource k || (max (lim p) =? RLIM_INFINITY) then Forall (eq None) rs /\ (forall n, locked k + n <= RLIM_INFINITY -> exceeds k n p' = false) /\ probes p' = probes p
  else Forall (eq (Some (ENotSet EPERM))) rs /\ p' = p.
Proof.
  intros k p os W S R F NE. unfold detected. rewrite C104_detected by auto. destruct (memcg k) eqn:M.
  - clear F NE. induction os as [|o os IH]; cbn [removes RemoveMemlock]; [split; [constructor|auto]|]. destruct (removes k Supported os p). destruct IH as [A B]. split; [now constructor|auto].
  - assert (O : forall q, wf q -> RemoveMemlock k Unsupported None q = if resource k || (max (lim q) =? RLIM_INFINITY) then (None, Proc (Limit RLIM_INFINITY RLIM_INFINITY) (probes q)) else (Some (ENotSet EPERM), q)).
    { intros [[c m] n] [W1 W2]. cbn [lim cur max] in W1, W2. unfold RemoveMemlock, setLimit. cbn [lim cur max probes]. rewrite N.ltb_irrefl. destruct (resource k); cbn [negb andb orb]; [now rewrite andb_false_r|]. rewrite andb_true_r.
      destruct (N.eqb_spec m RLIM_INFINITY) as [->|NM]; [now rewrite N.ltb_irrefl|]. assert (L : m <? RLIM_INFINITY = true) by (apply N.ltb_lt; lia). now rewrite L. }
    destruct (resource k || (max (lim p) =? RLIM_INFINITY)) eqn:C.
    + assert (G : forall os q, (forall o, In o os -> o = None) -> wf q -> resource k || (max (lim q) =? RLIM_INFINITY) = true -> let '(rs, q') := removes k Unsupported os q in Forall (eq None) rs /\ probes q' = probes q /\ (os <> [] -> lim q' = Limit RLIM_INFINITY RLIM_INFINITY) /\ (lim q = Limit RLIM_INFINITY RLIM_INFINITY -> lim q' = lim q)).
      { clear os F NE. induction os as [|o os IH]; intros q F WQ CQ; cbn [removes]; [repeat split; auto; easy|]. rewrite (F o) by now left. rewrite O, CQ by exact WQ.
        specialize (IH (Proc (Limit RLIM_INFINITY RLIM_INFINITY) (probes q)) (fun o I => F o (or_intror I))). destruct (removes k Unsupported os _) as [rs q']. destruct IH as (A & B & D & E); [split; cbn [lim cur max]; lia|cbn [lim max]; rewrite N.eqb_refl; apply orb_true_r|].
        cbn [lim probes] in *. repeat split; auto. intros Q. rewrite Q. apply E. reflexivity. }
      specialize (G os p F W C). destruct (removes k Unsupported os p) as [rs p']. destruct G as (A & B & D & _). split; auto. split; auto. intros n L. unfold exceeds. rewrite (D NE). cbn [cur]. rewrite M. cbn [negb andb]. now apply N.ltb_ge.
    + clear NE. induction os as [|o os IH]; cbn [removes]; [split; [constructor|auto]|]. rewrite (F o) by now left. rewrite O, C by exact W. destruct (removes k Unsupported os p). destruct IH as [A B]; [intros; apply F; now right|]. split; [now constructor|auto].
Qed.
(** With a token that doesn't allow maps, nothing is done: such kernels don't count. *)
Theorem C104_token : forall k p e o, wf p -> refuses k = Some (e, true) -> RemoveMemlock k (detected k p) o p = (None, p).
Proof.
  intros k [[c m] n] e o [W1 W2] R. cbn in W1, W2. unfold detected, detectMemcgAccounting, getLimit, setLimit, mapCreate. rewrite R. cbn [lim cur max probes].
  assert (L1 : m <? 0 = false) by (apply N.ltb_ge; lia). assert (L2 : m <? m = false) by (apply N.ltb_irrefl). assert (L3 : m <? c = false) by (apply N.ltb_ge; lia).
  rewrite L1, L2. cbn [andb lim cur max probes]. rewrite L3, L2. reflexivity.
Qed.
(** If it can't be found out, RemoveMemlock says so, and doesn't touch the limit. *)
Theorem C104_unknown : forall k p e o, wf p -> refuses k = Some (e, false) -> e <> EPERM -> RemoveMemlock k (detected k p) o p = (Some ENotDetected, p).
Proof.
  intros k [[c m] n] e o [W1 W2] R NE. cbn in W1, W2. unfold detected, detectMemcgAccounting, getLimit, setLimit, mapCreate. rewrite R. cbn [lim cur max probes].
  assert (L1 : m <? 0 = false) by (apply N.ltb_ge; lia). assert (L2 : m <? m = false) by (apply N.ltb_irrefl). assert (L3 : m <? c = false) by (apply N.ltb_ge; lia).
  rewrite L1, L2. cbn [andb lim cur max probes]. rewrite L3, L2. cbn [andb]. apply N.eqb_neq in NE. rewrite NE. reflexivity.
Qed.
(** 64 KiB of 8 MiB; a kernel that counts, with and without CAP_SYS_RESOURCE *)
Theorem C104_example : let p := Proc (Limit 65536 8388608) 0 in let k r := Kernel false r None 4096 4096 in wf p /\
  detectMemcgAccounting (k true) None None None p = (Unsupported, p) /\ removes (k true) (detected (k true) p) [None; None] p = ([None; None], Proc (Limit RLIM_INFINITY RLIM_INFINITY) 0) /\
  removes (k false) (detected (k false) p) [None] p = ([Some (ENotSet EPERM)], p).
Proof. cbv zeta. split; [split; vm_compute; discriminate|]. repeat split; vm_compute; reflexivity. Qed.
(** A process that may not make maps gets the same error as one whose limit is exceeded: on a kernel where the limit doesn't count, RemoveMemlock, which should do nothing there, fails, or removes the limit if the process may. *)
Theorem C104_unprivileged_refuted : forall k p, wf p -> memcg k = true -> refuses k = Some (EPERM, false) -> max (lim p) < RLIM_INFINITY ->
  RemoveMemlock k (detected k p) None p = if resource k then (None, Proc (Limit RLIM_INFINITY RLIM_INFINITY) (probes p)) else (Some (ENotSet EPERM), p).
Proof.
  intros k [[c m] n] [W1 W2] M R LT. cbn in W1, W2. cbn [lim max] in LT. unfold detected, detectMemcgAccounting, getLimit, setLimit, mapCreate. rewrite R. cbn [lim cur max probes].
  assert (L1 : m <? 0 = false) by (apply N.ltb_ge; lia). assert (L2 : m <? m = false) by (apply N.ltb_irrefl). assert (L3 : m <? c = false) by (apply N.ltb_ge; lia).
  rewrite L1, L2. cbn [andb lim cur max probes]. rewrite L3, L2. cbn [andb]. rewrite N.eqb_refl. cbn [fst RemoveMemlock]. unfold setLimit. cbn [lim cur max probes]. rewrite N.ltb_irrefl. apply N.ltb_lt in LT. rewrite LT. destruct (resource k); reflexivity.
Qed.

Print Assumptions C104_restored.
Print Assumptions C104_max.
Print Assumptions C104_detected.
Print Assumptions C104_remove.
Print Assumptions C104_token.
Print Assumptions C104_unknown.
Print Assumptions C104_example.
Print Assumptions C104_unprivileged_refuted.
