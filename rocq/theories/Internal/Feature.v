(** Model of the caches for feature tests, internal/feature.go, under all schedules. *)
From Coq Require Import List Bool Arith Lia.
From Verif.Base Require Import GoInt.
Import ListNotations.
Local Open Scope nat_scope.

(** ** FeatureTest.execute (feature.go:108-152) and FeatureCache.retrieve (feature.go:209-228): both take the read lock, look, and take
    the write lock if there is nothing.  [K]: keys (unit for FeatureTest); [V]: what is remembered; [E]: what isn't. *)
Section Once.
  Variables K V E : Type.
  Variable Keq : forall a b : K, {a = b} + {a <> b}.
  (** of running the function: a result which is cached, or one which isn't *)
  Inductive outcome := Conclusive (v : V) | Inconclusive (e : E).
  (** the outcomes which the function may have for a key *)
  Variable can : K -> outcome -> Prop.
  Definition tid := nat.
  (** where a call is *)
  Inductive pc :=
  | PStart (k : K)                       (* before RLock, :109, :210 *)
  | PReading (k : K)                     (* RLock taken, :110, :211 *)
  | PGot (k : K) (c : option V)          (* read, :111, :212 *)
  | PAfter (k : K) (c : option V)        (* RUnlock done, :113, :214 *)
  | PLocked (k : K)                      (* Lock taken, :122, :221 *)
  | PRunning (k : K)                     (* the function is running, :126, :225 *)
  | PWrite (k : K) (v : V)               (* the function has returned, :128, :139, :226 *)
  | PUnlock (k : K) (r : outcome)        (* before the deferred Unlock *)
  | PDone (k : K) (r : outcome).
  (** the RWMutex: the writer and the readers; the cell of each key; calls; the runs of the function which have ended *)
  Record state := mkState { writer : option tid; readers : list tid; cell : K -> option V; pcs : tid -> option pc; runs : list (tid * K * outcome) }.
  Definition init : state := mkState None [] (fun _ => None) (fun _ => None) [].
  Definition setpc (f : tid -> option pc) (t : tid) (p : pc) : tid -> option pc := fun u => if Nat.eq_dec u t then Some p else f u.
  Definition setcell (f : K -> option V) (k : K) (v : V) : K -> option V := fun j => if Keq j k then Some v else f j.

  (** one step of call [t].  Go's RWMutex admits fewer schedules than this one (it prefers waiting writers). *)
  Inductive step : state -> tid -> state -> Prop :=
  | st_call : forall w r c p l t k, p t = None -> step (mkState w r c p l) t (mkState w r c (setpc p t (PStart k)) l)
  | st_rlock : forall r c p l t k, p t = Some (PStart k) -> step (mkState None r c p l) t (mkState None (t :: r) c (setpc p t (PReading k)) l)
  | st_read : forall w r c p l t k, p t = Some (PReading k) -> step (mkState w r c p l) t (mkState w r c (setpc p t (PGot k (c k))) l)
  | st_runlock : forall w r c p l t k x, p t = Some (PGot k x) -> step (mkState w r c p l) t (mkState w (remove Nat.eq_dec t r) c (setpc p t (PAfter k x)) l)
  | st_hit : forall w r c p l t k v, p t = Some (PAfter k (Some v)) -> step (mkState w r c p l) t (mkState w r c (setpc p t (PDone k (Conclusive v))) l)
  | st_lock : forall c p l t k, p t = Some (PAfter k None) -> step (mkState None [] c p l) t (mkState (Some t) [] c (setpc p t (PLocked k)) l)
  | st_second : forall w r c p l t k v, p t = Some (PLocked k) -> c k = Some v -> step (mkState w r c p l) t (mkState w r c (setpc p t (PUnlock k (Conclusive v))) l)
  | st_run : forall w r c p l t k, p t = Some (PLocked k) -> c k = None -> step (mkState w r c p l) t (mkState w r c (setpc p t (PRunning k)) l)
  | st_yes : forall w r c p l t k v, p t = Some (PRunning k) -> can k (Conclusive v) -> step (mkState w r c p l) t (mkState w r c (setpc p t (PWrite k v)) (l ++ [(t, k, Conclusive v)]))
  | st_write : forall w r c p l t k v, p t = Some (PWrite k v) -> step (mkState w r c p l) t (mkState w r (setcell c k v) (setpc p t (PUnlock k (Conclusive v))) l)
  | st_no : forall w r c p l t k e, p t = Some (PRunning k) -> can k (Inconclusive e) -> step (mkState w r c p l) t (mkState w r c (setpc p t (PUnlock k (Inconclusive e))) (l ++ [(t, k, Inconclusive e)]))
  | st_unlock : forall w r c p l t k o, p t = Some (PUnlock k o) -> step (mkState w r c p l) t (mkState None r c (setpc p t (PDone k o)) l).
  Inductive steps : state -> state -> Prop :=
  | steps_refl : forall s, steps s s
  | steps_snoc : forall a b t c, steps a b -> step b t c -> steps a c.
  Definition reachable (s : state) : Prop := steps init s.
End Once.
Arguments Conclusive {V E}. Arguments Inconclusive {V E}.
Arguments PStart {K V E}. Arguments PReading {K V E}. Arguments PGot {K V E}. Arguments PAfter {K V E}. Arguments PLocked {K V E}.
Arguments PRunning {K V E}. Arguments PWrite {K V E}. Arguments PUnlock {K V E}. Arguments PDone {K V E}.
Arguments writer {K V E}. Arguments readers {K V E}. Arguments cell {K V E}. Arguments pcs {K V E}. Arguments runs {K V E}. Arguments init {K V E}.
Arguments step {K V E}. Arguments steps {K V E}. Arguments reachable {K V E}. Arguments setpc {K V E}.

(** ** What a feature test says *)
(** of FeatureTestFn, feature.go:66-74: nil; an error which Is ErrNotSupported; another error *)
Inductive fnresult := FnNil | FnNotSupported | FnError (e : nat).
(** UnsupportedFeatureError is ErrNotSupported, feature.go:44-47; errors of NewVersion and of Fn are wrapped *)
Inductive answer := ASupported | AUnsupported | AVersion | ADetect (e : nat).
Definition is_not_supported (a : answer) : bool := match a with AUnsupported => true | _ => false end.
(** feature.go:126-151.  [version]: whether Version is "" or NewVersion accepts it *)
Definition classify (version : bool) (r : fnresult) : outcome answer answer :=
  match r with
  | FnNil => Conclusive ASupported
  | FnNotSupported => if version then Conclusive AUnsupported else Inconclusive AVersion
  | FnError e => Inconclusive (ADetect e)
  end.
(** feature.go:108: what execute returns *)
Definition returned (o : outcome answer answer) : answer := match o with Conclusive a | Inconclusive a => a end.

(** ** FeatureCache.Result, feature.go:200-207: the test of a key is looked up, or created by newTest; then it is executed.
    A test is a number; every test has its own mutex. *)
Section Cache.
  Variable K : Type.
  Variable Keq : forall a b : K, {a = b} + {a <> b}.
  (** [test_for k i]: newTest k may return the test [i]; [version i]: whether the version of test [i] can be parsed *)
  Variable test_for : K -> nat -> Prop.
  Variable version : nat -> bool.
  Definition unit_eq (a b : unit) : {a = b} + {a <> b} := match a, b with tt, tt => left eq_refl end.
  Definition cstate := state K nat Empty_set.                 (* retrieve can't fail *)
  Definition fstate := state unit answer answer.
  Record fcache := mkCache { fc_cache : cstate; fc_tests : nat -> fstate }.
  Definition settest (f : nat -> fstate) (i : nat) (s : fstate) : nat -> fstate := fun j => if Nat.eq_dec j i then s else f j.
  Inductive cstep : fcache -> fcache -> Prop :=
  | cs_retrieve : forall c c' f t, step Keq (fun k o => match o with Conclusive i => test_for k i | Inconclusive _ => False end) c t c' -> cstep (mkCache c f) (mkCache c' f)
  | cs_execute : forall c f t k i s', pcs c t = Some (PDone k (Conclusive i)) -> step unit_eq (fun _ o => exists r, o = classify (version i) r) (f i) t s' ->
      cstep (mkCache c f) (mkCache c (settest f i s')).
  Inductive creach : fcache -> Prop :=
  | cr_init : creach (mkCache init (fun _ => init))
  | cr_step : forall a b, creach a -> cstep a b -> creach b.
  (** call [t] of Result for [k] has returned [o] *)
  Definition result (s : fcache) (t : tid) (k : K) (o : outcome answer answer) : Prop :=
    exists i, pcs (fc_cache s) t = Some (PDone k (Conclusive i)) /\ pcs (fc_tests s i) t = Some (PDone tt o).
End Cache.
