(** Specification of C89 and C90: runs of one thread, of several that are interleaved or killed
    between any two system calls, and what is left behind. *)
From Verif Require Import Base.GoInt Pin.Pin.
Open Scope Z_scope.

Section Kernel.
Variable bpffs : path -> bool.
Variable devmapRO : bool.
(** One thread without interference; every call may fail *)
Inductive runs {A} (t : nat) : prog A -> world -> A -> world -> Prop :=
| RunRet : forall a w, runs t (Ret a) w a w
| RunCall : forall c f w w1 r a w2, kstep bpffs devmapRO w t c w1 r -> runs t (f r) w1 a w2 -> runs t (Call c f) w a w2.
(** ... if no call fails for other reasons than the state of the kernel *)
Fixpoint exec {A} (t : nat) (m : prog A) (w : world) : world * A :=
  match m with
  | Ret a => (w, a)
  | Call c f => let '(w, r) := kexec bpffs devmapRO w t c in exec t (f r) w
  end.
(** The recorded path of a handle is right. *)
Definition synced (h : handle) (w : world) : Prop := h_path h = [] \/ fs w (h_path h) = Some (h_obj h).
(** Uses of one handle *)
Inductive use := UPin (p : path) | UUnpin.
Definition useOf (h : handle) (u : use) : prog (handle * option err) := match u with UPin p => MapPin h p | UUnpin => MapUnpin h end.
Inductive uses (t : nat) : handle -> world -> list use -> handle -> world -> Prop :=
| UsesNil : forall h w, uses t h w [] h w
| UsesCons : forall h w u us h1 r w1 h2 w2, runs t (useOf h u) w (h1, r) w1 -> uses t h1 w1 us h2 w2 -> uses t h w (u :: us) h2 w2.
(** No call puts an object in the place of another. *)
Definition keepsPins (c : call) : Prop :=
  forall w t w' r, kstep bpffs devmapRO w t c w' r -> forall p o o', fs w p = Some o -> fs w' p = Some o' -> o' = o.
Fixpoint allCalls {A} (P : call -> Prop) (m : prog A) : Prop :=
  match m with Ret _ => True | Call c f => P c /\ forall r, allCalls P (f r) end.

(** Several threads; [None]: killed, which closes its descriptors *)
Definition threads A := list (option (prog A)).
Definition put {A} (l : list A) (i : nat) (a : A) : list A := update i (fun _ => a) l.
Inductive step {A} : world * threads A -> world * threads A -> Prop :=
| StepCall : forall w ts i c f w' r, nth_error ts i = Some (Some (Call c f)) -> kstep bpffs devmapRO w i c w' r ->
    step (w, ts) (w', put ts i (Some (f r)))
| StepKill : forall w ts i m, nth_error ts i = Some (Some m) ->
    step (w, ts) (World (objs w) (fs w) (nfd w) (filter (fun x => negb (Nat.eqb (fst x) i)) (fds w)), put ts i None).
Inductive steps {A} : world * threads A -> world * threads A -> Prop :=
| StepsNil : forall c, steps c c
| StepsCons : forall c1 c2 c3, steps c1 c2 -> step c2 c3 -> steps c1 c3.
End Kernel.

(** Descriptors are not numbered twice, and pins refer to objects. *)
Definition wf (w : world) : Prop :=
  NoDup (map snd (fds w)) /\ Forall (fun x => (snd x < nfd w)%nat) (fds w) /\ forall p o, fs w p = Some o -> (o < length (objs w))%nat.
Definition own (t : nat) (w : world) : list (nat * nat) := filter (fun x => Nat.eqb (fst x) t) (fds w).
(** A map that can be used for the spec *)
Definition usable (cpus : option Z) (s : spec) (w : world) (o : nat) : Prop :=
  exists x a, nth_error (objs w) o = Some x /\ o_attrs x = Some a /\ Compatible cpus (s_attrs s) a = None /\
    (forall k v, In (k, v) (s_contents s) -> o_data x k = Some v) /\ (s_const s = true -> o_frozen x = true).
