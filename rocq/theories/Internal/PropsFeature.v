(** Properties C70 and C71: feature tests and versions. *)
From Coq Require Import List Bool Arith Lia.
From Verif.Base Require Import GoInt.
From Verif.Internal Require Import Feature FeatureProof Version.
Import ListNotations.

(** ** C70: feature tests *)
(** a FeatureTest whose Fn may answer anything; [version]: whether its version can be parsed *)
Definition test_can (version : bool) (k : unit) (o : outcome answer answer) : Prop := exists r, o = classify version r.
(** what callers get: an answer of Fn; "not supported" only if Fn said so; conclusive answers are the same for all callers *)
Theorem C70_answers : forall version s t o, reachable unit_eq (test_can version) s -> pcs s t = Some (PDone tt o) ->
  (exists u r, In (u, tt, o) (runs s) /\
     match r with FnNil => o = Conclusive ASupported | FnNotSupported => o = if version then Conclusive AUnsupported else Inconclusive AVersion | FnError e => o = Inconclusive (ADetect e) end) /\
  (is_not_supported (returned o) = true -> o = Conclusive AUnsupported) /\
  (forall a, o = Conclusive a -> forall u b, pcs s u = Some (PDone tt (Conclusive b)) -> b = a).
Proof.
  intros version s t o HR HP. pose proof (once_returns _ _ _ _ _ s HR t tt o HP) as [[r Hr] Ho]. split; [|split].
  - destruct o as [a|e]; [destruct Ho as [[u Hu] _]; exists u, r; split; [auto|]|exists t, r; split; [auto|]]; rewrite Hr; now destruct r.
  - subst o. destruct r; cbn; [discriminate| |discriminate]. destruct version; [reflexivity|discriminate].
  - intros a ->. destruct Ho as [_ Hu]. exact Hu.
Qed.
(** Fn runs one at a time, and never again after a conclusive answer *)
Theorem C70_runs : forall version s, reachable unit_eq (test_can version) s ->
  (forall pre t a post, runs s = pre ++ (t, tt, Conclusive a) :: post -> post = []) /\
  (forall t u, pcs s t = Some (PRunning tt) -> pcs s u = Some (PRunning tt) -> t = u) /\
  (forall t u a, In (t, tt, Conclusive a) (runs s) -> pcs s u <> Some (PRunning tt)).
Proof.
  intros version s HR. destruct (once_runs _ _ _ _ _ s HR) as (A & B & C). split; [|split].
  - intros pre t a post H. destruct post as [|[[u []] o] post]; auto. exfalso. apply (A _ _ _ _ _ H u o). now left.
  - intros t u. apply B.
  - intros t u a H. apply (C _ _ _ _ H).
Qed.
(** a call made after a conclusive answer gets it without Fn being run *)
Theorem C70_cached : forall version s s' t u a, reachable unit_eq (test_can version) s -> pcs s t = Some (PDone tt (Conclusive a)) -> pcs s u = None ->
  steps unit_eq (test_can version) s s' -> (forall o, pcs s' u = Some (PDone tt o) -> o = Conclusive a) /\ (forall x, In x (runs s') -> In x (runs s)).
Proof.
  intros version s s' t u a HR A B S. destruct (once_later _ _ _ _ _ s s' t u tt a HR A B S) as [C D]. split; auto. intros [[w []] o]. apply D.
Qed.
(** nobody waits forever, and the cache isn't accessed without synchronisation *)
Theorem C70_progress : forall version s t p, reachable unit_eq (test_can version) s -> pcs s t = Some p -> (forall k o, p <> PDone k o) ->
  exists u s', step unit_eq (test_can version) s u s' /\ pcs s u <> None.
Proof. intros version s t p HR HP HN. eapply once_progress; eauto. intros k. exists (classify version FnNil). now exists FnNil. Qed.
Theorem C70_no_race : forall version s t u k v, reachable unit_eq (test_can version) s -> pcs s t = Some (PWrite k v) -> touches _ _ _ (pcs s u) = true -> u = t.
Proof. intros. eapply once_no_race; eauto. Qed.

(** FeatureCache: one test per key, hence one conclusive answer per key *)
Lemma creach_parts : forall K Keq test_for version (s : fcache K), creach K Keq test_for version s ->
  reachable Keq (fun k o => match o with Conclusive i => test_for k i | Inconclusive _ => False end) (fc_cache _ s) /\ (forall i, reachable unit_eq (fun _ o => exists r, o = classify (version i) r) (fc_tests _ s i)).
Proof.
  intros K Keq test_for version s H. induction H as [|a b H IH S].
  - split; [constructor|intros; constructor].
  - destruct IH as [IH1 IH2]. destruct S as [c c' f t S|c f t k i s' A S]; cbn in *.
    + split; auto. econstructor; eauto.
    + split; auto. intros j. unfold settest. destruct (Nat.eq_dec j i); [subst; econstructor; [apply IH2|eauto]|auto].
Qed.
Theorem C70_cache : forall K Keq test_for version (s : fcache K) t u k a b, creach K Keq test_for version s ->
  result K s t k (Conclusive a) -> result K s u k (Conclusive b) -> a = b.
Proof.
  intros K Keq test_for version s t u k a b H (i & A1 & A2) (j & B1 & B2). apply creach_parts in H. destruct H as [H1 H2].
  destruct (once_returns _ _ _ _ _ _ H1 _ _ _ A1) as [_ [_ Hij]]. specialize (Hij _ _ B1). subst j.
  destruct (once_returns _ _ _ _ _ _ (H2 i) _ _ _ A2) as [_ [_ Hab]]. specialize (Hab _ _ B2). auto.
Qed.
Theorem C70_cache_tests : forall K Keq test_for version (s : fcache K) t u k i j, creach K Keq test_for version s ->
  pcs (fc_cache _ s) t = Some (PDone k (Conclusive i)) -> pcs (fc_cache _ s) u = Some (PDone k (Conclusive j)) -> i = j /\ test_for k i.
Proof.
  intros K Keq test_for version s t u k i j H A B. apply creach_parts in H. destruct H as [H1 _].
  destruct (once_returns _ _ _ _ _ _ H1 _ _ _ A) as [C [_ Hij]]. specialize (Hij _ _ B). auto.
Qed.

(** a run: calls 0 and 1 both find nothing; call 0 probes in vain; then call 1 probes itself; call 2 gets what it found *)
Local Open Scope nat_scope.
Example feature_run : exists s, reachable unit_eq (test_can true) s /\ pcs s 0 = Some (PDone tt (Inconclusive (ADetect 5))) /\ pcs s 1 = Some (PDone tt (Conclusive AUnsupported)) /\ pcs s 2 = Some (PDone tt (Conclusive AUnsupported)).
Proof.
  assert (C1 : test_can true tt (Inconclusive (ADetect 5))) by (now exists (FnError 5)). assert (C2 : test_can true tt (Conclusive AUnsupported)) by (now exists FnNotSupported).
  pose proof (steps_refl unit answer answer unit_eq (test_can true) init) as H. unfold init in H.
  Ltac go H tac := match type of H with steps _ _ ?a ?s => refine (_ (steps_snoc _ _ _ _ _ a s _ _ H ltac:(tac))); clear H; intro H end.
  go H ltac:(idtac; eapply st_call with (t := 0) (k := tt); reflexivity).
  go H ltac:(idtac; eapply st_call with (t := 1) (k := tt); reflexivity).
  go H ltac:(idtac; eapply st_rlock with (t := 0); reflexivity).
  go H ltac:(idtac; eapply st_rlock with (t := 1); reflexivity).
  go H ltac:(idtac; eapply st_read with (t := 0); reflexivity).
  go H ltac:(idtac; eapply st_read with (t := 1); reflexivity).
  go H ltac:(idtac; eapply st_runlock with (t := 0); reflexivity).
  go H ltac:(idtac; eapply st_runlock with (t := 1); reflexivity).
  cbn [remove Nat.eq_dec] in H.
  go H ltac:(idtac; eapply st_lock with (t := 0); reflexivity).
  go H ltac:(idtac; eapply st_run with (t := 0) (k := tt); reflexivity).
  go H ltac:(idtac; eapply st_no with (t := 0) (k := tt) (e := ADetect 5); [reflexivity|exact C1]).
  go H ltac:(idtac; eapply st_unlock with (t := 0); reflexivity).
  go H ltac:(idtac; eapply st_lock with (t := 1); reflexivity).
  go H ltac:(idtac; eapply st_run with (t := 1) (k := tt); reflexivity).
  go H ltac:(idtac; eapply st_yes with (t := 1) (k := tt) (v := AUnsupported); [reflexivity|exact C2]).
  go H ltac:(idtac; eapply st_write with (t := 1); reflexivity).
  go H ltac:(idtac; eapply st_unlock with (t := 1); reflexivity).
  go H ltac:(idtac; eapply st_call with (t := 2) (k := tt); reflexivity).
  go H ltac:(idtac; eapply st_rlock with (t := 2); reflexivity).
  go H ltac:(idtac; eapply st_read with (t := 2); reflexivity).
  go H ltac:(idtac; eapply st_runlock with (t := 2); reflexivity).
  go H ltac:(idtac; eapply st_hit with (t := 2); reflexivity).
  eexists. split; [exact H|]. repeat split.
Qed.
Local Close Scope nat_scope.

(** ** C71: versions *)
Lemma less_spec : forall v w, less v w = true <-> v_major v < v_major w \/ (v_major v = v_major w /\ (v_minor v < v_minor w \/ (v_minor v = v_minor w /\ v_patch v < v_patch w))).
Proof. intros [a b c] [d e f]. unfold less. cbn. destruct (Z.eqb_spec a d), (Z.eqb_spec b e), (Z.eqb_spec c f); cbn; rewrite ?Z.ltb_lt; split; intros; try discriminate; lia. Qed.
(** Less is a strict total order; Unspecified is the least version *)
Theorem C71_order : (forall v, less v v = false) /\ (forall u v w, less u v = true -> less v w = true -> less u w = true) /\
  (forall v w, v = w \/ less v w = true \/ less w v = true) /\ (forall v, version_ok v -> unspecified v = true <-> less (mkVersion 0 0 0) v = false).
Proof.
  repeat split.
  - intros v. destruct (less v v) eqn:E; auto. apply less_spec in E. lia.
  - intros u v w A B. rewrite less_spec in *. lia.
  - intros [a b c] [d e f]. rewrite !less_spec. cbn. destruct (Z.eq_dec a d), (Z.eq_dec b e), (Z.eq_dec c f); subst; auto; right; lia.
  - intros Hu. destruct v as [a b c], H as (H1 & H2 & H3). destruct (less (mkVersion 0 0 0) (mkVersion a b c)) eqn:E; auto. apply less_spec in E. unfold unspecified in Hu. cbn in *. lia.
  - intros E. destruct v as [a b c], H as (H1 & H2 & H3). unfold in_u in *. cbn in H1, H2, H3. destruct (unspecified (mkVersion a b c)) eqn:Hu; auto. assert (X : less (mkVersion 0 0 0) (mkVersion a b c) = true); [|congruence].
    apply less_spec. unfold unspecified in Hu. cbn in *. lia.
Qed.
Lemma kernel_mod : forall v, version_ok v -> kernel v = (v_major v mod 256) * 65536 + (v_minor v mod 256) * 256 + Z.min (v_patch v) 255.
Proof.
  intros [a b c] (H1 & H2 & H3). unfold in_u in *. cbn in *. unfold kernel, u8, wrapu. cbn [v_major v_minor v_patch]. change (2 ^ 8) with 256.
  rewrite (Z.mod_small (Z.min c 255)) by lia. pose proof (Z.mod_pos_bound a 256 ltac:(lia)) as Ma. pose proof (Z.mod_pos_bound b 256 ltac:(lia)) as Mb.
  generalize dependent (a mod 256). generalize dependent (b mod 256). clear a b H1 H2. intros b Hb a Ha. rewrite !Z.shiftl_mul_pow2 by lia. change (2 ^ 16) with 65536. change (2 ^ 8) with 256.
  replace (a * 65536) with (a * 2 ^ 16) by lia. rewrite (lor_disjoint_add (b * 256) a 16) by lia.
  replace (a * 2 ^ 16 + b * 256) with ((a * 256 + b) * 2 ^ 8) by lia. rewrite (lor_disjoint_add (Z.min c 255) _ 8) by lia. lia.
Qed.
Lemma kernel_sum : forall v, version_ok v -> v_major v < 256 -> v_minor v < 256 -> kernel v = v_major v * 65536 + v_minor v * 256 + Z.min (v_patch v) 255.
Proof. intros v H A B. rewrite kernel_mod by auto. destruct H as (H1 & H2 & H3). unfold in_u in *. rewrite !Z.mod_small by lia. reflexivity. Qed.
(** Kernel is KERNEL_VERSION and NewVersionFromCode its inverse; codes are ordered like versions, except that patch levels from 255 on are the same *)
Theorem C71_code : (forall v, version_ok v -> v_major v < 256 -> v_minor v < 256 -> v_patch v < 256 -> fromCode (kernel v) = v) /\
  (forall c, 0 <= c < 2 ^ 24 -> kernel (fromCode c) = c) /\
  (forall v, version_ok v -> kernel v = (v_major v mod 256) * 65536 + (v_minor v mod 256) * 256 + Z.min (v_patch v) 255) /\
  (forall v w, version_ok v -> version_ok w -> v_major v < 256 -> v_minor v < 256 -> v_major w < 256 -> v_minor w < 256 ->
     (less v w = true -> kernel v <= kernel w) /\ (kernel v < kernel w -> less v w = true) /\ (less v w = true -> v_patch v < 255 -> kernel v < kernel w)).
Proof.
  split; [|split; [|split; [exact kernel_mod|]]].
  - intros v H A B C. rewrite kernel_sum by auto. destruct v as [a b c]. destruct H as (H1 & H2 & H3). unfold in_u in *. cbn in *. unfold fromCode, u16, u8, wrapu. rewrite !Z.shiftr_div_pow2 by lia.
    change (2 ^ 16) with 65536. change (2 ^ 8) with 256. f_equal; lia.
  - intros c H. change (2 ^ 24) with 16777216 in H. rewrite kernel_sum; unfold fromCode, version_ok, in_u, u16, u8, wrapu; cbn [v_major v_minor v_patch]; rewrite ?Z.shiftr_div_pow2 by lia; change (2 ^ 16) with 65536; change (2 ^ 8) with 256; lia.
  - intros v w Hv Hw A B C D. rewrite !kernel_sum by auto. rewrite less_spec. destruct Hv as (? & ? & ?), Hw as (? & ? & ?). unfold in_u in *. change (2 ^ 16) with 65536 in *. lia.
Qed.
(** beyond 255 the members wrap *)
Theorem C71_refuted_wrap : exists v w, version_ok v /\ version_ok w /\ less v w = true /\ kernel w < kernel v.
Proof. exists (mkVersion 5 255 0), (mkVersion 5 256 0). repeat split; vm_compute; congruence. Qed.
Example version_ex : kernel (mkVersion 4 9 337) = 264703 /\ fromCode 264703 = mkVersion 4 9 255 /\ less (mkVersion 4 19 0) (mkVersion 5 4 0) = true.
Proof. repeat split. Qed.
(** the first entry which is for this platform counts *)
Theorem C71_select : forall goos native linux l v, selectVersion goos native linux l = Some v ->
  exists pre x post, l = pre ++ x :: post /\ Forall (fun y => match y with VTag os _ => os <> goos /\ (native = 0%nat \/ os <> native) | VPlain _ => native <> linux end) pre /\
    match x with VTag os w => w = v /\ (os = goos \/ os = native) | VPlain w => w = v /\ native = linux end.
Proof.
  intros goos native linux l v. induction l as [|x l IH]; intros H; cbn in H; [discriminate|]. destruct x as [os w|w].
  - destruct (Nat.eqb_spec os goos); [injection H as <-; exists [], (VTag os w), l; repeat split; auto|].
    destruct (negb (Nat.eqb native 0) && negb (Nat.eqb native goos) && Nat.eqb os native)%bool eqn:E.
    + injection H as <-. exists [], (VTag os w), l. repeat split; auto. apply andb_prop in E. destruct E as [_ E]. apply Nat.eqb_eq in E. auto.
    + destruct (IH H) as (pre & x & post & -> & F & X). exists (VTag os w :: pre), x, post. repeat split; auto. constructor; auto. split; auto.
      destruct (Nat.eqb_spec native 0); auto. destruct (Nat.eqb_spec os native); auto. subst. cbn in E. destruct (Nat.eqb_spec native goos); [congruence|discriminate].
  - destruct (Nat.eqb_spec native linux); [injection H as <-; exists [], (VPlain w), l; repeat split; auto|].
    destruct (IH H) as (pre & x & post & -> & F & X). exists (VPlain w :: pre), x, post. repeat split; auto.
Qed.

Print Assumptions C70_answers.
Print Assumptions C70_runs.
Print Assumptions C70_cached.
Print Assumptions C70_progress.
Print Assumptions C70_cache.
Print Assumptions C71_code.
