(** C84: references to kernel functions, variables and configuration. C85: handles. *)
From Coq Require Import String.
From Verif Require Import Base.GoInt Asm.Model Link.Fixups Link.FixupsSpec Link.FixupsProof.
Open Scope Z_scope.

Section Props.
Variable T : Type.
Notation insn := (insn T). Notation kernel := (kernel T).
Arguments Found {A}. Arguments Missing {A}. Arguments Broken {A}.
Arguments MKconfig {T}. Arguments MKsym {T}. Arguments MKfunc {T}.

Lemma pack_btf : forall id fd, 0 <= id < 2 ^ 32 -> 0 <= fd < 2 ^ 31 -> i64 (Z.lor (u32 id) (u64 (Z.shiftl fd 32))) = id + fd * 2 ^ 32.
Proof.
  intros id fd H1 H2. unfold u32, u64, wrapu. rewrite Z.shiftl_mul_pow2 by lia. rewrite (Z.mod_small id), (Z.mod_small (fd * _)) by lia.
  rewrite Z.lor_comm, (lor_disjoint_add _ _ 32) by lia. unfold i64, sext. rewrite Z.mod_small by lia. destruct (Z.ltb_spec (fd * 2 ^ 32 + id) (2 ^ (64 - 1))); lia.
Qed.
Lemma pack_off : forall off, 0 <= off < 2 ^ 32 -> i64 (u64 (Z.shiftl (u32 off) 32)) = i64 (off * 2 ^ 32).
Proof.
  intros off H. unfold u32, u64, wrapu. rewrite Z.shiftl_mul_pow2 by lia. rewrite (Z.mod_small off), (Z.mod_small (off * _)) by lia. reflexivity.
Qed.
Lemma jumpop_dword : forall op, IsDWordLoad op = true -> JumpOp op =? Call = false.
Proof. intros op H. unfold IsDWordLoad in H. apply Z.eqb_eq in H. subst op. reflexivity. Qed.
Lemma builtin_dword : forall i, IsDWordLoad (OpCode i) = true -> IsBuiltinCall i = false.
Proof. intros i H. unfold IsBuiltinCall. rewrite jumpop_dword by auto. reflexivity. Qed.
Lemma kfunc_builtin : forall i, IsKfuncCall i = true -> IsBuiltinCall i = false.
Proof. intros i H. unfold IsKfuncCall, IsBuiltinCall in *. apply andb_true_iff in H. destruct H as [_ H]. apply Z.eqb_eq in H. rewrite H. rewrite andb_false_r. reflexivity. Qed.
Lemma mapload_dword : forall i, IsLoadFromMap i = true -> IsDWordLoad (OpCode i) = true.
Proof. intros i H. unfold IsLoadFromMap in H. apply andb_true_iff in H. exact (proj1 H). Qed.
Lemma probe_not : forall k i, IsBuiltinCall i = false -> fixupProbeReadKernel T k i = i.
Proof. intros k i H. unfold fixupProbeReadKernel. rewrite H. reflexivity. Qed.
Lemma probe_spec : forall k i, IsBuiltinCall i = true -> k_probeRead T k = false -> - 2 ^ 31 <= Constant i < 2 ^ 32 ->
  fixupProbeReadKernel T k i = set_cons i (oldHelper (Constant i)).
Proof.
  intros k i H P B. unfold fixupProbeReadKernel. rewrite H, P. cbn [negb]. unfold oldHelper. cbn [existsb]. rewrite !orb_false_r.
  assert (U : u32 (Constant i) = Constant i \/ u32 (Constant i) = Constant i + 2 ^ 32 /\ Constant i < 0).
  { unfold u32, wrapu. destruct (Z_lt_ge_dec (Constant i) 0); [right; lia|left; apply Z.mod_small; lia]. }
  assert (E : forall n, 0 <= n < 2 ^ 31 -> (u32 (Constant i) =? n) = (Constant i =? n)) by (intros; lia).
  rewrite !E by lia. rewrite (orb_comm (Constant i =? 113)), (orb_comm (Constant i =? 115)).
  destruct ((Constant i =? 112) || _); [reflexivity|]. destruct ((Constant i =? 114) || _); [reflexivity|]. destruct i; reflexivity.
Qed.

(** The four stages together *)
Lemma stages : forall k o l2 l3 hs x y z u v, placed T x -> sane T k -> kconf T k o x y -> ksymDone T k l2 y z -> fv T k z u -> kfDone T k hs l3 u v ->
  (forall h, In h l2 -> In h l3) -> (forall n, o = Some n -> In (n, None) l3) ->
  replaced T k (fdArray T k hs) l3 x (fst v).
Proof.
  intros k o l2 l3 hs x y z u v P (S1 & S2 & S3) K Q V F L23 LO.
  assert (GEN : forall e, snd x = e -> (forall m off, e <> Some (MKconfig m off)) -> y = x).
  { intros e E N. unfold kconf, kc in K. destruct o; [|apply K]. rewrite E in K. destruct e as [[m off| |]|]; try exact K. exfalso. eapply N; reflexivity. }
  destruct V as (V1 & V2 & V3). unfold replaced, placed in *. destruct (snd x) as [[m off|name weak|name weak ty]|] eqn:E.
  - (* kconfig *) destruct P as [P1 P2]. unfold kconf in K. destruct o as [map|]; [|exfalso; apply (proj2 K m off E)].
    unfold kc in K. rewrite E in K. destruct K as (_ & K2 & K3).
    unfold ksymDone in Q. rewrite K2 in Q. subst z. unfold kfDone in F. rewrite V1, K2 in F. subst v.
    exists map. split; [apply LO; reflexivity|]. rewrite V2, K3, probe_not, pack_off by (auto; apply builtin_dword, mapload_dword; auto). reflexivity.
  - (* ksym *) rewrite (GEN _ eq_refl) in Q by discriminate. unfold ksymDone in Q. rewrite E in Q. destruct P as [P1 P2].
    assert (F' : v = u).
    { unfold kfDone in F. rewrite V1 in F. destruct (k_var T k name) as [id md t| |]; [|destruct Q as [_ ->]|contradiction]; [destruct Q as (fd & _ & _ & ->); cbn [snd] in F|]; try rewrite E in F; exact F. }
    subst v. destruct (k_var T k name) as [id md t| |] eqn:KV; [|destruct Q as [Q1 ->]; split; [exact Q1|rewrite V2; apply probe_not, builtin_dword; auto]|exact Q].
    destruct Q as (fd & Q1 & _ & ->). cbn [fst snd] in V2. rewrite V2, probe_not by (apply builtin_dword; exact P1). cbn.
    repeat split; auto. exists fd. assert (FD : 0 <= fd < 2 ^ 31) by (destruct md as [md|]; [destruct Q1 as (h & _ & ->); apply S3|lia]).
    split; [|apply pack_btf; [eapply S2; eauto|exact FD]]. destruct md as [md|]; [|exact Q1]. destruct Q1 as (h & H1 & H2). exists h. auto.
  - (* kfunc *) rewrite (GEN _ eq_refl) in Q by discriminate. unfold ksymDone in Q. rewrite E in Q. subst z. destruct P as [P1 P2].
    assert (U : u = x).
    { destruct u as [ui ue], x as [xi xe]. cbn in *. subst ue ui. f_equal. apply probe_not. destruct P1 as [P1|P1]; [apply kfunc_builtin|apply builtin_dword]; auto. }
    subst u. unfold kfDone in F. rewrite E in F. destruct (k_func T k name) as [id md t| |] eqn:KF; [| |exact F].
    + destruct F as (C & idx & -> & F). split; [exact C|]. exists idx. split.
      { cbn. unfold set_off, set_cons. cbn. f_equal. unfold u32, wrapu. apply Z.mod_small. eapply S1; eauto. }
      destruct md as [md|]; [|exact F]. destruct F as (F1 & h & F2 & F3). split; [exact F1|]. exists (k_fd T k h). split; [|exists h; auto].
      unfold fdArray. destruct hs as [|h0 hs]; [destruct (idx - 1)%nat; discriminate|]. destruct idx as [|idx]; [lia|].
      cbn [nth_error]. replace (S idx - 1)%nat with idx in F2 by lia. rewrite nth_error_map, F2. reflexivity.
    + destruct F as (W & F). split; [exact W|]. destruct (IsKfuncCall (fst x)); subst v; reflexivity.
  - (* none *) rewrite (GEN _ eq_refl) in Q by discriminate. unfold ksymDone in Q. rewrite E in Q. subst z.
    assert (F' : v = u) by (unfold kfDone in F; rewrite V1, E in F; exact F). subst v. rewrite V2.
    destruct (IsBuiltinCall (fst x)) eqn:B; cbn [andb]; [|apply probe_not; auto]. destruct (k_probeRead T k) eqn:PR; cbn [negb].
    + unfold fixupProbeReadKernel. rewrite B, PR. reflexivity.
    + apply probe_spec; auto.
Qed.
(** The stages don't change which instructions call functions. *)
Lemma stages_same : forall k o l x y z u, placed T x -> kconf T k o x y -> ksymDone T k l y z -> fv T k z u ->
  (isMissingAddress T k u -> isMissingAddress T k x) /\ inModule T k u = inModule T k x /\ varInModule T k y = varInModule T k x.
Proof.
  intros k o l x y z u P K Q (V1 & V2 & V3). unfold placed in P. unfold isMissingAddress, inModule, varInModule.
  assert (GEN : forall e, snd x = e -> (forall m off, e <> Some (MKconfig m off)) -> y = x).
  { intros e E N. unfold kconf, kc in K. destruct o; [|apply K]. rewrite E in K. destruct e as [[m off| |]|]; try exact K. exfalso. eapply N; reflexivity. }
  destruct (snd x) as [[m off|name weak|name weak ty]|] eqn:E.
  - unfold kconf in K. destruct o as [map|]; [|exfalso; apply (proj2 K m off E)]. unfold kc in K. rewrite E in K. destruct K as (_ & K2 & K3).
    unfold ksymDone in Q. rewrite K2 in Q. subst z. rewrite V1, K2. auto.
  - rewrite (GEN _ eq_refl) in * by discriminate. unfold ksymDone in Q. rewrite E in *.
    assert (SU : snd u = Some (MKsym name weak)) by (rewrite V1; destruct (k_var T k name) as [id md t| |]; [destruct Q as (fd & _ & _ & ->); exact eq_refl|destruct Q as [_ ->]; exact E|contradiction]).
    rewrite SU. auto.
  - rewrite (GEN _ eq_refl) in * by discriminate. unfold ksymDone in Q. rewrite E in *. subst z. rewrite V1, V2, E.
    rewrite probe_not by (destruct P as [[P|P] _]; [apply kfunc_builtin|apply builtin_dword]; auto). auto.
  - rewrite (GEN _ eq_refl) in * by discriminate. unfold ksymDone in Q. rewrite E in *. subst z. rewrite V1, E. auto.
Qed.
Lemma Forall2_trans3 : forall (R1 R2 R3 : insn -> insn -> Prop) a b c d, Forall2 R1 a b -> Forall2 R2 b c -> Forall2 R3 c d ->
  Forall2 (fun x u => exists y z, R1 x y /\ R2 y z /\ R3 z u) a d.
Proof.
  intros R1 R2 R3 a b c d H. revert c d. induction H as [|x y a b X H IH]; intros c d H2 H3; inversion H2; subst; inversion H3; subst; constructor; eauto.
Qed.
Lemma Forall2_last : forall (R : insn -> insn -> Prop) a b p q, Forall2 R a b -> a <> [] -> R (last a p) (last b q).
Proof.
  intros R a b p q H. induction H as [|x y a b X H IH]; intro N; [congruence|]. destruct H as [|x1 y1 a b X1 H]; [exact X|]. change (R (last (x1 :: a) p) (last (y1 :: b) q)). apply IH. discriminate.
Qed.
Lemma Forall2_filter : forall (R : insn -> insn -> Prop) (f : insn -> bool) a b, Forall2 R a b -> (forall x y, In x a -> R x y -> f y = f x) -> List.length (filter f b) = List.length (filter f a).
Proof.
  intros R f a b H. induction H as [|x y a b X H IH]; intro E; [reflexivity|]. cbn. rewrite (E x y) by (auto; left; auto). destruct (f x); cbn; rewrite IH; auto; intros; apply E; auto; right; auto.
Qed.
Lemma Forall2_weaken : forall (P : insn -> Prop) (R S : insn -> insn -> Prop) a b, Forall P a -> (forall x y, P x -> R x y -> S x y) -> Forall2 R a b -> Forall2 S a b.
Proof. intros P R S a b HP H F. induction F; [constructor|]. inversion HP; subst. constructor; auto. Qed.
Lemma Forall2_len : forall (R : insn -> insn -> Prop) a b, Forall2 R a b -> List.length a = List.length b.
Proof. intros R a b H. induction H; cbn; congruence. Qed.

(** Not stuck: the last instruction is not the load of the address of a missing weak function. *)
Definition ends (k : kernel) (insns : list insn) : Prop := insns <> [] -> ~ isMissingAddress T k (last insns (poison, None)).

Lemma prepare_cases : forall fuel k insns w w' a, Forall (placed T) insns -> ends k insns -> (List.length insns + 1 <= fuel)%nat ->
  prepare T fuel k insns w = Some (w', Ok a) -> sane T k -> earlier w ->
  Forall2 (replaced T k (a_fds a) (a_live a)) insns (a_insns a) /\ live w' = live w /\
  exists extra, a_live a = extra ++ live w.
Proof.
  intros fuel k insns w w' a HP HE Fu H SK EA. unfold prepare in H.
  destruct (resolveKconfigReferences T k insns w) as [w1 [[i1 o]|]] eqn:E1; [|discriminate].
  destruct (typedKsyms T k i1 [] [] w1) as [w2 [[i2 ks]|]] eqn:E2; [|discriminate].
  destruct (fixupAndValidate T k i2) as [i3|] eqn:E3; [|discriminate].
  destruct (fixupKfuncs T fuel k i3 w2) as [[w3 [[i4 hs]|]]|] eqn:E4; try discriminate. injection H as <- <-.
  apply resolveKconfig_ok in E1. destruct E1 as [F1 M1].
  apply typedKsyms_ok in E2; [|constructor]. destruct E2 as (new2 & M2 & EK & F2).
  apply validate_ok in E3.
  pose proof (Forall2_trans3 _ _ _ _ _ _ _ F1 F2 E3) as F13.
  assert (NE : i3 <> [] -> ~ isMissingAddress T k (last i3 (poison, None))).
  { intros N3 X. assert (N0 : insns <> []) by (intros ->; inversion F13; congruence). apply (HE N0).
    assert (F13' : Forall2 (fun x u => isMissingAddress T k u -> isMissingAddress T k x) insns i3).
    { eapply Forall2_weaken; [exact HP| |exact F13]. intros x u Px (y & z & A & B & C). exact (proj1 (stages_same _ _ _ _ _ _ _ Px A B C)). }
    exact (Forall2_last _ _ _ (poison, None) (poison, None) F13' N0 X). }
  assert (L3 : List.length i3 = List.length insns) by (symmetry; eapply Forall2_len; eauto).
  apply fixupKfuncs_ok in E4; [|unfold Fixups.insn in *; rewrite L3; exact Fu|exact NE]. destruct E4 as (new3 & M3 & EH & F3). cbn [a_fds a_live a_insns].
  pose proof (more_trans _ _ _ _ _ M1 M2) as M12. pose proof (more_trans _ _ _ _ _ M12 M3) as M123.
  split; [|split].
  - assert (L23 : forall h, In h (live w2) -> In h (live w3)) by (intros h Hh; destruct M3 as (-> & _); apply in_or_app; auto).
    assert (LO : forall n, o = Some n -> In (n, None) (live w3)).
    { intros n ->. apply L23. destruct M2 as (-> & _). apply in_or_app. right. destruct M1 as (-> & _). left. reflexivity. }
    clear - F13 F3 HP SK L23 LO. revert i4 F3. induction F13 as [|x u a c (y & z & A & B & C) _ IH]; intros i4 F3; inversion F3; subst; [constructor|].
    inversion HP; subst. constructor; [|apply IH; auto]. eapply stages; eauto.
  - rewrite closeOpt_list, <- !close_app. eapply close_more; [exact EA|exact M123|]. intro n. rewrite EK, EH. cbn [app].
    rewrite !in_app_iff, <- !in_rev, !map_app, !in_app_iff. destruct o; cbn; tauto.
  - destruct M123 as (-> & _). eauto.
Qed.

(** ** C84 *)

(** Every reference is replaced as it should be, every other instruction is unchanged up to the
    helpers an old kernel does not have. *)
Theorem C84_replaced : forall fuel k insns w w' a, Forall (placed T) insns -> sane T k -> earlier w -> ends k insns -> (List.length insns < fuel)%nat ->
  prepare T fuel k insns w = Some (w', Ok a) -> Forall2 (replaced T k (a_fds a) (a_live a)) insns (a_insns a).
Proof.
  intros fuel k insns w w' a HP SK EA HE Fu H. assert (Fu1 : (List.length insns + 1 <= fuel)%nat) by (rewrite Nat.add_1_r; exact Fu).
  exact (proj1 (prepare_cases _ _ _ _ _ _ HP HE Fu1 H SK EA)).
Qed.

(** ** C85 *)

(** After a program was loaded, everything opened for it is closed; what was open before
    stays open throughout. *)
Theorem C85_closed : forall fuel k insns w w' a, Forall (placed T) insns -> sane T k -> earlier w -> ends k insns -> (List.length insns < fuel)%nat ->
  prepare T fuel k insns w = Some (w', Ok a) -> live w' = live w /\ forall h, In h (live w) -> In h (a_live a).
Proof.
  intros fuel k insns w w' a HP SK EA HE Fu H. assert (Fu1 : (List.length insns + 1 <= fuel)%nat) by (rewrite Nat.add_1_r; exact Fu). destruct (prepare_cases _ _ _ _ _ _ HP HE Fu1 H SK EA) as (_ & L & extra & X).
  split; [exact L|]. intros h Hh. rewrite X. apply in_or_app. auto.
Qed.

Lemma typed_none : forall k insns syms w, Forall (symOk T k w) syms -> (forall s, In s syms -> snd (snd s) = None) -> filter (varInModule T k) insns = [] -> fst (typedKsyms T k insns syms [] w) = w /\
  forall r m, snd (typedKsyms T k insns syms [] w) = Ok (r, m) -> m = [].
Proof.
  intros k. induction insns as [|[i e] insns IH]; intros syms w SO SN H; cbn; [split; [reflexivity|intros r m X; injection X as <- <-; reflexivity]|].
  cbn [filter] in H. destruct (varInModule T k (i, e)) eqn:V; [discriminate|].
  assert (STD : forall syms cur, Forall (symOk T k w) syms -> (forall s, In s syms -> snd (snd s) = None) ->
    fst (match typedKsyms T k insns syms [] w with (w, Err e) => (w, Err e) | (w, Ok (r, m)) => (w, Ok (cur :: r, m)) end) = w /\
    forall r m, snd (match typedKsyms T k insns syms [] w with (w, Err e) => (w, Err e) | (w, Ok (r, m)) => (w, Ok (cur :: r, m)) end) = Ok (r, m) -> m = []).
  { intros syms' cur SO' SN'. destruct (IH syms' w SO' SN' H) as [I1 I2]. destruct (typedKsyms T k insns syms' [] w) as [w1 [[r1 m1]|]]; cbn in *.
    - split; [exact I1|]. intros r m X. injection X as <- <-. eauto.
    - split; [exact I1|]. intros; discriminate. }
  assert (ERR : forall er : failure, fst (w, Err er : res failure (list insn * list nat)) = w /\ forall (r : list insn) (m : list nat), snd (w, Err er : res failure (list insn * list nat)) = Ok (r, m) -> m = []) by (intro er; split; [reflexivity|discriminate]).
  destruct e as [[a b|name weak|n1 w1 t1]|]; try (apply STD; auto).
  unfold varInModule in V. cbn in V.
  destruct (lookup name syms) as [[id h]|] eqn:L.
  - apply lookup_in in L. pose proof (SN _ L) as SN0. cbn in SN0. subst h. destruct (AssociateBTFID id 0 i); [apply STD; auto|apply ERR].
  - destruct (k_var T k name) as [id [md|] u| |] eqn:KV; try discriminate.
    + destruct (AssociateBTFID id 0 i); [|apply ERR]. apply STD; [constructor; [exists None, u; cbn; auto|exact SO]|].
      intros s [<-|Hs]; [reflexivity|auto].
    + destruct weak; [apply STD; auto|apply ERR].
    + apply ERR.
Qed.
(** If the program can't be loaded because a reference can't be resolved, everything is closed
    too, provided that no variable of a module is referred to and at most 32767 functions of
    modules are. *)
Theorem C85_closed_on_error : forall fuel k insns w w' e, Forall (placed T) insns -> sane T k -> earlier w -> ends k insns -> (List.length insns < fuel)%nat ->
  filter (varInModule T k) insns = [] -> Z.of_nat (List.length (filter (inModule T k) insns)) <= 32767 ->
  prepare T fuel k insns w = Some (w', Err e) -> live w' = live w.
Proof.
  intros fuel k insns w w' e HP SK EA HE Fu NV NF H. unfold prepare in H.
  destruct (resolveKconfigReferences T k insns w) as [w1 [[i1 o]|]] eqn:E1.
  2:{ injection H as <- <-. unfold resolveKconfigReferences in E1. destruct (firstKconfig T insns) as [spec|]; [|discriminate].
      destruct (k_kconfig T k spec); cbn [negb] in E1; [|injection E1 as <- _; reflexivity]. cbn in E1.
      destruct (setKconfig T k spec (next w) insns); [discriminate|]. injection E1 as <- _. cbn. rewrite Nat.eqb_refl. cbn.
      apply filter_all. intros h Hh. apply EA in Hh. destruct (Nat.eqb_spec (fst h) (next w)); [lia|reflexivity]. }
  apply resolveKconfig_ok in E1. destruct E1 as [F1 M1].
  assert (NV1 : filter (varInModule T k) i1 = []).
  { assert (Q : forall x, In x i1 -> varInModule T k x = false); [|apply filter_none; exact Q].
    assert (Q0 : forall x, In x insns -> varInModule T k x = false).
    { intros x Hx. destruct (varInModule T k x) eqn:V; [|reflexivity]. assert (X : In x (filter (varInModule T k) insns)) by (apply filter_In; auto). rewrite NV in X. destruct X. }
    clear - F1 Q0. induction F1 as [|x y a b K F IH]; intros z Hz; [destruct Hz|]. destruct Hz as [<-|Hz]; [|apply IH; auto; intros; apply Q0; right; auto].
    specialize (Q0 x (or_introl eq_refl)). unfold kconf, kc in K. destruct o as [n|]; [|destruct K as [-> _]; exact Q0].
    unfold varInModule in *. destruct (snd x) as [[m off| |]|] eqn:E; try (subst y; rewrite E; exact Q0). destruct K as (_ & K & _). rewrite K. reflexivity. }
  destruct (typedKsyms T k i1 [] [] w1) as [w2 rs] eqn:E2.
  pose proof (typed_none k i1 [] w1 (Forall_nil _) ltac:(intros s []) NV1) as [TN1 TN2]. rewrite E2 in TN1, TN2. cbn [fst snd] in TN1, TN2. subst w2.
  assert (CL : live (closeOpt o w1) = live w).
  { rewrite closeOpt_list. eapply close_more; [exact EA|exact M1|]. intro n. destruct o; cbn; tauto. }
  assert (CL' : forall w2, live w2 = live w1 -> live (closeOpt o w2) = live w).
  { intros w2 X. rewrite <- CL. rewrite !closeOpt_list. destruct (closeList_live (match o with Some n => [n] | None => [] end) w2) as [-> _]. destruct (closeList_live (match o with Some n => [n] | None => [] end) w1) as [-> _]. rewrite X. reflexivity. }
  destruct rs as [[i2 ks]|]; [|injection H as <- _; exact CL].
  pose proof (TN2 _ _ eq_refl) as ->. cbn [closeList fold_left] in H.
  destruct (fixupAndValidate T k i2) as [i3|] eqn:E3; [|injection H as <- _; exact CL].
  apply typedKsyms_ok in E2; [|constructor]. destruct E2 as (new2 & M2 & EK & F2). apply validate_ok in E3.
  pose proof (Forall2_trans3 _ _ _ _ _ _ _ F1 F2 E3) as F13.
  assert (SAME : forall x u, In x insns -> (exists y z, kconf T k o x y /\ ksymDone T k (live w1) y z /\ fv T k z u) -> inModule T k u = inModule T k x).
  { intros x u Hx (y & z & A & B & C). pose proof (proj1 (Forall_forall _ _) HP _ Hx) as Px. exact (proj1 (proj2 (stages_same _ _ _ _ _ _ _ Px A B C))). }
  assert (NE : i3 <> [] -> ~ isMissingAddress T k (last i3 (poison, None))).
  { intros N3 X. assert (N0 : insns <> []) by (intros ->; inversion F13; congruence). apply (HE N0).
    assert (F13' : Forall2 (fun x u => isMissingAddress T k u -> isMissingAddress T k x) insns i3).
    { eapply Forall2_weaken; [exact HP| |exact F13]. intros x u Px (y & z & A & B & C). exact (proj1 (stages_same _ _ _ _ _ _ _ Px A B C)). }
    exact (Forall2_last _ _ _ (poison, None) (poison, None) F13' N0 X). }
  assert (L3 : List.length i3 = List.length insns) by (symmetry; eapply Forall2_len; eauto).
  destruct (fixupKfuncs T fuel k i3 w1) as [[w3 [[i4 hs]|]]|] eqn:E4; try discriminate. injection H as <- _.
  apply CL'. eapply fixupKfuncs_err; [|exact NE|exact E4| |].
  - unfold Fixups.insn in *; rewrite L3. lia.
  - intros h Hh. destruct M1 as (X & N & B). rewrite X in Hh. apply in_app_or in Hh. destruct Hh as [Hh|Hh]; [apply B in Hh; lia|apply EA in Hh; lia].
  - rewrite (Forall2_filter _ _ _ _ F13 SAME). exact NF.
Qed.

(** ** C84: nothing is refused if everything is there *)
Ltac llia := unfold Fixups.insn in *; lia.
Definition okSym (k : kernel) (x : insn) : Prop :=
  match snd x with
  | Some (MKsym name weak) => IsDWordLoad (OpCode (fst x)) = true /\ match k_var T k name with Found _ _ _ => True | Missing => weak = true | Broken => False end
  | _ => True
  end.
Lemma typedKsyms_complete : forall k insns syms mods w, sane T k -> Forall (okSym k) insns ->
  Z.of_nat (List.length mods + List.length (filter (varInModule T k) insns)) <= 32767 -> exists w' r, typedKsyms T k insns syms mods w = (w', Ok r).
Proof.
  intros k. induction insns as [|[i e] insns IH]; intros syms mods w SK HO B; cbn; [eauto|].
  inversion HO as [|x0 l0 O1 O2]; subst.
  assert (B' : (List.length mods + List.length (filter (varInModule T k) insns) <= List.length mods + List.length (filter (varInModule T k) ((i, e) :: insns)))%nat)
    by (cbn [filter]; destruct (varInModule T k (i, e)); cbn [List.length]; llia).
  assert (GO : forall cur syms', exists w' r, match typedKsyms T k insns syms' mods w with (w, Err e) => (w, Err e) | (w, Ok (r, m)) => (w, Ok (cur :: r, m)) end = (w', Ok r)).
  { intros cur syms'. destruct (IH syms' mods w SK O2 ltac:(llia)) as (w' & [r m] & ->). eauto. }
  destruct e as [[a b|name weak|n1 w1 t1]|]; try apply GO.
  unfold okSym in O1. cbn in O1. destruct O1 as [D O1].
  assert (AS : forall id fd, 0 <= fd -> exists i', AssociateBTFID id fd i = Ok i').
  { intros id fd P. unfold AssociateBTFID. rewrite D. destruct (Z.ltb_spec fd 0); [llia|]. cbn. eauto. }
  assert (P : forall h : option nat, 0 <= match h with Some n => k_fd T k n | None => 0 end) by (intros [h|]; [apply SK|lia]).
  destruct (lookup name syms) as [[id h]|].
  - destruct (AS id _ (P h)) as (i' & ->). apply GO.
  - destruct (k_var T k name) as [id md u| |] eqn:V; [|subst weak; apply GO|contradiction].
    destruct md as [md|].
    + assert (VM : varInModule T k (i, Some (MKsym name weak)) = true) by (unfold varInModule; cbn; rewrite V; reflexivity).
      cbn [filter] in B. rewrite VM in B. cbn [List.length] in B.
      cbn. destruct (Z.eqb_spec (Z.of_nat (List.length mods)) 32767); [llia|].
      destruct (AS id _ (P (Some (next w)))) as (i' & E). cbn in E. rewrite E.
      match goal with |- context [typedKsyms T k insns ?s ?m ?w1] => destruct (IH s m w1 SK O2) as (w' & [r m'] & ->) end; [rewrite app_length; cbn; llia|eauto].
    + destruct (AS id _ (P None)) as (i' & E). cbn in E. rewrite E. apply GO.
Qed.
Definition okFunc (k : kernel) (x : insn) : Prop :=
  match snd x with
  | Some (MKfunc name weak ty) => (IsKfuncCall (fst x) = true \/ IsDWordLoad (OpCode (fst x)) = true) /\ k_btf T k = true /\
      match k_func T k name with Found _ _ t => k_compat T k ty t = true | Missing => weak = true | Broken => False end
  | _ => True
  end.
Lemma kfuncs_complete : forall k insns hs w, Forall (okFunc k) insns ->
  Z.of_nat (List.length hs + List.length (filter (inModule T k) insns)) <= 32767 -> exists w' r, kfuncs T k insns hs w = (w', Ok r).
Proof.
  intros k. induction insns as [|[i e] insns IH]; intros hs w HO B; cbn; [eauto|].
  inversion HO as [|x0 l0 O1 O2]; subst.
  assert (B' : (List.length hs + List.length (filter (inModule T k) insns) <= List.length hs + List.length (filter (inModule T k) ((i, e) :: insns)))%nat)
    by (cbn [filter]; destruct (inModule T k (i, e)); cbn [List.length]; llia).
  assert (GO : forall cur, exists w' r, match kfuncs T k insns hs w with (w, Err e) => (w, Err e) | (w, Ok (r, hs)) => (w, Ok (cur :: r, hs)) end = (w', Ok r)).
  { intros cur. destruct (IH hs w O2 ltac:(llia)) as (w' & [r m] & ->). eauto. }
  destruct e as [[a b|a b|name weak ty]|]; try apply GO.
  unfold okFunc in O1. cbn in O1. destruct O1 as (D & _ & O1).
  destruct (k_func T k name) as [id md t| |] eqn:V; [| |contradiction].
  - destruct md as [md|].
    + assert (IM : inModule T k (i, Some (MKfunc name weak ty)) = true) by (unfold inModule; cbn; rewrite V; reflexivity).
      cbn [filter] in B. rewrite IM in B. cbn [List.length] in B. cbn. destruct (Z.eqb_spec (Z.of_nat (List.length hs)) 32767); [llia|].
      rewrite O1. cbn [negb].
      match goal with |- context [kfuncs T k insns ?s ?w1] => destruct (IH s w1 O2) as (w' & [r m'] & ->) end; [rewrite app_length; cbn; llia|eauto].
    + cbn. rewrite O1. cbn [negb]. apply GO.
  - subst weak. destruct (IsKfuncCall i); [apply GO|]. destruct D as [D|D]; [discriminate|]. rewrite D. apply GO.
Qed.
(** The references that matter in the later stages are those of the program. *)
Lemma stage1 : forall k o x y, kconf T k o x y -> placed T x -> available T k x -> okSym k y /\ okFunc k y /\ (forall m off, snd y <> Some (MKconfig m off)) /\
  varInModule T k y = varInModule T k x /\ (IsLoadFromMap (fst y) = true -> Reference (fst y) <> EmptyString -> MapFD (fst y) <> None).
Proof.
  intros k o x y K P A. unfold kconf, kc, placed, available, okSym, okFunc, varInModule in *.
  assert (GEN : forall e, snd x = e -> (forall m off, e <> Some (MKconfig m off)) -> y = x).
  { intros e E N. destruct o; [|apply K]. rewrite E in K. destruct e as [[m off| |]|]; try exact K. exfalso. eapply N; reflexivity. }
  destruct (snd x) as [[m off|name weak|name weak ty]|] eqn:E.
  - destruct o as [map|]; [|exfalso; apply (proj2 K m off eq_refl)]. destruct K as (_ & K2 & K3). rewrite K2, K3. cbn. repeat split; auto; discriminate.
  - rewrite (GEN _ eq_refl) by discriminate. rewrite E. destruct P as [P1 P2]. split; [auto|]. split; [exact I|]. split; [discriminate|]. split; [reflexivity|]. intro X. congruence.
  - rewrite (GEN _ eq_refl) by discriminate. rewrite E. destruct P as [P1 P2]. split; [auto|]. split; [tauto|]. split; [discriminate|]. split; [reflexivity|]. intro X. congruence.
  - rewrite (GEN _ eq_refl) by discriminate. rewrite E. repeat split; auto; discriminate.
Qed.
Lemma dword_src_map : forall i s c, s <> PseudoMapFD -> s <> PseudoMapValue -> IsLoadFromMap (set_cons (set_src i s) c) = false.
Proof.
  intros i s c A B. unfold IsLoadFromMap. cbn [Src set_cons set_src]. apply andb_false_iff. right. apply orb_false_iff. split; apply Z.eqb_neq; auto.
Qed.
Lemma stage2 : forall k l y z, ksymDone T k l y z -> okFunc k y -> (forall m off, snd y <> Some (MKconfig m off)) ->
  (IsLoadFromMap (fst y) = true -> Reference (fst y) <> EmptyString -> MapFD (fst y) <> None) ->
  okFunc k z /\ (forall m off, snd z <> Some (MKconfig m off)) /\ (IsLoadFromMap (fst z) = true -> Reference (fst z) <> EmptyString -> MapFD (fst z) <> None).
Proof.
  intros k l y z Q F N M. unfold ksymDone in Q. destruct (snd y) as [[m off|name weak|name weak ty]|] eqn:E; try (subst z; rewrite E; auto).
  destruct (k_var T k name) as [id md u| |]; [|destruct Q as [_ ->]; rewrite E; auto|contradiction].
  destruct Q as (fd & _ & D & ->). cbn [fst snd]. split; [exact I|]. split; [discriminate|]. intro X. rewrite dword_src_map in X by discriminate. discriminate.
Qed.
Lemma Forall2_pull : forall (R : insn -> insn -> Prop) (P Q : insn -> Prop) a b, Forall2 R a b -> Forall P a -> (forall x y, R x y -> P x -> Q y) -> Forall Q b.
Proof. intros R P Q a b H. induction H; intros HP I; [constructor|]. inversion HP; subst. constructor; eauto. Qed.

Theorem C84_complete : forall fuel k insns w, Forall (placed T) insns -> sane T k -> ends k insns -> (List.length insns < fuel)%nat ->
  Forall (available T k) insns -> oneKconfig T insns ->
  Z.of_nat (List.length (filter (inModule T k) insns)) <= 32767 -> Z.of_nat (List.length (filter (varInModule T k) insns)) <= 32767 ->
  exists w' a, prepare T fuel k insns w = Some (w', Ok a).
Proof.
  intros fuel k insns w HP SK HE Fu HA OK BF BV. unfold prepare.
  assert (HPA : Forall (fun x => placed T x /\ available T k x) insns) by (apply Forall_forall; intros x Hx; split; [exact (proj1 (Forall_forall _ _) HP _ Hx)|exact (proj1 (Forall_forall _ _) HA _ Hx)]).
  assert (S1 : exists w1 i1 o, resolveKconfigReferences T k insns w = (w1, Ok (i1, o))).
  { unfold resolveKconfigReferences. destruct (firstKconfig T insns) as [spec|] eqn:F; [|eauto].
    destruct (firstKconfig_some _ _ _ F) as (i & off & Hin). pose proof (proj1 (Forall_forall _ _) HA _ Hin) as AV. unfold available in AV. cbn in AV. rewrite AV. cbn [negb open_].
    destruct (setKconfig_complete T k spec (next w) insns) as (r & ->); [|eauto].
    intros j m o' Hj. split; [eapply OK; eauto|]. exact (proj1 (proj1 (Forall_forall _ _) HP _ Hj)). }
  destruct S1 as (w1 & i1 & o & E1). rewrite E1. apply resolveKconfig_ok in E1. destruct E1 as [F1 M1].
  pose proof (Forall2_pull _ _ (fun y => okSym k y /\ okFunc k y /\ (forall m off, snd y <> Some (MKconfig m off)) /\ (IsLoadFromMap (fst y) = true -> Reference (fst y) <> EmptyString -> MapFD (fst y) <> None)) _ _ F1 HPA
    ltac:(intros x y K [P A]; destruct (stage1 _ _ _ _ K P A) as (H1 & H2 & H3 & _ & H4); auto)) as G1.
  assert (V1 : List.length (filter (varInModule T k) i1) = List.length (filter (varInModule T k) insns)).
  { eapply Forall2_filter; [exact F1|]. intros x y Hx K. destruct (proj1 (Forall_forall _ _) HPA _ Hx) as [P A]. exact (proj1 (proj2 (proj2 (proj2 (stage1 _ _ _ _ K P A))))). }
  assert (S2 : exists w2 i2 ks, typedKsyms T k i1 [] [] w1 = (w2, Ok (i2, ks))).
  { destruct (typedKsyms_complete k i1 [] [] w1) as (w2 & [i2 ks] & E); [exact SK|eapply Forall_impl; [|exact G1]; intros y0 Hy0; exact (proj1 Hy0)| |eauto]. cbn [List.length Nat.add]. rewrite V1. exact BV. }
  destruct S2 as (w2 & i2 & ks & E2). rewrite E2. apply typedKsyms_ok in E2; [|constructor]. destruct E2 as (new2 & M2 & EK & F2).
  pose proof (Forall2_pull _ _ (fun z => okFunc k z /\ (forall m off, snd z <> Some (MKconfig m off)) /\ (IsLoadFromMap (fst z) = true -> Reference (fst z) <> EmptyString -> MapFD (fst z) <> None)) _ _ F2 G1
    ltac:(intros x y K (A1 & A2 & A3 & A4); exact (stage2 _ _ _ _ K A2 A3 A4))) as G2.
  destruct (validate_complete T k i2) as (i3 & E3).
  { intros i e Hin. pose proof (proj1 (Forall_forall _ _) G2 _ Hin) as (_ & H1 & H2). cbn in H1, H2. split; [exact H1|exact H2]. }
  rewrite E3. apply validate_ok in E3.
  pose proof (Forall2_trans3 _ _ _ _ _ _ _ F1 F2 E3) as F13.
  assert (G3 : Forall (okFunc k) i3).
  { eapply (Forall2_pull _ (fun z => okFunc k z /\ forall n w t, snd z = Some (MKfunc n w t) -> IsBuiltinCall (fst z) = false)); [exact E3| |].
    - eapply Forall_impl; [|exact G2]. intros z (O & _). split; [exact O|]. intros n w0 t E. unfold okFunc in O. rewrite E in O. destruct O as [[O|O] _]; [apply kfunc_builtin|apply builtin_dword]; auto.
    - intros z u (A1 & A2 & _) [O N]. unfold okFunc in *. rewrite A1. destruct (snd z) as [[| |n w0 t]|] eqn:E; auto. rewrite A2, probe_not by (eapply N; reflexivity). exact O. }
  assert (NE : i3 <> [] -> ~ isMissingAddress T k (last i3 (poison, None))).
  { intros N3 X. assert (N0 : insns <> []) by (intros ->; inversion F13; congruence). apply (HE N0).
    assert (F13' : Forall2 (fun x u => isMissingAddress T k u -> isMissingAddress T k x) insns i3).
    { eapply Forall2_weaken; [exact HP| |exact F13]. intros x u Px (y & z & A & B & C). exact (proj1 (stages_same _ _ _ _ _ _ _ Px A B C)). }
    exact (Forall2_last _ _ _ (poison, None) (poison, None) F13' N0 X). }
  assert (BF3 : Z.of_nat (List.length (filter (inModule T k) i3)) <= 32767).
  { rewrite (Forall2_filter _ _ _ _ F13); [exact BF|]. intros x u Hx (y & z & A & B & C). exact (proj1 (proj2 (stages_same _ _ _ _ _ _ _ (proj1 (Forall_forall _ _) HP _ Hx) A B C))). }
  assert (L3 : List.length i3 = List.length insns) by (symmetry; eapply Forall2_len; eauto).
  unfold fixupKfuncs. destruct (existsb (isKfunc T) i3) eqn:K; cbn [negb]; [|eauto].
  assert (BT : k_btf T k = true).
  { apply existsb_exists in K. destruct K as (x & Hx & Kx). pose proof (proj1 (Forall_forall _ _) G3 _ Hx) as O. unfold okFunc, isKfunc in *. destruct (snd x) as [[| |]|]; try discriminate. tauto. }
  rewrite BT. cbn [negb]. destruct i3 as [|c i3]; [discriminate|].
  rewrite kfuncLoop_eq.
  - destruct (kfuncs_complete k (c :: i3) [] w2 G3 BF3) as (w3 & [r hs] & EK3).
    match goal with |- context [prefixed T [] ?z] => change z with (kfuncs T k (c :: i3) [] w2) end. rewrite EK3. cbn [prefixed]. eauto.
  - clear - Fu L3. unfold Fixups.insn in *. cbn in L3. lia.
  - specialize (NE ltac:(discriminate)). intro X. apply NE. refine (eq_ind _ (isMissingAddress T k) X _ _). apply last_cons.
Qed.

(** A load from a map that names it is only loaded if the map was inserted. *)
Theorem C84_maps : forall fuel k insns w w' a i, Forall (placed T) insns -> sane T k -> earlier w ->
  prepare T fuel k insns w = Some (w', Ok a) ->
  In (i, None) insns -> IsLoadFromMap i = true -> Reference i <> EmptyString -> MapFD i <> None.
Proof.
  intros fuel k insns w w' a i HP SK EA H Hin L R. unfold prepare in H.
  destruct (resolveKconfigReferences T k insns w) as [w1 [[i1 o]|]] eqn:E1; [|discriminate].
  destruct (typedKsyms T k i1 [] [] w1) as [w2 [[i2 ks]|]] eqn:E2; [|discriminate].
  destruct (fixupAndValidate T k i2) as [i3|] eqn:E3; [|discriminate]. clear H.
  apply resolveKconfig_ok in E1. destruct E1 as [F1 _]. apply typedKsyms_ok in E2; [|constructor]. destruct E2 as (_ & _ & _ & F2). apply validate_ok in E3.
  pose proof (Forall2_trans3 _ _ _ _ _ _ _ F1 F2 E3) as F13.
  assert (X : forall x, In x insns -> exists u y z, kconf T k o x y /\ ksymDone T k (live w2) y z /\ fv T k z u).
  { clear - F13. induction F13 as [|x u a b A _ IH]; [intros x []|]. intros z [<-|Hz]; [exists u; exact A|apply IH; auto]. }
  destruct (X _ Hin) as (u & y & z & K & Q & (_ & _ & V)).
  assert (y = (i, None)) as -> by (unfold kconf, kc in K; destruct o; [exact K|exact (proj1 K)]). unfold ksymDone in Q. cbn in Q. subst z. cbn in V. auto.
Qed.
End Props.

(** ** Examples *)
Section Examples.
Local Open Scope string_scope.
(** Types are numbers. A kernel with functions f (type 1, vmlinux) and g (type 2, module m), and
    variables u (vmlinux) and v (module m) *)
Definition ker : kernel nat :=
  Kernel nat
    (fun n => if String.eqb n "f" then Found nat 100 None 1%nat else if String.eqb n "g" then Found nat 200 (Some "m") 2%nat else Missing nat)
    (fun n => if String.eqb n "u" then Found unit 300 None tt else if String.eqb n "v" then Found unit 400 (Some "m") tt else Missing unit)
    Nat.eqb (fun n => Z.of_nat n + 3) true (fun _ => true) false.
Definition kcall : instr := mkIns (SetJumpOp JumpClass Call) 0 PseudoKfuncCall 0 (-1) "" "" None.
Definition dw (src : Z) : instr := mkIns (LoadImmOp DWord) 1 src 0 0 "" "" None.
Definition helper (n : Z) : instr := mkIns (SetJumpOp JumpClass Call) 0 0 0 n "" "" None.
Definition exit_ : instr := mkIns (SetJumpOp JumpClass Exit) 0 0 0 0 "" "" None.
Definition prog : list (insn nat) :=
  [ (dw PseudoMapValue, Some (MKconfig nat 7 16)); (dw 0, Some (MKsym nat "u" false)); (dw 0, Some (MKsym nat "v" false)); (dw 0, Some (MKsym nat "v" true));
    (dw 0, Some (MKsym nat "nope" true)); (helper 113, None); (helper 114, None); (helper 1, None);
    (kcall, Some (MKfunc nat "f" false 1%nat)); (kcall, Some (MKfunc nat "g" false 2%nat)); (kcall, Some (MKfunc nat "h" true 3%nat));
    (dw 0, Some (MKfunc nat "h" true 3%nat)); (exit_, None) ].
Definition before : world := World 5 [(2%nat, None)].

(** Descriptors must be below 2^31. *)
Definition ker' : kernel nat := Kernel nat (k_func nat ker) (k_var nat ker) Nat.eqb (fun n => if (Nat.ltb n 1000) then Z.of_nat n + 3 else 0) true (fun _ => true) false.
Lemma ex_sane : sane nat ker'.
Proof.
  split; [cbn|split; [cbn|]].
  - intros n id m t. destruct (String.eqb n "f"); [intro H; injection H as <- _ _; lia|]. destruct (String.eqb n "g"); [intro H; injection H as <- _ _; lia|discriminate].
  - intros n id m t. destruct (String.eqb n "u"); [intro H; injection H as <- _ _; lia|]. destruct (String.eqb n "v"); [intro H; injection H as <- _ _; lia|discriminate].
  - intro n. unfold ker', k_fd. destruct (n <? 1000)%nat eqn:E; [|split; reflexivity || discriminate]. apply Nat.ltb_lt in E. lia.
Qed.
Example ex_hyps : Forall (placed nat) prog /\ earlier before /\ ends nat ker' prog /\ Forall (available nat ker') prog /\ oneKconfig nat prog /\
  List.length (filter (inModule nat ker') prog) = 1%nat /\ List.length (filter (varInModule nat ker') prog) = 2%nat.
Proof.
  split; [|split; [|split; [|split; [|split]]]].
  - repeat (apply Forall_cons; [unfold placed; cbn [snd fst]; try (intro X; vm_compute in X; discriminate X); try (intros _; cbn; lia); try (split; [first [reflexivity | left; reflexivity | right; reflexivity]|first [reflexivity | lia]])|]); apply Forall_nil.
  - intros h [<-|[]]. cbn. lia.
  - intros _ X. exact X.
  - repeat constructor; try discriminate.
  - intros i j m n o p. unfold prog. cbn [In]. intros A B. repeat (destruct A as [A|A]; [try discriminate|]); [|contradiction].
    repeat (destruct B as [B|B]; [try discriminate|]); [|contradiction]. congruence.
  - split; reflexivity.
Qed.
(** The map of the configuration is number 5, the handle for v 6 and that for g 7. *)
Example ex_run :
  match prepare nat 20 ker' prog before with
  | Some (w', Ok a) =>
      live w' = [(2%nat, None)] /\ a_live a = [(7%nat, Some "m"); (6%nat, Some "m"); (5%nat, None); (2%nat, None)] /\ a_fds a = [0; 10] /\
      map Constant (a_insns a) = [16 * 2 ^ 32; 300; 400 + 9 * 2 ^ 32; 400 + 9 * 2 ^ 32; 0; 4; 45; 1; 100; 200; kfuncCallPoisonBase; 0; 0] /\
      map Offset (a_insns a) = [0; 0; 0; 0; 0; 0; 0; 0; 0; 1; 0; 0; 0]
  | _ => False
  end.
Proof. vm_compute. repeat split. Qed.

(** ** What does not hold *)

(** Preparing a program whose last instruction is the load of the address of a weak function
    that does not exist never ends. *)
Definition stuck : list (insn nat) := [(exit_, None); (dw 0, Some (MKfunc nat "h" true 3%nat))].
Lemma stuck_loop : forall fuel before cur, snd cur = Some (MKfunc nat "h" true 3%nat) -> IsKfuncCall (fst cur) = false -> IsDWordLoad (OpCode (fst cur)) = true ->
  kfuncLoop nat fuel ker' before cur [] [] (World 5 [(2%nat, None)]) = None.
Proof.
  induction fuel as [|fuel IH]; intros b [i e] E K D; [reflexivity|]. cbn in E, K, D. subst e. cbn [kfuncLoop].
  change (k_func nat ker' "h") with (Missing nat). cbv iota. rewrite K, D. apply IH; auto.
  cbn [fst]. unfold IsKfuncCall, set_src, set_cons. cbn. rewrite andb_false_r. reflexivity.
Qed.
Theorem C84_terminates_refuted : Forall (placed nat) stuck /\ Forall (available nat ker') stuck /\ sane nat ker' /\ forall fuel, prepare nat fuel ker' stuck before = None.
Proof.
  split; [repeat constructor; cbn; try discriminate; right; reflexivity|]. split; [repeat constructor; discriminate|]. split; [exact ex_sane|].
  intro fuel. assert (X : fixupKfuncs nat fuel ker' stuck before = None).
  { unfold fixupKfuncs, stuck, before. change (existsb (isKfunc nat) _) with true. cbn [negb]. change (k_btf nat ker') with true. cbn [negb].
    destruct fuel as [|fuel]; [reflexivity|]. cbn [kfuncLoop]. cbv beta iota. apply stuck_loop; reflexivity. }
  unfold prepare. change (resolveKconfigReferences nat ker' stuck before) with (before, Ok (E:=failure) (stuck, @None nat)). cbv beta iota.
  change (typedKsyms nat ker' stuck [] [] before) with (before, Ok (E:=failure) (stuck, @nil nat)). cbv beta iota.
  change (fixupAndValidate nat ker' stuck) with (Ok (E:=failure) stuck). cbv beta iota. rewrite X. reflexivity.
Qed.

(** A function that begins with a call of a weak function that does not exist is no longer
    labelled with its name: the call replaces the instruction with its metadata. *)
Definition label (i : instr) (s : string) : instr := mkIns (OpCode i) (Dst i) (Src i) (Offset i) (Constant i) s (Reference i) (MapFD i).
Theorem C84_labels_refuted : exists insns w' a, Forall (placed nat) insns /\ Forall (available nat ker') insns /\ ends nat ker' insns /\
  prepare nat 10 ker' insns before = Some (w', Ok a) /\ In "fn" (map (fun x => Symbol (fst x)) insns) /\ ~ In "fn" (map Symbol (a_insns a)).
Proof.
  exists [(exit_, None); (label kcall "fn", Some (MKfunc nat "h" true 3%nat)); (exit_, None)]. do 2 eexists.
  split; [repeat constructor; cbn; try discriminate; left; reflexivity|]. split; [repeat constructor; discriminate|]. split; [intros _ X; exact X|].
  split; [vm_compute; reflexivity|]. split; [right; left; reflexivity|]. cbn. intros [X|[X|[X|[]]]]; discriminate.
Qed.

(** If a later reference can't be resolved, the handles opened for variables of modules are not
    closed. *)
Theorem C85_closed_on_error_refuted : exists insns w' e, Forall (placed nat) insns /\ ends nat ker' insns /\
  prepare nat 10 ker' insns before = Some (w', Err e) /\ live w' = (5%nat, Some "m") :: live before.
Proof.
  exists [(dw 0, Some (MKsym nat "v" false)); (dw 0, Some (MKsym nat "nope" false)); (exit_, None)]. do 2 eexists.
  split; [repeat constructor; cbn; try discriminate|]. split; [intros _ X; exact X|]. split; [vm_compute; reflexivity|reflexivity].
Qed.
End Examples.

Print Assumptions C84_replaced.
Print Assumptions C84_complete.
Print Assumptions C84_maps.
Print Assumptions C84_terminates_refuted.
Print Assumptions C84_labels_refuted.
Print Assumptions C85_closed.
Print Assumptions C85_closed_on_error.
Print Assumptions C85_closed_on_error_refuted.
