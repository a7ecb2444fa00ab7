(** Feature tests: proofs (property C70). *)
From Coq Require Import List Bool Arith Lia.
From Verif.Base Require Import GoInt.
From Verif.Internal Require Import Feature.
Import ListNotations.
Local Open Scope nat_scope.

Section Once.
  Variables K V E : Type.
  Variable Keq : forall a b : K, {a = b} + {a <> b}.
  Variable can : K -> outcome V E -> Prop.
  Notation state := (state K V E).
  Notation step := (step Keq can).

  (** the lock a call holds *)
  Definition holds_w (p : option (pc K V E)) : bool := match p with Some (PLocked _) | Some (PRunning _) | Some (PWrite _ _) | Some (PUnlock _ _) => true | _ => false end.
  Definition holds_r (p : option (pc K V E)) : bool := match p with Some (PReading _) | Some (PGot _ _) => true | _ => false end.
  (** a value of the cell of [k] a call has seen *)
  Definition knows (p : option (pc K V E)) (k : K) (v : V) : Prop :=
    p = Some (PGot k (Some v)) \/ p = Some (PAfter k (Some v)) \/ p = Some (PUnlock k (Conclusive v)) \/ p = Some (PDone k (Conclusive v)).

  Record I (s : state) : Prop := mkI {
    I_w : forall t, writer s = Some t <-> holds_w (pcs s t) = true;
    I_r : forall t, In t (readers s) <-> holds_r (pcs s t) = true;
    I_excl : writer s <> None -> readers s = [];
    I_knows : forall t k v, knows (pcs s t) k v -> cell s k = Some v;
    I_none : forall t k, pcs s t = Some (PRunning k) -> cell s k = None;
    I_write : forall t k v, pcs s t = Some (PWrite k v) -> cell s k = None /\ In (t, k, Conclusive v) (runs s);
    I_cell : forall k v, cell s k = Some v -> exists t, In (t, k, Conclusive v) (runs s);
    I_runs : forall t k v, In (t, k, Conclusive v) (runs s) -> cell s k = Some v \/ pcs s t = Some (PWrite k v);
    I_err : forall t k e, pcs s t = Some (PUnlock k (Inconclusive e)) \/ pcs s t = Some (PDone k (Inconclusive e)) -> In (t, k, Inconclusive e) (runs s);
    I_can : forall t k o, In (t, k, o) (runs s) -> can k o;
    I_has : forall t k o, In (t, k, o) (runs s) -> pcs s t <> None;
    I_last : forall pre t k v post, runs s = pre ++ (t, k, Conclusive v) :: post -> forall u o, ~ In (u, k, o) post }.

  Lemma setpc_eq : forall f t (p : pc K V E), setpc f t p t = Some p.
  Proof. intros. unfold setpc. destruct (Nat.eq_dec t t); congruence. Qed.
  Lemma setpc_neq : forall f t (p : pc K V E) u, u <> t -> setpc f t p u = f u.
  Proof. intros. unfold setpc. destruct (Nat.eq_dec u t); congruence. Qed.

  Lemma I_init : I init.
  Proof. split; cbn; intros; try discriminate; try contradiction; try (split; [discriminate|discriminate]); auto; try (split; intros; discriminate || contradiction). - unfold knows in H. destruct H as [H|[H|[H|H]]]; discriminate. - destruct H; discriminate. - destruct pre; discriminate. Qed.

  Lemma remove_In : forall t u l, In u (remove Nat.eq_dec t l) <-> In u l /\ u <> t.
  Proof. intros t u l. split; [apply in_remove|intros [A B]; now apply in_in_remove]. Qed.
  Ltac pcase u t := destruct (Nat.eq_dec u t); [subst u; rewrite ?setpc_eq in *|rewrite ?setpc_neq in * by assumption].
  Ltac kn := unfold knows in *.

  Lemma I_step : forall s t s', I s -> step s t s' -> I s'.
  Proof.
    intros s t s' HI S0. destruct HI as [Iw Ir Ix Ik In0 Iwr Ic Iru Ie Ica Ih Il]. destruct S0; cbn [writer readers cell pcs runs] in *.
    - (* call *)
      assert (Hn : forall q, pcs (mkState K V E w r c p l) t = q -> p t = q) by auto.
      split; cbn [writer readers cell pcs runs]; auto; intros u; try (pcase u t); eauto.
      + rewrite (Iw t), H. cbn. tauto.
      + rewrite (Ir t), H. cbn. tauto.
      + intros k0 v. kn. intros [A|[A|[A|A]]]; discriminate.
      + intros; discriminate.
      + intros; discriminate.
      + intros k0 v Hin. destruct (Iru _ _ _ Hin) as [A|A]; [auto|congruence].
      + intros k0 e [A|A]; discriminate.
      + intros; discriminate.
    - (* rlock *)
      split; cbn [writer readers cell pcs runs]; auto; try (intros u; try (pcase u t); eauto).
      + rewrite (Iw t), H. cbn. tauto.
      + cbn. tauto.
      + cbn. rewrite (Ir u). split; [intros [A|A]; [congruence|auto]|auto].
      + congruence.
      + intros k0 v. kn. intros [A|[A|[A|A]]]; discriminate.
      + intros; discriminate.
      + intros; discriminate.
      + intros k0 v Hin. destruct (Iru _ _ _ Hin) as [A|A]; [auto|congruence].
      + intros k0 e [A|A]; discriminate.
      + intros; discriminate.
    - (* read *)
      split; cbn [writer readers cell pcs runs]; auto; try (intros u; try (pcase u t); eauto).
      + rewrite (Iw t), H. cbn. tauto.
      + rewrite (Ir t), H. cbn. tauto.
      + intros k0 v. kn. intros [A|[A|[A|A]]]; congruence.
      + intros; discriminate.
      + intros; discriminate.
      + intros k0 v Hin. destruct (Iru _ _ _ Hin) as [A|A]; [auto|congruence].
      + intros k0 e [A|A]; discriminate.
      + intros; discriminate.
    - (* runlock *)
      split; cbn [writer readers cell pcs runs]; auto; try (intros u; try (pcase u t); eauto).
      + rewrite (Iw t), H. cbn. tauto.
      + rewrite remove_In. cbn. split; [tauto|discriminate].
      + rewrite remove_In, (Ir u). tauto.
      + rewrite (Ix u). reflexivity.
      + intros k0 v. kn. intros [A|[A|[A|A]]]; try discriminate. injection A as <- ->. apply (Ik t). now left.
      + intros; discriminate.
      + intros; discriminate.
      + intros k0 v Hin. destruct (Iru _ _ _ Hin) as [A|A]; [auto|congruence].
      + intros k0 e [A|A]; discriminate.
      + intros; discriminate.
    - (* hit *)
      split; cbn [writer readers cell pcs runs]; auto; try (intros u; try (pcase u t); eauto).
      + rewrite (Iw t), H. cbn. tauto.
      + rewrite (Ir t), H. cbn. tauto.
      + intros k0 v0. kn. intros [A|[A|[A|A]]]; try discriminate. injection A as <- <-. apply (Ik t). right. now left.
      + intros; discriminate.
      + intros; discriminate.
      + intros k0 v0 Hin. destruct (Iru _ _ _ Hin) as [A|A]; [auto|congruence].
      + intros k0 e [A|A]; discriminate.
      + intros; discriminate.
    - (* lock *)
      split; cbn [writer readers cell pcs runs]; auto; try (intros u; try (pcase u t); eauto).
      + cbn. tauto.
      + split; [congruence|]. intros A. apply (Iw u) in A. discriminate.
      + rewrite (Ir t), H. cbn. tauto.
      + intros k0 v0. kn. intros [A|[A|[A|A]]]; discriminate.
      + intros; discriminate.
      + intros; discriminate.
      + intros k0 v0 Hin. destruct (Iru _ _ _ Hin) as [A|A]; [auto|congruence].
      + intros k0 e [A|A]; discriminate.
      + intros; discriminate.
    - (* second *)
      split; cbn [writer readers cell pcs runs]; auto; try (intros u; try (pcase u t); eauto).
      + rewrite (Iw t), H. cbn. tauto.
      + rewrite (Ir t), H. cbn. tauto.
      + intros k0 v0. kn. intros [A|[A|[A|A]]]; try discriminate. injection A as <- <-. auto.
      + intros; discriminate.
      + intros; discriminate.
      + intros k0 v0 Hin. destruct (Iru _ _ _ Hin) as [A|A]; [auto|congruence].
      + intros k0 e [A|A]; discriminate.
      + intros; discriminate.
    - (* run *)
      split; cbn [writer readers cell pcs runs]; auto; try (intros u; try (pcase u t); eauto).
      + rewrite (Iw t), H. cbn. tauto.
      + rewrite (Ir t), H. cbn. tauto.
      + intros k0 v0. kn. intros [A|[A|[A|A]]]; discriminate.
      + intros k0 A. injection A as <-. auto.
      + intros; discriminate.
      + intros k0 v0 Hin. destruct (Iru _ _ _ Hin) as [A|A]; [auto|congruence].
      + intros k0 e [A|A]; discriminate.
      + intros; discriminate.
    - (* yes *)
      assert (Hc : c k = None) by (eapply In0; eauto).
      assert (Hno : forall u v0, ~ In (u, k, Conclusive v0) l).
      { intros u v0 Hin. destruct (Iru _ _ _ Hin) as [A|A]; [congruence|]. assert (Hw : holds_w (p u) = true) by (now rewrite A). assert (Hw' : holds_w (p t) = true) by (now rewrite H). apply Iw in Hw, Hw'. assert (u = t) by congruence. subst u. congruence. }
      split; cbn [writer readers cell pcs runs]; auto; try (intros u; try (pcase u t); eauto).
      + rewrite (Iw t), H. cbn. tauto.
      + rewrite (Ir t), H. cbn. tauto.
      + intros k0 v0. kn. intros [A|[A|[A|A]]]; discriminate.
      + intros; discriminate.
      + intros k0 v0 A. injection A as <- <-. split; auto. apply in_or_app. right. now left.
      + intros k0 v0 A. destruct (Iwr _ _ _ A) as [A1 A2]. split; auto. apply in_or_app. now left.
      + intros v0 A. destruct (Ic _ _ A) as [t0 A1]. exists t0. apply in_or_app. now left.
      + intros k0 v0 Hin. apply in_app_or in Hin. destruct Hin as [Hin|[Hin|[]]]; [destruct (Iru _ _ _ Hin) as [A|A]; [auto|congruence]|]. injection Hin as <- <-. now right.
      + intros k0 v0 Hin. apply in_app_or in Hin. destruct Hin as [Hin|[Hin|[]]]; [destruct (Iru _ _ _ Hin) as [A|A]; auto|]. injection Hin as ? ?. congruence.
      + intros k0 e [A|A]; discriminate.
      + intros k0 e A. apply in_or_app. left. auto.
      + intros k0 o Hin. apply in_app_or in Hin. destruct Hin as [Hin|[Hin|[]]]; [eauto|]. inversion Hin; subst; auto.
      + intros k0 o Hin. apply in_app_or in Hin. destruct Hin as [Hin|[Hin|[]]]; [eauto|]. inversion Hin; subst; auto.
      + intros; discriminate.
      + intros k0 o Hin. apply in_app_or in Hin. destruct Hin as [Hin|[Hin|[]]]; [eauto|]. inversion Hin; subst; congruence.
      + intros t0 k0 v0 post Hp. destruct post as [|x post _] using rev_ind; [intros ? ? []|].
        rewrite app_comm_cons, app_assoc in Hp. apply app_inj_tail in Hp. destruct Hp as [Hp <-]. intros u0 o Hin. apply in_app_or in Hin. destruct Hin as [Hin|[Hin|[]]]; [eapply Il; eauto|].
        injection Hin as <- <- <-. apply (Hno t0 v0). rewrite Hp. apply in_or_app. right. now left.
    - (* write *)
      assert (Hw' : holds_w (p t) = true) by (now rewrite H).
      assert (Hu : forall u, u <> t -> holds_w (p u) = false). { intros u Hn. destruct (holds_w (p u)) eqn:Hh; auto. apply Iw in Hh, Hw'. congruence. }
      destruct (Iwr _ _ _ H) as [Hc Hl].
      assert (Hset : forall j x, c j = Some x -> setcell K V Keq c k v j = Some x). { intros j x A. unfold setcell. destruct (Keq j k); [congruence|auto]. }
      split; cbn [writer readers cell pcs runs]; auto; try (intros u; try (pcase u t); eauto).
      + rewrite (Iw t), H. cbn. tauto.
      + rewrite (Ir t), H. cbn. tauto.
      + intros k0 v0. kn. intros [A|[A|[A|A]]]; try discriminate. injection A as <- <-. unfold setcell. destruct (Keq k k); congruence.
      + intros; discriminate.
      + intros k0 A. exfalso. assert (B := Hu u n). rewrite A in B. discriminate.
      + intros; discriminate.
      + intros k0 v0 A. exfalso. assert (B := Hu u n). rewrite A in B. discriminate.
      + intros x A. unfold setcell in A. destruct (Keq u k); [injection A as <-; subst; eauto|auto].
      + intros k0 v0 Hin. left. destruct (Iru _ _ _ Hin) as [A|A]; [auto|]. rewrite H in A. injection A as <- <-. unfold setcell. destruct (Keq k k); congruence.
      + intros k0 v0 Hin. destruct (Iru _ _ _ Hin) as [A|A]; auto.
      + intros k0 e [A|A]; discriminate.
      + intros; discriminate.
    - (* no *)
      assert (Hc : c k = None) by (eapply In0; eauto).
      assert (Hno : forall u v0, ~ In (u, k, Conclusive v0) l).
      { intros u v0 Hin. destruct (Iru _ _ _ Hin) as [A|A]; [congruence|]. assert (Hw : holds_w (p u) = true) by (now rewrite A). assert (Hw' : holds_w (p t) = true) by (now rewrite H). apply Iw in Hw, Hw'. assert (u = t) by congruence. subst u. congruence. }
      split; cbn [writer readers cell pcs runs]; auto; try (intros u; try (pcase u t); eauto).
      + rewrite (Iw t), H. cbn. tauto.
      + rewrite (Ir t), H. cbn. tauto.
      + intros k0 v0. kn. intros [A|[A|[A|A]]]; discriminate.
      + intros; discriminate.
      + intros; discriminate.
      + intros k0 v0 A. destruct (Iwr _ _ _ A) as [A1 A2]. split; auto. apply in_or_app. now left.
      + intros v0 A. destruct (Ic _ _ A) as [t0 A1]. exists t0. apply in_or_app. now left.
      + intros k0 v0 Hin. apply in_app_or in Hin. destruct Hin as [Hin|[Hin|[]]]; [destruct (Iru _ _ _ Hin) as [A|A]; [auto|congruence]|]. discriminate.
      + intros k0 v0 Hin. apply in_app_or in Hin. destruct Hin as [Hin|[Hin|[]]]; [destruct (Iru _ _ _ Hin) as [A|A]; auto|]. discriminate.
      + intros k0 e0 [A|A]; [|discriminate]. injection A as <- <-. apply in_or_app. right. now left.
      + intros k0 e0 A. apply in_or_app. left. auto.
      + intros k0 o Hin. apply in_app_or in Hin. destruct Hin as [Hin|[Hin|[]]]; [eauto|]. inversion Hin; subst; auto.
      + intros k0 o Hin. apply in_app_or in Hin. destruct Hin as [Hin|[Hin|[]]]; [eauto|]. inversion Hin; subst; auto.
      + intros; discriminate.
      + intros k0 o Hin. apply in_app_or in Hin. destruct Hin as [Hin|[Hin|[]]]; [eauto|]. inversion Hin; subst; congruence.
      + intros t0 k0 v0 post Hp. destruct post as [|x post _] using rev_ind; [intros ? ? []|].
        rewrite app_comm_cons, app_assoc in Hp. apply app_inj_tail in Hp. destruct Hp as [Hp <-]. intros u0 o Hin. apply in_app_or in Hin. destruct Hin as [Hin|[Hin|[]]]; [eapply Il; eauto|].
        injection Hin as <- <- <-. apply (Hno t0 v0). rewrite Hp. apply in_or_app. right. now left.
    - (* unlock *)
      assert (Hw' : holds_w (p t) = true) by (now rewrite H).
      assert (Hu : forall u, u <> t -> holds_w (p u) = false). { intros u Hn. destruct (holds_w (p u)) eqn:Hh; auto. apply Iw in Hh, Hw'. congruence. }
      split; cbn [writer readers cell pcs runs]; auto; try (intros u; try (pcase u t); eauto).
      + cbn. split; discriminate.
      + rewrite (Hu u n). split; discriminate.
      + rewrite (Ir t), H. cbn. tauto.
      + intros k0 v0. kn. intros [A|[A|[A|A]]]; try discriminate. injection A as <- ->. apply (Ik t). auto.
      + intros; discriminate.
      + intros; discriminate.
      + intros k0 v0 Hin. destruct (Iru _ _ _ Hin) as [A|A]; [auto|congruence].
      + intros k0 e [A|A]; [discriminate|]. injection A as <- ->. apply Ie. now left.
      + intros; discriminate.
  Qed.
  Lemma I_reach : forall s, reachable Keq can s -> I s.
  Proof. intros s H. unfold reachable in H. remember init as i eqn:Hi. induction H; [subst; apply I_init|]. eapply I_step; eauto. Qed.

  (** the function never runs again for a key once it was conclusive, and never twice at a time *)
  Theorem once_runs : forall s, reachable Keq can s ->
    (forall pre t k v post, runs s = pre ++ (t, k, Conclusive v) :: post -> forall u o, ~ In (u, k, o) post) /\
    (forall t u k j, pcs s t = Some (PRunning k) -> pcs s u = Some (PRunning j) -> t = u) /\
    (forall t u k v, In (t, k, Conclusive v) (runs s) -> pcs s u <> Some (PRunning k)).
  Proof.
    intros s H. apply I_reach in H. split; [apply H|]. split.
    - intros t u k j A B. assert (writer s = Some t) by (apply H; now rewrite A). assert (writer s = Some u) by (apply H; now rewrite B). congruence.
    - intros t u k v Hin A. destruct (I_runs s H _ _ _ Hin) as [B|B]; [pose proof (I_none s H _ _ A); congruence|].
      assert (writer s = Some t) by (apply H; now rewrite B). assert (writer s = Some u) by (apply H; now rewrite A). congruence.
  Qed.
  (** what calls return *)
  Theorem once_returns : forall s, reachable Keq can s -> forall t k o, pcs s t = Some (PDone k o) ->
    can k o /\
    match o with
    | Conclusive v => (exists u, In (u, k, Conclusive v) (runs s)) /\ (forall u v', pcs s u = Some (PDone k (Conclusive v')) -> v' = v)
    | Inconclusive e => In (t, k, Inconclusive e) (runs s)
    end.
  Proof.
    intros s H t k o A. apply I_reach in H. destruct o as [v|e].
    - assert (C : cell s k = Some v) by (apply (I_knows s H t); unfold knows; auto). destruct (I_cell s H _ _ C) as [u Hu]. split; [eapply (I_can s H); eauto|]. split; [eauto|].
      intros u' v' B. assert (C' : cell s k = Some v') by (apply (I_knows s H u'); unfold knows; auto). congruence.
    - assert (Hin : In (t, k, Inconclusive e) (runs s)) by (apply (I_err s H); auto). split; [eapply (I_can s H); eauto|auto].
  Qed.
  (** the cell of a key never changes once it is set *)
  Lemma cell_stable : forall s t s' k v, I s -> step s t s' -> cell s k = Some v -> cell s' k = Some v.
  Proof.
    intros s t s' k v HI S0 C. destruct S0; cbn in *; auto. unfold setcell. destruct (Keq k k0); auto. subst k0.
    destruct (I_write _ HI _ _ _ H) as [A _]. cbn in A. congruence.
  Qed.
  (** a call which has not begun when another one has returned a conclusive result returns the same, and the function isn't run again *)
  Theorem once_later : forall s s' t u k v, reachable Keq can s -> pcs s t = Some (PDone k (Conclusive v)) -> pcs s u = None -> steps Keq can s s' ->
    (forall o, pcs s' u = Some (PDone k o) -> o = Conclusive v) /\ (forall w o, In (w, k, o) (runs s') -> In (w, k, o) (runs s)).
  Proof.
    intros s s' t u k v HR A B HS. assert (HI : I s) by (now apply I_reach). assert (C : cell s k = Some v) by (apply (I_knows s HI t); unfold knows; auto).
    assert (G : I s' /\ cell s' k = Some v /\ (forall w o, In (w, k, o) (runs s') -> In (w, k, o) (runs s))).
    { clear A. induction HS; [auto|]. specialize (IHHS HR B HI C). destruct IHHS as (J & Cb & Hr). split; [eapply I_step; eauto|]. split; [eapply cell_stable; eauto|].
      destruct H; cbn in *; auto; intros w0 o0 Hin; apply in_app_or in Hin; destruct Hin as [Hin|[Hin|[]]]; auto; inversion Hin; subst; exfalso; pose proof (I_none _ J _ _ H) as X; cbn in X; congruence. }
    destruct G as (J & Cc & Hr). split; [|exact Hr]. intros o D. destruct o as [v'|e].
    - assert (cell s' k = Some v') by (apply (I_knows _ J u); unfold knows; auto). congruence.
    - exfalso. apply (I_has _ HI u k (Inconclusive e)); auto. apply Hr. apply (I_err _ J). auto.
  Qed.
  (** no deadlock: if a call hasn't returned, then some call can go on (the function returns if [can] allows it) *)
  Theorem once_progress : forall s t p, (forall k, exists o, can k o) -> reachable Keq can s -> pcs s t = Some p -> (forall k o, p <> PDone k o) ->
    exists u s', step s u s' /\ pcs s u <> None.
  Proof.
    intros s t p Hcan HR Hp Hnd. assert (HI : I s) by (now apply I_reach). destruct s as [w r c pc l]. cbn in *.
    assert (G : forall u q, pc u = Some q -> (forall k o, q <> PDone k o) -> (forall k, q = PStart k -> w = None) -> (forall k, q = PAfter k None -> w = None /\ r = []) -> exists s', step (mkState K V E w r c pc l) u s').
    { intros u q Hq Hn Hs Ha. destruct q as [k|k|k x|k [v|]|k|k|k v|k o|k o].
      - specialize (Hs k eq_refl). subst w. eexists. now apply st_rlock with (k := k).
      - eexists. now apply st_read with (k := k).
      - eexists. now apply st_runlock with (k := k) (x := x).
      - eexists. now apply st_hit with (k := k) (v := v).
      - destruct (Ha k eq_refl) as [-> ->]. eexists. now apply st_lock with (k := k).
      - destruct (c k) as [v|] eqn:Hc; eexists; [now apply st_second with (k := k) (v := v)|now apply st_run with (k := k)].
      - destruct (Hcan k) as [[v|e] Ho]; eexists; [now apply st_yes with (k := k) (v := v)|now apply st_no with (k := k) (e := e)].
      - eexists. now apply st_write with (k := k) (v := v).
      - eexists. now apply st_unlock with (k := k) (o := o).
      - exfalso. eapply Hn; reflexivity. }
    destruct w as [u|].
    - assert (Hu : holds_w (pc u) = true) by (now apply (I_w _ HI)). cbn in Hu. destruct (pc u) as [q|] eqn:Hq; [|discriminate].
      destruct (G u q Hq) as [s' Hs]; [intros ? ? ->; discriminate|intros ? ->; discriminate|intros ? ->; discriminate|]. exists u, s'. split; auto. congruence.
    - destruct r as [|u r].
      + destruct (G t p Hp Hnd) as [s' Hs]; auto. exists t, s'. split; auto. congruence.
      + assert (Hu : holds_r (pc u) = true) by (apply (proj1 (I_r _ HI u)); now left). cbn in Hu. destruct (pc u) as [q|] eqn:Hq; [|discriminate].
        destruct (G u q Hq) as [s' Hs]; [intros ? ? ->; discriminate|intros ? ->; discriminate|intros ? ->; discriminate|]. exists u, s'. split; auto. congruence.
  Qed.
  (** accesses to the cells don't race: nobody else is about to read or write while somebody is about to write *)
  Definition touches (p : option (pc K V E)) : bool := match p with Some (PReading _) | Some (PLocked _) | Some (PWrite _ _) => true | _ => false end.
  Theorem once_no_race : forall s t u k v, reachable Keq can s -> pcs s t = Some (PWrite k v) -> touches (pcs s u) = true -> u = t.
  Proof.
    intros s t u k v HR A B. assert (HI : I s) by (now apply I_reach). assert (W : writer s = Some t) by (apply HI; now rewrite A).
    destruct (pcs s u) as [q|] eqn:Hq; [|discriminate]. destruct q; cbn in B; try discriminate.
    - assert (In u (readers s)) by (apply HI; now rewrite Hq). rewrite (I_excl _ HI) in H by congruence. contradiction.
    - assert (writer s = Some u) by (apply HI; now rewrite Hq). congruence.
    - assert (writer s = Some u) by (apply HI; now rewrite Hq). congruence.
  Qed.
End Once.
