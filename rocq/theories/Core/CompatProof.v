(** Proofs about the recursion shared by CheckTypeCompatibility and coreTypesMatch. *)
From Coq Require Import ZArith List Lia Bool.
From Verif.Base Require Import GoInt.
From Verif.Btf Require Import Types TypesProof.
From Verif.Core Require Import Compat CompatSpec.
Import ListNotations.
Open Scope nat_scope.

Lemma pair_in_In p l : pair_in p l = true <-> In p l.
Proof.
  unfold pair_in. rewrite existsb_exists. split.
  - intros (q & I & E). destruct (pair_eq_dec p q); [subst; exact I|discriminate E].
  - intros I. exists p. split; [exact I|]. destruct (pair_eq_dec p p); congruence.
Qed.

(** *** UnderlyingType *)
Lemma wrapper_fun h x y z : wrapper h x y -> wrapper h x z -> y = z.
Proof.
  intros (n & E & W) (m & E' & W'). rewrite E in E'. inversion E'; subst m. clear E'.
  destruct W as [(s & tg & ->)|[->|[->|[->|(v & ->)]]]]; destruct W' as [(s' & tg' & X)|[X|[X|[X|(v' & X)]]]]; congruence.
Qed.
Lemma resolves_fun h x n y : resolves h x n y -> forall m z, resolves h x m z -> n = m /\ y = z.
Proof.
  induction 1 as [x N|x y n z W R IH]; intros m w H; inversion H as [x' N'|x' y' n' z' W' R']; subst.
  - split; reflexivity.
  - exfalso. eapply N. eassumption.
  - exfalso. eapply N'. eassumption.
  - pose proof (wrapper_fun _ _ _ _ W W'). subst y'. destruct (IH _ _ R'). split; [lia|assumption].
Qed.
Lemma underlying_spec h : forall f x y, underlying_loop f h x = Some y <-> exists n, n < f /\ resolves h x n y.
Proof.
  induction f as [|f IH]; intros x y; cbn [underlying_loop]; [split; [discriminate|intros (n & L & _); lia]|].
  assert (Step : forall z, wrapper h x z -> (underlying_loop f h z = Some y <-> exists n, n < S f /\ resolves h x n y)).
  { intros z W. rewrite IH. split.
    - intros (n & L & R). exists (S n). split; [lia|]. econstructor; eassumption.
    - intros (n & L & R). inversion R as [x' N'|x' y' n' z' W' R']; subst; [exfalso; eapply N'; exact W|].
      pose proof (wrapper_fun _ _ _ _ W W'). subst y'. exists n'. split; [lia|exact R']. }
  assert (Done : (forall z, ~ wrapper h x z) -> (Some x = Some y <-> exists n, n < S f /\ resolves h x n y)).
  { intros N. split.
    - intros E. inversion E; subst. exists 0. split; [lia|]. now constructor.
    - intros (n & L & R). inversion R; subst; [reflexivity|]. exfalso. eapply N. eassumption. }
  unfold qualify. destruct (deref h x) as [n|] eqn:D.
  - destruct n; try (apply Done; intros z (m & E & W); rewrite D in E; inversion E; subst m; destruct W as [(s' & tg' & X)|[X|[X|[X|(v' & X)]]]]; discriminate X);
      apply Step; eexists; (split; [exact D|]); eauto 10.
  - apply Done. intros z (m & E & _). congruence.
Qed.
Lemma Underlying_stripped h x y : UnderlyingType h x = Some y <-> stripped h x y.
Proof.
  unfold UnderlyingType, stripped, maxResolveDepth. rewrite underlying_spec. split; intros (n & L & R); exists n; (split; [lia|exact R]).
Qed.
Lemma stripped_fun h x y z : stripped h x y -> stripped h x z -> y = z.
Proof. intros (n & _ & R) (m & _ & R'). exact (proj2 (resolves_fun _ _ _ _ R _ _ R')). Qed.

(** *** the recursion *)
Section Check.
  Variable h : heap.
  Variable pre : option ref -> option ref -> option cerr.
  Variable steps : ref -> ref -> list step.
  (** the rule for a pair of stripped types *)
  Definition step_rule (R : ref -> ref -> Prop) (a b : ref) : Prop :=
    pre (Some a) (Some b) = None /\ forall s, In s (steps a b) -> exists x y, s = Sub x y /\ R x y.
  (** both types of a pair in the visited set *)
  Definition seen (vis : list pair) (x y : ref) : Prop := exists a b, stripped h x a /\ stripped h y b /\ In (a, b) vis.

  Lemma seen_mono v w x y : incl v w -> seen v x y -> seen w x y.
  Proof. intros I (a & b & A & B & C). exists a, b. auto. Qed.
  Lemma step_rule_mono (R Q : ref -> ref -> Prop) a b : (forall x y, R x y -> Q x y) -> step_rule R a b -> step_rule Q a b.
  Proof. intros M (P & S). split; [exact P|]. intros s I. destruct (S s I) as (x & y & E & r). eauto. Qed.

  Definition closed_since (v w : list pair) : Prop := forall a b, In (a, b) w -> In (a, b) v \/ step_rule (seen w) a b.
  Definition good (v w : list pair) (l t : ref) : Prop := incl v w /\ seen w l t /\ closed_since v w.

  Lemma run_steps_sound chk : (forall v l t w, chk v l t = Some (Ok w) -> good v w l t) ->
    forall ss v w, run_steps chk v ss = Some (Ok w) -> incl v w /\ closed_since v w /\ forall s, In s ss -> exists x y, s = Sub x y /\ seen w x y.
  Proof.
    intros C. induction ss as [|[a b|e] ss IH]; intros v w E; cbn [run_steps] in E; [|destruct (chk v a b) as [[u|]|] eqn:K; try discriminate E|discriminate E].
    - inversion E; subst. split; [apply incl_refl|]. split; [intros a b I; now left|intros s []].
    - destruct (C _ _ _ _ K) as (I1 & S1 & D1). destruct (IH _ _ E) as (I2 & D2 & S2). split; [eapply incl_tran; eassumption|]. split.
      + intros x y I. destruct (D2 x y I) as [J|J]; [|now right]. destruct (D1 x y J) as [J'|J']; [now left|]. right. eapply step_rule_mono; [|exact J']. intros p q. apply seen_mono. exact I2.
      + intros s [<-|J]; [|now apply S2]. exists a, b. split; [reflexivity|]. eapply seen_mono; eassumption.
  Qed.
  Lemma check_sound : forall f v l t w, check h pre steps f v l t = Some (Ok w) -> good v w l t.
  Proof.
    induction f as [|f IH]; intros v l t w E; cbn [check] in E; [discriminate E|].
    destruct (pre (UnderlyingType h l) (UnderlyingType h t)) eqn:P; [discriminate E|].
    destruct (UnderlyingType h l) as [a|] eqn:A; [|discriminate E]. destruct (UnderlyingType h t) as [b|] eqn:B; [|discriminate E].
    apply Underlying_stripped in A. apply Underlying_stripped in B. destruct (pair_in (a, b) v) eqn:V.
    - inversion E; subst. apply pair_in_In in V. split; [apply incl_refl|]. split; [exists a, b; auto|]. intros x y I. now left.
    - destruct (run_steps_sound _ IH _ _ _ E) as (I & D & S). split; [intros p Hp; apply I; now right|]. split; [exists a, b; split; [exact A|]; split; [exact B|]; apply I; now left|].
      intros x y J. destruct (D x y J) as [[K|K]|K]; [|now left|now right]. inversion K; subst. right. split; assumption.
  Qed.
  (** success: the pairs seen are closed under the rule *)
  Lemma check_ok f l t w : check h pre steps f [] l t = Some (Ok w) -> largest h step_rule l t.
  Proof.
    intros E. destruct (check_sound _ _ _ _ _ E) as (_ & S & D). exists (seen w). split; [exact S|].
    intros x y (a & b & A & B & I). exists a, b. split; [exact A|]. split; [exact B|]. destruct (D a b I) as [[]|K]. exact K.
  Qed.
  (** and conversely *)
  Lemma check_complete (R : ref -> ref -> Prop) : (forall x y, R x y -> exists x' y', stripped h x x' /\ stripped h y y' /\ step_rule R x' y') ->
    forall f v l t r, R l t -> check h pre steps f v l t = Some r -> exists w, r = Ok w.
  Proof.
    intros C. induction f as [|f IH]; intros v l t r H E; cbn [check] in E; [discriminate E|].
    destruct (C _ _ H) as (a & b & A & B & P & S). apply Underlying_stripped in A. apply Underlying_stripped in B. rewrite A, B, P in E.
    destruct (pair_in (a, b) v); [inversion E; eauto|]. assert (G : forall s, In s (steps a b) -> exists x y, s = Sub x y /\ R x y) by exact S. clear S. revert G E. generalize (steps a b). generalize ((a, b) :: v).
    intros v' ss. revert v'. induction ss as [|[x y|e] ss IHs]; intros v' G E; cbn [run_steps] in E; [inversion E; eauto| |].
    - destruct (G (Sub x y) (or_introl eq_refl)) as (x' & y' & Ex & Rxy). inversion Ex; subst x' y'.
      destruct (check h pre steps f v' x y) as [r'|] eqn:K; [|discriminate E]. destruct (IH _ _ _ _ Rxy K) as (w & ->). apply (IHs w); [intros s I; apply G; now right|exact E].
    - destruct (G (Fail e) (or_introl eq_refl)) as (x' & y' & Ex & _). discriminate Ex.
  Qed.
  (** termination *)
  Definition in_heap (r : ref) : Prop := exists a, r = RPtr a /\ a < length h.
  Hypothesis sub_in_heap : forall a b x y, In (Sub x y) (steps a b) -> in_heap a /\ in_heap b.
  Definition all_pairs : list pair := list_prod (map RPtr (seq 0 (length h))) (map RPtr (seq 0 (length h))).
  Definition todo (vis : list pair) : nat := length (filter (fun p => negb (pair_in p vis)) all_pairs).
  Lemma in_heap_In r : in_heap r -> In r (map RPtr (seq 0 (length h))).
  Proof. intros (a & -> & L). apply in_map. apply in_seq. lia. Qed.
  Lemma todo_mono v w : incl v w -> todo w <= todo v.
  Proof.
    intros I. unfold todo. apply filter_le. intros p. rewrite !negb_true_iff. intros E. destruct (pair_in p v) eqn:V; [|reflexivity]. apply pair_in_In in V. apply I in V. apply pair_in_In in V. congruence.
  Qed.
  Lemma todo_lt v a b : in_heap a -> in_heap b -> ~ In (a, b) v -> todo ((a, b) :: v) < todo v.
  Proof.
    intros A B N. unfold todo. apply filter_lt with (x := (a, b)).
    - intros p. rewrite !negb_true_iff. intros E. destruct (pair_in p v) eqn:V; [|reflexivity]. apply pair_in_In in V. assert (X : In p ((a, b) :: v)) by (now right). apply pair_in_In in X. congruence.
    - apply in_prod; now apply in_heap_In.
    - apply negb_false_iff. apply pair_in_In. now left.
    - apply negb_true_iff. destruct (pair_in (a, b) v) eqn:V; [apply pair_in_In in V; contradiction|reflexivity].
  Qed.
  Lemma check_total : forall f v l t, todo v + 1 < f -> exists r, check h pre steps f v l t = Some r.
  Proof.
    induction f as [|f IH]; intros v l t L; [lia|]. cbn [check]. destruct (pre _ _); [eauto|].
    destruct (UnderlyingType h l) as [a|]; [|eauto]. destruct (UnderlyingType h t) as [b|]; [|eauto]. destruct (pair_in (a, b) v) eqn:V; [eauto|].
    assert (N : ~ In (a, b) v) by (intros X; apply pair_in_In in X; congruence).
    assert (G : forall x y, In (Sub x y) (steps a b) -> todo ((a, b) :: v) + 1 < f) by (intros x y I; destruct (sub_in_heap _ _ _ _ I) as (A & B); pose proof (todo_lt v a b A B N); lia).
    revert G. generalize (steps a b). intros ss. generalize ((a, b) :: v). induction ss as [|[x y|e] ss IHs]; intros v' G; cbn [run_steps]; [eauto| |eauto].
    destruct (IH v' x y) as (r & E); [eapply G; left; reflexivity|]. rewrite E. destruct r as [w|e]; [|eauto]. apply IHs. intros x' y' I. pose proof (G x' y' (or_intror I)).
    destruct (check_sound _ _ _ _ _ E) as (Iv & _). pose proof (todo_mono _ _ Iv). lia.
  Qed.
  Lemma check_terminates l t : exists r, check h pre steps (compat_fuel h) [] l t = Some r.
  Proof.
    apply check_total. pose proof (filter_length_le (fun p => negb (pair_in p [])) all_pairs) as F.
    assert (E : length all_pairs = length h * length h) by (refine (eq_trans (prod_length _ _) _); rewrite !map_length, !seq_length; reflexivity). unfold todo, compat_fuel. lia.
  Qed.
  Lemma check_iff l t : (exists w, check h pre steps (compat_fuel h) [] l t = Some (Ok w)) <-> largest h step_rule l t.
  Proof.
    split; [intros (w & E); eapply check_ok; exact E|]. intros (R & H & C). destruct (check_terminates l t) as (r & E). destruct (check_complete R C _ _ _ _ _ H E) as (w & ->). eauto.
  Qed.
End Check.
Lemma largest_iff h rule rule' l t : (forall R x y, rule R x y <-> rule' R x y) -> (largest h rule l t <-> largest h rule' l t).
Proof. intros E. split; intros (R & H & C); exists R; (split; [exact H|]); intros x y r; destruct (C x y r) as (a & b & A & B & K); exists a, b; (split; [exact A|]); (split; [exact B|]); now apply E. Qed.
