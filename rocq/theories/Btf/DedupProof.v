(** The deduper replaces types by equivalent ones. *)
From Coq Require Import ZArith List Lia Bool.
From Verif.Base Require Import GoInt ListExtra.
From Verif.Btf Require Import Types TypesSpec TypesProof DecodeProof Dedup DedupSpec.
Import ListNotations.
Open Scope Z_scope.

(** ** Equivalence *)
Lemma F2_mono {A B} (R S : A -> B -> Prop) l m : (forall x y, R x y -> S x y) -> Forall2 R l m -> Forall2 S l m.
Proof. intros H F. induction F; constructor; auto. Qed.
Lemma F2_flip {A B} (R : A -> B -> Prop) l m : Forall2 R l m -> Forall2 (fun y x => R x y) m l.
Proof. intros F. induction F; constructor; auto. Qed.
Lemma F2_comp {A B C} (R : A -> B -> Prop) (S : B -> C -> Prop) l m : Forall2 R l m -> forall k, Forall2 S m k -> Forall2 (fun x z => exists y, R x y /\ S y z) l k.
Proof. intros F. induction F as [|x y l m Rxy F IH]; intros k G; inversion G; subst; constructor; eauto. Qed.
Lemma equivalent_bisim h h' : bisimulation h h' (fun x y => equivalent h x h' y).
Proof.
  intros x y (R & B & Rxy). destruct (B x y Rxy) as [V|(n & m & Dx & Dy & S & F)]; [now left|]. right. exists n, m. repeat (split; [assumption|]). eapply F2_mono; [|exact F]. intros u v Ruv. exists R. auto.
Qed.
Lemma equivalent_sym h x h' y : equivalent h x h' y -> equivalent h' y h x.
Proof.
  intros E. exists (fun b a => equivalent h a h' b). split; [|exact E]. intros b a Eab. destruct (equivalent_bisim h h' a b Eab) as [(-> & ->)|(n & m & Da & Db & S & F)]; [now left|]. right. exists m, n. split; [exact Db|]. split; [exact Da|]. split; [now symmetry|]. exact (F2_flip _ _ _ F).
Qed.
Lemma equivalent_trans h x h1 y h2 z : equivalent h x h1 y -> equivalent h1 y h2 z -> equivalent h x h2 z.
Proof.
  intros E1 E2. exists (fun a c => exists b, equivalent h a h1 b /\ equivalent h1 b h2 c). split; [|eauto]. clear. intros a c (b & E1 & E2).
  destruct (equivalent_bisim h h1 a b E1) as [(Ea & Eb)|(n & m & Da & Db & S & F)], (equivalent_bisim h1 h2 b c E2) as [(Eb' & Ec)|(m' & k & Db' & Dc & S' & F')].
  - left. auto.
  - subst b. discriminate Db'.
  - subst b. discriminate Db.
  - right. rewrite Db in Db'. injection Db' as <-. exists n, k. split; [exact Da|]. split; [exact Dc|]. split; [congruence|]. exact (F2_comp _ _ _ _ F _ F').
Qed.
Lemma equivalent_node h x h' y n m : deref h x = Some n -> deref h' y = Some m -> skeleton n = skeleton m -> Forall2 (fun a b => equivalent h a h' b) (parts n) (parts m) -> equivalent h x h' y.
Proof.
  intros Dx Dy S F. exists (fun a b => (a = x /\ b = y) \/ equivalent h a h' b). split; [|now left]. intros a b [(-> & ->)|E].
  - right. exists n, m. repeat (split; [assumption|]). eapply F2_mono; [|exact F]. auto.
  - destruct (equivalent_bisim h h' a b E) as [V|(n' & m' & Da & Db & S' & F')]; [now left|]. right. exists n', m'. repeat (split; [assumption|]). eapply F2_mono; [|exact F']. auto.
Qed.
Lemma equivalent_void h h' : equivalent h RVoid h' RVoid.
Proof. exists (fun a b => a = RVoid /\ b = RVoid). split; [|auto]. intros a b (-> & ->). now left. Qed.
Lemma equivalent_inv h x h' y n : equivalent h x h' y -> deref h x = Some n -> exists m, deref h' y = Some m /\ skeleton n = skeleton m /\ Forall2 (fun a b => equivalent h a h' b) (parts n) (parts m).
Proof. intros E D. destruct (equivalent_bisim h h' x y E) as [(-> & _)|(n' & m & D' & Dy & S & F)]; [discriminate D|]. rewrite D in D'. injection D' as <-. eauto. Qed.

(** a set of types closed under references: everything in it is equivalent to itself *)
Lemma equivalent_refl h (P : ref -> Prop) : (forall x, P x -> x = RVoid \/ exists n, deref h x = Some n /\ Forall P (parts n)) -> forall x, P x -> equivalent h x h x.
Proof.
  intros C x Px. exists (fun a b => a = b /\ P a). split; [|auto]. intros a b (<- & Pa). destruct (C a Pa) as [->|(n & D & F)]; [now left|]. right. exists n, n. split; [exact D|]. split; [exact D|]. split; [reflexivity|].
  induction F; constructor; auto.
Qed.

(** ** The comparison of two types *)
Definition pairs_of (steps : list estep) : list (ref * ref) := flat_map (fun s => match s with EPair a b => [(a, b)] | EIs _ => [] end) steps.
Definition all_true (steps : list estep) : Prop := forall b, In (EIs b) steps -> b = true.
Lemma pairs_app a b : pairs_of (a ++ b) = pairs_of a ++ pairs_of b.
Proof. apply flat_map_app. Qed.
Lemma all_true_app a b : all_true (a ++ b) <-> all_true a /\ all_true b.
Proof. unfold all_true. split; [intros H; split; intros x Hx; apply H; apply in_or_app; auto|]. intros (A & B) x Hx. apply in_app_or in Hx as []; auto. Qed.
Lemma str_eq_eq a b : str_eq a b = true <-> a = b.
Proof. unfold str_eq. destruct (list_eq_dec Z.eq_dec a b); split; congruence. Qed.
Lemma all_true_cons b l : all_true (EIs b :: l) <-> b = true /\ all_true l.
Proof. unfold all_true. cbn [In]. split; [intros H; split; [apply H; now left|intros x Hx; apply H; now right]|]. intros (A & B) x [E|Hx]; [injection E as <-; exact A|auto]. Qed.
Lemma all_true_pair a b l : all_true (EPair a b :: l) <-> all_true l.
Proof. unfold all_true. cbn [In]. split; [intros H x Hx; apply H; now right|]. intros B x [E|Hx]; [discriminate E|auto]. Qed.
Lemma all_true_nil : all_true [] <-> True.
Proof. split; [auto|]. intros _ b []. Qed.
Ltac bools := repeat rewrite ?all_true_app, ?all_true_cons, ?all_true_pair, ?all_true_nil, ?andb_true_iff, ?str_eq_eq, ?Z.eqb_eq, ?Nat.eqb_eq in *.
Lemma zip_members ms : forall ms', length ms = length ms' ->
  let f := zip (fun x y => [EIs (str_eq (m_name x) (m_name y) && (m_offset x =? m_offset y)); EPair (m_type x) (m_type y)]) in
  (all_true (f ms ms') <-> map (fun m => mkMember (m_name m) RVoid (m_offset m) 0 []) ms = map (fun m => mkMember (m_name m) RVoid (m_offset m) 0 []) ms') /\ pairs_of (f ms ms') = combine (map m_type ms) (map m_type ms').
Proof.
  induction ms as [|x ms IH]; intros [|y ms'] L; try discriminate L; cbv zeta in *; cbn [zip map combine].
  - split; [rewrite all_true_nil; tauto|reflexivity].
  - injection L as L. destruct (IH ms' L) as (I1 & I2). split; [|cbn [app pairs_of flat_map]; fold (pairs_of (zip (fun x0 y0 : member => [EIs (str_eq (m_name x0) (m_name y0) && (m_offset x0 =? m_offset y0)); EPair (m_type x0) (m_type y0)]) ms ms')); rewrite I2; reflexivity].
    cbn [app]. bools. rewrite I1. split; [intros ((E1 & E2) & E3); f_equal; [f_equal; assumption|exact E3]|]. intros E. injection E as E1 E2 E3. auto.
Qed.
Lemma zip_values vs : forall vs', length vs = length vs' ->
  let f := zip (fun x y => [EIs (str_eq (ev_name x) (ev_name y) && (ev_value x =? ev_value y))]) in
  (all_true (f vs vs') <-> vs = vs') /\ pairs_of (f vs vs') = [].
Proof.
  induction vs as [|x vs IH]; intros [|y vs'] L; try discriminate L; cbv zeta in *; cbn [zip].
  - split; [rewrite all_true_nil; tauto|reflexivity].
  - injection L as L. destruct (IH vs' L) as (I1 & I2). split; [|cbn [app pairs_of flat_map]; exact I2]. cbn [app]. bools. rewrite I1. destruct x as [a b], y as [a' b']. cbn. split; [intros ((-> & ->) & ->); reflexivity|]. intros E. injection E as -> -> ->. auto.
Qed.
Lemma zip_params ps : forall ps', length ps = length ps' ->
  let f := zip (fun x y => [EIs (str_eq (p_name x) (p_name y)); EPair (p_type x) (p_type y)]) in
  (all_true (f ps ps') <-> map (fun p => mkParam (p_name p) RVoid) ps = map (fun p => mkParam (p_name p) RVoid) ps') /\ pairs_of (f ps ps') = combine (map p_type ps) (map p_type ps').
Proof.
  induction ps as [|x ps IH]; intros [|y ps'] L; try discriminate L; cbv zeta in *; cbn [zip map combine].
  - split; [rewrite all_true_nil; tauto|reflexivity].
  - injection L as L. destruct (IH ps' L) as (I1 & I2). split; [|cbn [app pairs_of flat_map]; fold (pairs_of (zip (fun x0 y0 : fparam => [EIs (str_eq (p_name x0) (p_name y0)); EPair (p_type x0) (p_type y0)]) ps ps')); rewrite I2; reflexivity].
    cbn [app]. bools. rewrite I1. split; [intros (E1 & E3); f_equal; [f_equal; assumption|exact E3]|]. intros E. injection E as E1 E3. auto.
Qed.
Lemma zip_vars vs : forall vs', length vs = length vs' ->
  let f := zip (fun x y => [EIs ((vs_offset x =? vs_offset y) && (vs_size x =? vs_size y)); EPair (vs_type x) (vs_type y)]) in
  (all_true (f vs vs') <-> map (fun v => mkVS RVoid (vs_offset v) (vs_size v)) vs = map (fun v => mkVS RVoid (vs_offset v) (vs_size v)) vs') /\ pairs_of (f vs vs') = combine (map vs_type vs) (map vs_type vs').
Proof.
  induction vs as [|x ps IH]; intros [|y ps'] L; try discriminate L; cbv zeta in *; cbn [zip map combine].
  - split; [rewrite all_true_nil; tauto|reflexivity].
  - injection L as L. destruct (IH ps' L) as (I1 & I2). split; [|cbn [app pairs_of flat_map]; fold (pairs_of (zip (fun x0 y0 : secinfo => [EIs ((vs_offset x0 =? vs_offset y0) && (vs_size x0 =? vs_size y0)); EPair (vs_type x0) (vs_type y0)]) ps ps')); rewrite I2; reflexivity].
    cbn [app]. bools. rewrite I1. split; [intros ((E1 & E2) & E3); f_equal; [f_equal; assumption|exact E3]|]. intros E. injection E as E1 E2 E3. auto.
Qed.
(** The conditions hold exactly if the types look the same, and then the pairs are those of the types referred to. *)
Lemma steps_ok a b : supported a -> all_true (eq_steps a b) -> skeleton a = skeleton b /\ length (parts a) = length (parts b) /\ pairs_of (eq_steps a b) = combine (parts a) (parts b).
Proof.
  intros Sa H. destruct a, b; cbn [eq_steps] in *; try (bools; destruct H; discriminate); try destruct Sa; bools; cbn [skeleton parts refs].
  - destruct H as (((-> & ->) & ->) & _). auto.
  - repeat split.
  - destruct H as (-> & _). repeat split.
  - destruct H as (((-> & ->) & L & _) & H). destruct (zip_members _ _ L) as (I1 & I2). apply I1 in H. rewrite H. rewrite !map_length. cbn. fold (pairs_of). repeat split; auto.
  - destruct H as (((-> & ->) & L & _) & H). destruct (zip_members _ _ L) as (I1 & I2). apply I1 in H. rewrite H. rewrite !map_length. repeat split; auto.
  - destruct H as ((-> & L & _) & H). destruct (zip_values _ _ L) as (I1 & I2). apply I1 in H. subst. repeat split; auto.
  - destruct H as ((-> & ->) & _). repeat split.
  - destruct H as (-> & _). repeat split.
  - repeat split.
  - repeat split.
  - repeat split.
  - destruct H as (-> & _). repeat split.
  - destruct H as ((L & _) & H). destruct (zip_params _ _ L) as (I1 & I2). apply I1 in H. rewrite H. cbn [length]. rewrite !map_length, L. repeat split. cbn [app pairs_of flat_map combine map]. f_equal. exact I2.
  - destruct H as (-> & -> & _). repeat split.
  - destruct H as ((-> & L & _) & H). destruct (zip_vars _ _ L) as (I1 & I2). apply I1 in H. rewrite H. rewrite !map_length. repeat split; auto.
  - destruct H as ((-> & ->) & _). repeat split.
  - destruct H as ((-> & ->) & _). repeat split.
  - destruct H as (-> & _). repeat split.
Qed.
Lemma zip_pairs {A} (f : A -> A -> list estep) (g : A -> ref) : (forall x y, pairs_of (f x y) = [(g x, g y)]) -> forall l m, pairs_of (zip f l m) = combine (map g l) (map g m).
Proof. intros H. induction l as [|x l IH]; intros [|y m]; try reflexivity. cbn [zip map combine]. rewrite pairs_app, H, IH. reflexivity. Qed.
Lemma zip_nopairs {A} (f : A -> A -> list estep) : (forall x y, pairs_of (f x y) = []) -> forall l m, pairs_of (zip f l m) = [].
Proof. intros H. induction l as [|x l IH]; intros [|y m]; try reflexivity. cbn [zip]. rewrite pairs_app, H, IH. reflexivity. Qed.
Lemma steps_pairs a b : pairs_of (eq_steps a b) = combine (parts a) (parts b) \/ pairs_of (eq_steps a b) = [].
Proof.
  destruct a, b; try (right; reflexivity); left; cbn [eq_steps parts refs]; try reflexivity; cbn [app pairs_of flat_map combine];
    try (apply (zip_pairs _ m_type); reflexivity); try (apply (zip_pairs _ vs_type); reflexivity); try (f_equal; apply (zip_pairs _ p_type); reflexivity).
  apply zip_nopairs. reflexivity.
Qed.
Lemma combine_F2 {A B} (R : A -> B -> Prop) l m : Forall2 R l m -> forall x y, In (x, y) (combine l m) -> R x y.
Proof. intros F. induction F as [|a b l m Rab F IH]; intros x y H; [destruct H|]. destruct H as [E|H]; [injection E as <- <-; exact Rab|auto]. Qed.
Lemma F2_combine {A B} (R : A -> B -> Prop) l : forall m, length l = length m -> (forall x y, In (x, y) (combine l m) -> R x y) -> Forall2 R l m.
Proof. induction l as [|a l IH]; intros [|b m] L H; try discriminate L; constructor; [apply H; now left|]. apply IH; [now injection L|]. intros x y I. apply H. now right. Qed.
Lemma head_steps a b : composite a = true -> head a <> head b -> forall eq c, run_eq eq c (eq_steps a b) = Some (c, Err NotEquivalent).
Proof.
  intros Ca N eq c. destruct a; try discriminate Ca; destruct b; try reflexivity; cbn [eq_steps app run_eq head] in *.
  - destruct (str_eq name name0 && (size =? size0)) eqn:E; [|reflexivity]. destruct (Nat.eqb (length ms) (length ms0)) eqn:E2; [|reflexivity]. apply andb_true_iff in E as (E & E1). apply str_eq_eq in E. apply Z.eqb_eq in E1. apply Nat.eqb_eq in E2. congruence.
  - destruct (str_eq name name0 && (size =? size0)) eqn:E; [|reflexivity]. destruct (Nat.eqb (length ms) (length ms0)) eqn:E2; [|reflexivity]. apply andb_true_iff in E as (E & E1). apply str_eq_eq in E. apply Z.eqb_eq in E1. apply Nat.eqb_eq in E2. congruence.
Qed.
Lemma skeleton_head a b : skeleton a = skeleton b -> head a = head b.
Proof.
  intros S. destruct a, b; cbn [skeleton] in S; try discriminate S; try reflexivity; cbn [head]; injection S as -> -> E; apply (f_equal (@length _)) in E; rewrite !map_length in E; rewrite E; reflexivity.
Qed.
Lemma skeleton_key key a b : skeleton a = skeleton b -> is_key key a = is_key key b.
Proof. intros S. unfold is_key. now rewrite (skeleton_head a b S). Qed.
Lemma skeleton_supported a b : skeleton a = skeleton b -> supported a -> supported b.
Proof. intros S H. destruct a, b; cbn in *; try discriminate S; auto. Qed.
Lemma head_dec (a b : option heading) : {a = b} + {a <> b}.
Proof. repeat decide equality. Qed.

(** ** typesEquivalent is sound *)
Section Sound.
  Variable key : heading -> bool.
  Variable h : heap.

  (** a path of references which avoids the keys *)
  Inductive path : ref -> ref -> Prop :=
  | path_one x y n : deref h x = Some n -> is_key key n = false -> In y (parts n) -> path x y
  | path_step x y z n : deref h x = Some n -> is_key key n = false -> In y (parts n) -> path y z -> path x z.
  Lemma path_snoc x y z n : path x y -> deref h y = Some n -> is_key key n = false -> In z (parts n) -> path x z.
  Proof using. intros Q. induction Q; intros D K I; econstructor 2; eauto. now econstructor 1; eauto. Qed.
  Fixpoint grounded_ind2 (Q : ref -> Prop) (q1 : Q RVoid) (q2 : forall x n, deref h x = Some n -> is_key key n = true -> Q x)
    (q3 : forall x n, deref h x = Some n -> supported n -> Forall (grounded key h) (parts n) -> Forall Q (parts n) -> Q x) x (G : grounded key h x) {struct G} : Q x :=
    match G with
    | grounded_void _ _ => q1
    | grounded_key _ _ x n D K => q2 x n D K
    | grounded_node _ _ x n D U F => q3 x n D U F ((fix go l (F : Forall (grounded key h) l) : Forall Q l := match F with Forall_nil _ => Forall_nil _ | Forall_cons y Gy F' => Forall_cons _ (grounded_ind2 Q q1 q2 q3 y Gy) (go _ F') end) _ F)
    end.
  Lemma no_cycle x : grounded key h x -> ~ path x x.
  Proof using.
    intros G. refine (grounded_ind2 (fun x => ~ path x x) _ _ _ x G); clear x G; [|intros x n D K|intros x n D S F IH].
    - intros Q. inversion Q; discriminate.
    - intros Q. inversion Q; congruence.
    - intros Q. rewrite Forall_forall in IH. inversion Q as [x' y n' D' K' I'|x' y z n' D' K' I' Q']; subst.
      + rewrite D in D'. injection D' as <-. exact (IH x I' Q).
      + rewrite D in D'. injection D' as <-. apply (IH y I'). exact (path_snoc _ _ _ _ Q' D K' I').
  Qed.

  Variable P : ref -> Prop.   (* the types which can occur *)
  Hypothesis Pclosed : forall x, P x -> x = RVoid \/ exists n, deref h x = Some n /\ supported n /\ Forall P (parts n).
  Hypothesis Pground : forall x, P x -> grounded key h x.
  Hypothesis Pkeys : forall s t n m, P s -> P t -> deref h s = Some n -> deref h t = Some m -> head n = head m -> is_key key n = true -> equivalent h s h t.
  Lemma P_refl x : P x -> equivalent h x h x.
  Proof using Pclosed. apply equivalent_refl. intros y Py. destruct (Pclosed y Py) as [->|(n & D & _ & F)]; eauto. Qed.
  Definition cache_ok (c : cache) : Prop := forall a b, In ((a, b), true) c -> equivalent h a h b.
  Definition inv (vis : list ref) (a b : ref) : Prop := equivalent h a h b \/ forall v, In v vis -> path v a.
  Definition sound_result (a b : ref) (c' : cache) (r : res derr unit) : Prop := cache_ok c' /\ (r = Ok tt -> equivalent h a h b) /\ r <> Err Unsupported.
  Lemma run_sound vis eq : (forall c a b c' r, P a -> P b -> cache_ok c -> inv vis a b -> eq c a b = Some (c', r) -> sound_result a b c' r) ->
    forall steps c c' r, cache_ok c -> (forall a b, In (a, b) (pairs_of steps) -> P a /\ P b /\ inv vis a b) -> run_eq eq c steps = Some (c', r) ->
    cache_ok c' /\ (r = Ok tt -> all_true steps /\ forall a b, In (a, b) (pairs_of steps) -> equivalent h a h b) /\ r <> Err Unsupported.
  Proof using.
    intros Heq. induction steps as [|[[|]|a b] steps IH]; intros c c' r C Hp E; cbn [run_eq] in E.
    - injection E as <- <-. split; [exact C|]. split; [|discriminate]. intros _. split; [now apply all_true_nil|intros a b []].
    - destruct (IH c c' r C Hp E) as (C' & R & N). split; [exact C'|]. split; [|exact N]. intros Er. destruct (R Er) as (A & B). split; [now apply all_true_cons|exact B].
    - injection E as <- <-. split; [exact C|]. split; discriminate.
    - destruct (Hp a b (or_introl eq_refl)) as (Pa & Pb & Iab). destruct (eq c a b) as [[c1 r1]|] eqn:E1; [|discriminate E]. destruct (Heq c a b c1 r1 Pa Pb C Iab E1) as (C1 & R1 & N1).
      destruct r1 as [[]|e].
      + destruct (IH c1 c' r C1 (fun x y I => Hp x y (or_intror I)) E) as (C' & R & N). split; [exact C'|]. split; [|exact N]. intros Er. destruct (R Er) as (A & B). split; [now apply all_true_pair|]. intros x y [Exy|I]; [injection Exy as <- <-; auto|auto].
      + injection E as <- <-. split; [exact C1|]. split; [discriminate|exact N1].
  Qed.
  Lemma find_eq_in c a b v : find_eq c a b = Some v -> In ((a, b), v) c.
  Proof using. induction c as [|[[x y] w] c IH]; [discriminate|]. cbn [find_eq]. destruct (ref_eq_dec x a) as [->|]; [|right; auto]. destruct (ref_eq_dec y b) as [->|]; [|right; auto]. intros E. injection E as ->. now left. Qed.

  (** the comparison of the children *)
  Lemma step_sound f vis vis' a b n m c c' r :
    (forall vis c a b c' r, P a -> P b -> cache_ok c -> inv vis a b -> typesEquivalent f h vis c a b = Some (c', r) -> sound_result a b c' r) ->
    P a -> P b -> deref h a = Some n -> deref h b = Some m -> cache_ok c -> inv vis a b -> (is_key key n = true -> equivalent h a h b) ->
    (forall v, In v vis' -> In v vis \/ v = a) ->
    run_eq (typesEquivalent f h vis') c (eq_steps n m) = Some (c', r) -> sound_result a b c' r.
  Proof using Pclosed.
    intros IH Pa Pb Da Db C I K V E.
    destruct (Pclosed a Pa) as [->|(n' & Da' & Sn & Fn)]; [discriminate Da|]. rewrite Da in Da'. injection Da' as <-.
    destruct (Pclosed b Pb) as [->|(m' & Db' & Sm & Fm)]; [discriminate Db|]. rewrite Db in Db'. injection Db' as <-.
    rewrite Forall_forall in Fn, Fm.
    destruct (run_sound vis' _ (IH vis') (eq_steps n m) c c' r C) as (C' & R & N); [|exact E|].
    - intros x y Hxy. assert (J : In (x, y) (combine (parts n) (parts m))) by (destruct (steps_pairs n m) as [E'|E']; rewrite E' in Hxy; [exact Hxy|destruct Hxy]). clear Hxy.
      split; [apply Fn; exact (in_combine_l _ _ _ _ J)|]. split; [apply Fm; exact (in_combine_r _ _ _ _ J)|].
      assert (KE : equivalent h a h b -> equivalent h x h y). { intros Q. destruct (equivalent_inv _ _ _ _ _ Q Da) as (m2 & Dm2 & _ & F2). rewrite Db in Dm2. injection Dm2 as <-. exact (combine_F2 _ _ _ F2 x y J). }
      destruct I as [Q|Q]; [left; exact (KE Q)|]. destruct (is_key key n) eqn:Kn; [left; exact (KE (K eq_refl))|]. right. intros v Hv. destruct (V v Hv) as [Hv'| ->].
      + exact (path_snoc _ _ _ _ (Q v Hv') Da Kn (in_combine_l _ _ _ _ J)).
      + exact (path_one _ _ _ Da Kn (in_combine_l _ _ _ _ J)).
    - split; [exact C'|]. split; [|exact N]. intros Er. destruct (R Er) as (A & B). destruct (steps_ok n m Sn A) as (S & L & Pr). rewrite Pr in B. apply (equivalent_node h a h b n m Da Db S). exact (F2_combine _ _ _ L B).
  Qed.
  Theorem eq_sound : forall f vis c a b c' r, P a -> P b -> cache_ok c -> inv vis a b -> typesEquivalent f h vis c a b = Some (c', r) -> sound_result a b c' r.
  Proof using Pclosed Pground Pkeys.
    induction f as [|f IH]; intros vis c a b c' r Pa Pb C I E; [discriminate E|]. cbn [typesEquivalent] in E.
    destruct (ref_eq_dec a b) as [<-|Nab]. { injection E as <- <-. split; [exact C|]. split; [|discriminate]. intros _. exact (P_refl a Pa). }
    destruct (Pclosed a Pa) as [Va|(n & Da & Sn & Fn)]. { rewrite Va in E. injection E as <- <-. split; [exact C|]. split; discriminate. }
    assert (Ea : exists k, a = RPtr k) by (destruct a; try discriminate Da; eauto). destruct Ea as (k & ->). cbn [typesEquivalent] in E. rewrite Da in E.
    assert (Hnone : forall c, cache_ok c -> sound_result (RPtr k) b c (Err NotEquivalent)) by (intros c0 C0; split; [exact C0|split; discriminate]).
    assert (Hcomp : composite n = true ->
      (match find_eq c (RPtr k) b with
       | Some true => Some (c, Ok tt)
       | Some false => Some (c, Err NotEquivalent)
       | None =>
           match (match deref h b with Some m => run_eq (typesEquivalent f h vis) c (eq_steps n m) | None => Some (c, Err NotEquivalent) end) with
           | None => None
           | Some (c, r) => Some (((RPtr k, b), match r with Ok _ => true | Err _ => false end) :: c, r)
           end
       end) = Some (c', r) -> sound_result (RPtr k) b c' r).
    { clear E. intros Cn E. destruct (find_eq c (RPtr k) b) as [[|]|] eqn:Ef.
      - injection E as <- <-. split; [exact C|]. split; [|discriminate]. intros _. apply C, find_eq_in, Ef.
      - injection E as <- <-. auto.
      - destruct (deref h b) as [m|] eqn:Db; [|injection E as <- <-; apply Hnone; intros x y [J|J]; [discriminate J|auto]].
        destruct (head_dec (head n) (head m)) as [Eh|Nh].
        + destruct (run_eq (typesEquivalent f h vis) c (eq_steps n m)) as [[c1 r1]|] eqn:Er; [|discriminate E]. injection E as <- <-.
          destruct (step_sound f vis vis (RPtr k) b n m c c1 r1) as (C1 & R1 & N1); auto. { intros K. exact (Pkeys _ _ n m Pa Pb Da Db Eh K). }
          split; [|split; auto]. intros x y [J|J]; [|auto]. injection J as <- <- J. apply R1. destruct r1 as [[]|]; [reflexivity|discriminate J].
        + rewrite (head_steps n m Cn Nh) in E. injection E as <- <-. apply Hnone. intros x y [J|J]; [discriminate J|auto]. }
    assert (Hplain : composite n = false ->
      (match deref h b with Some m => run_eq (typesEquivalent f h vis) c (eq_steps n m) | None => Some (c, Err NotEquivalent) end) = Some (c', r) -> sound_result (RPtr k) b c' r).
    { clear E. intros Cn E. destruct (deref h b) as [m|] eqn:Db; [|injection E as <- <-; auto].
      eapply (step_sound f vis vis (RPtr k) b n m c c' r); eauto. intros K. destruct n; discriminate. }
    destruct n; cbn [composite] in *; try (exact (Hplain eq_refl E)); try (exact (Hcomp eq_refl E)); [|destruct Sn].
    clear Hcomp Hplain. destruct (deref h b) as [m|] eqn:Db; [|injection E as <- <-; auto].
    destruct m; try (injection E as <- <-; auto). destruct (ref_in (RPtr k) vis) eqn:V.
    - injection E as <- <-. split; [exact C|]. split; [|discriminate]. intros _. apply ref_in_In in V. destruct I as [Q|Q]; [exact Q|]. destruct (no_cycle _ (Pground _ Pa) (Q _ V)).
    - eapply (step_sound f vis (vis ++ [RPtr k]) (RPtr k) b _ _ c c' r IH Pa Pb Da Db C I); [discriminate| |exact E]. intros v Hv. apply in_app_or in Hv as [Hv|[Hv|[]]]; auto.
  Qed.
End Sound.

(** ** Hashing does not fail *)
Definition step_refs (s : hstep) : list ref := match s with HW _ => [] | HSub r | HAgain r => [r] end.
Lemma hash_steps_refs n : supported n -> exists steps, hash_steps n = Some steps /\ incl (flat_map step_refs steps) (parts n).
Proof.
  assert (Hm : forall ms : list member, flat_map step_refs (flat_map (fun m => [HW (WS (m_name m)); HW (WZ (m_offset m)); HSub (m_type m)]) ms) = map m_type ms) by (induction ms as [|m ms IH]; cbn; congruence).
  assert (Hp : forall ps : list fparam, flat_map step_refs (flat_map (fun p => [HW (WS (p_name p)); HSub (p_type p)]) ps) = map p_type ps) by (induction ps as [|m ms IH]; cbn; congruence).
  assert (Hv : forall vs : list secinfo, flat_map step_refs (flat_map (fun v => [HW (WZ (vs_offset v)); HW (WZ (vs_size v)); HSub (vs_type v)]) vs) = map vs_type vs) by (induction vs as [|m ms IH]; cbn; congruence).
  assert (He : forall vs : list enumvalue, flat_map step_refs (flat_map (fun v => [HW (WS (ev_name v)); HW (WZ (ev_value v))]) vs) = []) by (induction vs as [|m ms IH]; cbn; congruence).
  intros S. destruct n; try destruct S; cbn [hash_steps]; (eexists; split; [reflexivity|]); rewrite ?flat_map_app; cbn [flat_map step_refs app parts refs]; rewrite ?flat_map_app, ?Hm, ?Hp, ?Hv, ?He; try (intros x Hx; cbn in *; tauto).
  intros x Hx. cbn in *. apply in_app_or in Hx as [Hx|[Hx|[]]]; auto.
Qed.
Section HashOk.
  Variable h : heap.
  Variable P : ref -> Prop.
  Hypothesis Pclosed : forall x, P x -> x = RVoid \/ exists n, deref h x = Some n /\ supported n /\ Forall P (parts n).
  Lemma run_hash_ok sum f : (forall c t b c' r, P t -> hash sum f h c t b = Some (c', r) -> exists v, r = Ok v) ->
    forall steps b c l c' r, (forall x, In x (flat_map step_refs steps) -> P x) -> run_hash (hash sum f h) b c l steps = Some (c', r) -> exists v, r = Ok v.
  Proof using.
    intros H. induction steps as [|[w|t|t] steps IH]; intros b c l c' r I E; cbn [run_hash] in E.
    - injection E as <- <-. eauto.
    - destruct (run_hash _ b c l steps) as [[c1 r1]|] eqn:E1; [|discriminate E]. destruct (IH b c l c1 r1 I E1) as (v & ->). injection E as <- <-. eauto.
    - destruct (hash sum f h c t b) as [[c1 r1]|] eqn:E1; [|discriminate E]. destruct (H _ _ _ _ _ (I t (or_introl eq_refl)) E1) as (v & ->).
      destruct (run_hash _ b c1 v steps) as [[c2 r2]|] eqn:E2; [|discriminate E]. destruct (IH b c1 v c2 r2 (fun x J => I x (or_intror J)) E2) as (w & ->). injection E as <- <-. eauto.
    - destruct (hash sum f h c t b) as [[c1 r1]|] eqn:E1; [|discriminate E]. destruct (H _ _ _ _ _ (I t (or_introl eq_refl)) E1) as (v & ->).
      destruct (run_hash _ b c1 l steps) as [[c2 r2]|] eqn:E2; [|discriminate E]. destruct (IH b c1 l c2 r2 (fun x J => I x (or_intror J)) E2) as (w & ->). injection E as <- <-. eauto.
  Qed.
  Lemma hash_ok sum : forall f c t b c' r, P t -> hash sum f h c t b = Some (c', r) -> exists v, r = Ok v.
  Proof using Pclosed.
    induction f as [|f IH]; intros c t b c' r Pt E; [discriminate E|]. cbn [hash] in E. destruct (b =? 0); [injection E as <- <-; eauto|].
    destruct (Pclosed t Pt) as [->|(n & D & S & F)]; [injection E as <- <-; eauto|].
    assert (Ea : exists k, t = RPtr k) by (destruct t; try discriminate D; eauto). destruct Ea as (k & ->). rewrite D in E.
    destruct (if composite n then find_hash c (RPtr k) b else None); [injection E as <- <-; eauto|].
    destruct (hash_steps_refs n S) as (steps & Es & Is). rewrite Es in E. destruct (run_hash _ _ c 0 steps) as [[c1 r1]|] eqn:E1; [|discriminate E].
    rewrite Forall_forall in F. destruct (run_hash_ok sum f IH steps _ c 0 c1 r1 (fun x J => F x (Is x J)) E1) as (v & ->). injection E as <- <-. eauto.
  Qed.
End HashOk.

(** ** Replacing references *)
Lemma set_members_types ms : forall rs, length rs = length ms -> map m_type (set_members ms rs) = rs.
Proof. induction ms as [|m ms IH]; intros [|r rs] L; try discriminate L; [reflexivity|]. cbn. f_equal. apply IH. now injection L. Qed.
Lemma set_params_types ps : forall rs, length rs = length ps -> map p_type (set_params ps rs) = rs.
Proof. induction ps as [|m ms IH]; intros [|r rs] L; try discriminate L; [reflexivity|]. cbn. f_equal. apply IH. now injection L. Qed.
Lemma set_vars_types vs : forall rs, length rs = length vs -> map vs_type (set_vars vs rs) = rs.
Proof. induction vs as [|m ms IH]; intros [|r rs] L; try discriminate L; [reflexivity|]. cbn. f_equal. apply IH. now injection L. Qed.
Definition is_tag (n : node) : bool := match n with NDeclTag _ _ _ => true | _ => false end.
Ltac one_ref L := match type of L with length ?rs = _ => destruct rs as [|? [|? ?]]; try discriminate L end.
Lemma set_children_parts n rs : is_tag n = false -> length rs = length (refs n) -> parts (set_children n rs) = rs.
Proof.
  intros T L. destruct n; try discriminate T; cbn [refs length] in L; rewrite ?map_length in L; cbn [set_children]; try (destruct rs; [reflexivity|discriminate L]); try (one_ref L; reflexivity).
  - destruct rs as [|? [|? [|? ?]]]; try discriminate L. reflexivity.
  - cbn [parts refs]. now apply set_members_types.
  - cbn [parts refs]. now apply set_members_types.
  - destruct rs as [|r rs]; [discriminate L|]. injection L as L. cbn [set_children parts refs]. f_equal. now apply set_params_types.
  - cbn [parts refs]. now apply set_vars_types.
Qed.
Lemma set_children_refs n : set_children n (refs n) = n.
Proof.
  assert (Hm : forall ms, set_members ms (map m_type ms) = ms) by (induction ms as [|[] ms IH]; cbn; congruence).
  assert (Hp : forall ms, set_params ms (map p_type ms) = ms) by (induction ms as [|[] ms IH]; cbn; congruence).
  assert (Hv : forall ms, set_vars ms (map vs_type ms) = ms) by (induction ms as [|[] ms IH]; cbn; congruence).
  destruct n; cbn [set_children refs]; rewrite ?Hm, ?Hp, ?Hv; reflexivity.
Qed.
Lemma set_children_skeleton n rs : skeleton (set_children n rs) = skeleton n.
Proof.
  assert (Hm : forall ms rs, map (fun m => mkMember (m_name m) RVoid (m_offset m) 0 []) (set_members ms rs) = map (fun m => mkMember (m_name m) RVoid (m_offset m) 0 []) ms) by (induction ms as [|m ms IH]; intros [|r l]; cbn; congruence).
  assert (Hp : forall ms rs, map (fun p => mkParam (p_name p) RVoid) (set_params ms rs) = map (fun p => mkParam (p_name p) RVoid) ms) by (induction ms as [|m ms IH]; intros [|r l]; cbn; congruence).
  assert (Hv : forall ms rs, map (fun v => mkVS RVoid (vs_offset v) (vs_size v)) (set_vars ms rs) = map (fun v => mkVS RVoid (vs_offset v) (vs_size v)) ms) by (induction ms as [|m ms IH]; intros [|r l]; cbn; congruence).
  destruct n; cbn [set_children]; try (destruct rs as [|? [|? ?]]; reflexivity).
  - destruct rs as [|? [|? [|? ?]]]; reflexivity.
  - cbn [skeleton]. now rewrite Hm.
  - cbn [skeleton]. now rewrite Hm.
  - destruct rs as [|r rs]; [reflexivity|]. cbn [skeleton]. now rewrite Hp.
  - cbn [skeleton]. now rewrite Hv.
Qed.

(** the heap has been changed such that equivalences still hold *)
Definition refines (h h' : heap) : Prop :=
  forall y m, deref h y = Some m -> exists m', deref h' y = Some m' /\ skeleton m = skeleton m' /\ Forall2 (fun p p' => p = p' \/ equivalent h p h p') (parts m) (parts m').
Definition advances (h h' : heap) : Prop := (length h <= length h')%nat /\ forall g x y, equivalent g x h y -> equivalent g x h' y.
Lemma advances_refl h : advances h h.
Proof. split; auto. Qed.
Lemma advances_trans h1 h2 h3 : advances h1 h2 -> advances h2 h3 -> advances h1 h3.
Proof. intros (L1 & A1) (L2 & A2). split; [lia|auto]. Qed.
Lemma advances_both h h' x y : advances h h' -> equivalent h x h y -> equivalent h' x h' y.
Proof. intros (_ & A) E. apply A, equivalent_sym, A, equivalent_sym, E. Qed.
Lemma refines_advances h h' : (length h <= length h')%nat -> refines h h' -> advances h h'.
Proof.
  intros L R. split; [exact L|]. intros g x y E. exists (fun a b => equivalent g a h b). split; [|exact E]. clear x y E. intros x y E. destruct (equivalent_bisim g h x y E) as [V|(n & m & Dx & Dy & S & F)]; [now left|]. right.
  destruct (R y m Dy) as (m' & Dy' & S' & F'). exists n, m'. split; [exact Dx|]. split; [exact Dy'|]. split; [congruence|].
  eapply F2_mono; [|exact (F2_comp _ _ _ _ F _ F')]. cbn. intros a c (b & E1 & [<-|E2]); [exact E1|exact (equivalent_trans _ _ _ _ _ _ E1 E2)].
Qed.
Lemma F2_diag {A} (R : A -> A -> Prop) l : (forall x, R x x) -> Forall2 R l l.
Proof. intros H. induction l; constructor; auto. Qed.
Lemma refines_app h l : refines h (h ++ l).
Proof.
  intros y m D. exists m. split; [|split; [reflexivity|apply F2_diag; auto]]. destruct y as [| |a]; try discriminate D. cbn [deref] in *. rewrite nth_error_app1; [exact D|]. apply nth_error_Some. congruence.
Qed.
Lemma refines_set h a n rs rs' : nth_error h a = Some (set_children n rs) -> is_tag n = false -> length rs = length (refs n) -> Forall2 (fun p p' => p = p' \/ equivalent h p h p') rs rs' -> refines h (set_nth h a (set_children n rs')).
Proof.
  intros E T L F y m D. assert (L' : length rs' = length (refs n)) by (rewrite <- L; symmetry; clear - F; induction F; cbn; congruence).
  destruct y as [| |b]; try discriminate D. cbn [deref] in *. destruct (Nat.eq_dec a b) as [<-|Nab].
  - rewrite nth_set_same by (apply nth_error_Some; congruence). rewrite E in D. injection D as <-. exists (set_children n rs'). split; [reflexivity|]. rewrite !set_children_skeleton. split; [reflexivity|]. rewrite !set_children_parts by assumption. exact F.
  - rewrite nth_set_other by exact Nab. exists m. split; [exact D|]. split; [reflexivity|]. apply F2_diag. auto.
Qed.
Lemma grounded_equivalent key h x : grounded key h x -> forall h' y, equivalent h x h' y -> grounded key h' y.
Proof.
  intros G. refine (grounded_ind2 key h (fun x => forall h' y, equivalent h x h' y -> grounded key h' y) _ _ _ x G); clear x G; [|intros x n D K|intros x n D S F IH]; intros h' y E.
  - destruct (equivalent_bisim _ _ _ _ E) as [(_ & ->)|(n & m & D & _)]; [constructor|discriminate D].
  - destruct (equivalent_inv _ _ _ _ _ E D) as (m & Dm & Sm & Fm). apply (grounded_key key h' y m Dm). now rewrite <- (skeleton_key key _ _ Sm).
  - destruct (equivalent_inv _ _ _ _ _ E D) as (m & Dm & Sm & Fm). apply (grounded_node key h' y m Dm (skeleton_supported _ _ Sm S)). clear - Fm IH. induction Fm as [|p q l l' Epq F2 IHF]; constructor; inversion IH; subst; auto.
Qed.
Lemma grounded_supported key h x : grounded key h x -> x = RVoid \/ exists n, deref h x = Some n /\ supported n.
Proof. intros G. destruct G as [|x n D K|x n D S F]; [now left| |]; right; exists n; split; auto. destruct n; try exact Coq.Init.Logic.I; discriminate K. Qed.
