(** Proofs about the type decoder. *)
From Coq Require Import ZArith List Lia Bool Sorting.Sorted.
From Verif.Base Require Import GoInt ListExtra.
From Verif.Btf Require Import Wire WireSpec WireProof Types TypesSpec TypesProof Decode DecodeSpec DecodeRec DecodeTags.
Import ListNotations.
Open Scope Z_scope.

Lemma assoc_remove {A} (l : list (Z * A)) k j : assoc (remove l k) j = if j =? k then None else assoc l j.
Proof.
  unfold remove. induction l as [|[k' v] l IH]; cbn [assoc filter fst]; [now destruct (j =? k)|].
  destruct (Z.eqb_spec k' k) as [E|N]; cbn [negb assoc]; rewrite IH; destruct (Z.eqb_spec j k), (Z.eqb_spec k' j); try lia; reflexivity.
Qed.
Lemma nth_set_same {A} (l : list A) i x : (i < length l)%nat -> nth_error (set_nth l i x) i = Some x.
Proof. revert i. induction l; intros [|i] H; cbn in *; try lia; [reflexivity|]. apply IHl. lia. Qed.
Lemma nth_set_other {A} (l : list A) i j x : i <> j -> nth_error (set_nth l i x) j = nth_error l j.
Proof. revert i j. induction l; intros [|i] [|j] H; cbn; try reflexivity; try congruence. apply IHl. congruence. Qed.
Lemma set_nth_length {A} (l : list A) i x : length (set_nth l i x) = length l.
Proof. revert i. induction l; intros [|i]; cbn; auto. Qed.

Section Decode.
  Variable nm : Z -> option str.
  Variable recs : list wrec.
  Hypothesis Hok : Forall rec_ok recs.
  Notation requires := (requires nm recs).
  Notation needs := (needs nm recs).
  Notation sound := (sound nm recs).
  Notation all_sound := (all_sound nm recs).
  Notation protos_first := (protos_first nm recs).
  Notation describes := (describes nm recs).

  Definition good (id : Z) : Prop := all_sound id /\ protos_first id.
  Lemma needs_trans x y z : needs x y -> needs y z -> needs x z.
  Proof. induction 1; [auto|]. intros H1. econstructor; eauto. Qed.
  Lemma needs_one x y : requires x y -> needs x y.
  Proof. intros H. econstructor; [exact H|constructor]. Qed.
  Lemma good_needs x y : good x -> needs x y -> good y.
  Proof.
    intros (A & B) N. split; [intros j Hj; apply A; eapply needs_trans; eassumption|]. intros j r t Hj. apply B. eapply needs_trans; eassumption.
  Qed.
  Lemma rok r id : record recs id r -> rec_ok r.
  Proof. intros H. rewrite Forall_forall in Hok. apply Hok. eapply record_In; eassumption. Qed.

  Definition addr (st : dstate) (id : Z) : ref := if id =? 0 then RVoid else match assoc (d_types st) id with Some a => RPtr a | None => RNil end.
  Definition cached (st : dstate) (id : Z) : Prop := id = 0 \/ exists a, assoc (d_types st) id = Some a.

  (** what is known of every registered type, finished or not *)
  Definition node_form (r : wrec) (n : node) : Prop :=
    match n with
    | NDeclTag _ s i => kind r = 17 /\ nm (name_off r) = Some s /\ exists i0, aux r = [i0] /\ i = signed32 i0
    | NFuncProto _ ps => kind r = 13 /\ Z.of_nat (length ps) <= vlen r
    | _ => kind r <> 17 /\ kind r <> 13
    end.
  Definition node_kind (r : wrec) (n : node) : Prop := node_form r n /\ name_of nm r (type_name n) /\ type_kind n = go_type (kind r).
  Lemma zip_length {A B C} (g : A -> B -> C) l : forall m, (length (zip_with g l m) <= length l)%nat.
  Proof. induction l; intros [|]; cbn; try lia. specialize (IHl l0). lia. Qed.
  Lemma somes_length {A} (l : list (option A)) : (length (somes l) <= length l)%nat.
  Proof. induction l as [|[]]; cbn; lia. Qed.
  Lemma pairs_length n : forall ws, (length (pairs n ws) <= n)%nat.
  Proof. induction n; intros ws; cbn; [lia|]. destruct ws as [|a [|b ws]]; cbn; try lia. specialize (IHn ws). lia. Qed.

  Lemma plan_form r p : rec_ok r -> plan_of nm r = Some p -> node_form r (p_init p) /\ forall leg rs, node_form r (p_build p leg rs).
  Proof.
    intros R E. unfold plan_of in E. destruct (nm (NameOff (hdr r))) as [s|] eqn:N; [|discriminate E]. change (nm (name_off r) = Some s) in N.
    rewrite Kind_field in E. change (field (Info (hdr r)) 24 5) with (kind r) in E.
    assert (Aux : Forall (in_u 32) (aux r)) by apply R. unfold node_form.
    assert (LD : kind r = 17 -> 4 * Z.of_nat (length (aux r)) = 4) by (intros K; apply rec_aux_length; [exact R|tbl]).
    remember (kind r) as kr eqn:Kr.
    repeat match type of E with (if ?k =? ?c then _ else _) = _ => destruct (Z.eqb_spec k c) as [K|_] end; [..|discriminate E].
    all: unfold kindInt, kindPointer, kindArray, kindStruct, kindUnion, kindEnum, kindForward, kindTypedef, kindVolatile, kindConst, kindRestrict, kindFunc, kindFuncProto, kindVar, kindDatasec, kindFloat, kindDeclTag, kindTypeTag, kindEnum64 in K.
    all: unfold single, leaf, composite, enumeration in E.
    all: repeat match type of E with (match ?l with [] => None | _ => _ end) = _ => destruct l eqn:?; [discriminate E|] end.
    all: apply some_inj in E; subst p; cbn [p_init p_build].
    all: try (split; [split; lia|intros leg rs; try (destruct rs as [|? [|? [|]]]); split; lia]).
    - split; [split; [exact K|]; unfold vlen; pose proof (vlen_nonneg (hdr r)); cbn; lia|]. intros leg rs. split; [exact K|].
      match goal with |- Z.of_nat (length (zip_with ?g ?l rs)) <= _ => pose proof (zip_length g l rs); pose proof (somes_length (map (named nm) (pairs (Z.to_nat (Vlen (hdr r))) (aux r)))) end.
      rewrite map_length in H0. pose proof (pairs_length (Z.to_nat (Vlen (hdr r))) (aux r)). rewrite Vlen_field in *. change (field (Info (hdr r)) 0 16) with (vlen r) in *.
      pose proof (vlen_nonneg (hdr r)). unfold vlen in *. lia.
    - specialize (LD K). cbn [length] in LD. destruct l; [|cbn [length] in LD; lia]. inversion Aux; subst. 
      split; [|intros leg rs; destruct rs as [|? [|]]]; (split; [exact K|]; split; [exact N|]; eexists; split; [reflexivity|apply signed_i32; assumption]).
  Qed.

  Lemma plan_name r p : plan_of nm r = Some p -> (name_of nm r (type_name (p_init p)) /\ type_kind (p_init p) = go_type (kind r)) /\
    forall leg rs, name_of nm r (type_name (p_build p leg rs)) /\ type_kind (p_build p leg rs) = go_type (kind r).
  Proof.
    intros E. unfold plan_of in E. destruct (nm (NameOff (hdr r))) as [s|] eqn:N; [|discriminate E]. change (nm (name_off r) = Some s) in N.
    rewrite Kind_field in E. change (field (Info (hdr r)) 24 5) with (kind r) in E. unfold name_of.
    repeat match type of E with (if ?k =? ?c then _ else _) = _ => destruct (Z.eqb_spec k c) as [K|_] end; [..|discriminate E].
    all: unfold kindInt, kindPointer, kindArray, kindStruct, kindUnion, kindEnum, kindForward, kindTypedef, kindVolatile, kindConst, kindRestrict, kindFunc, kindFuncProto, kindVar, kindDatasec, kindFloat, kindDeclTag, kindTypeTag, kindEnum64 in K; rewrite K; cbn [named_kind Z.eqb Pos.eqb orb].
    all: unfold single, leaf, composite, enumeration in E.
    all: repeat match type of E with (match ?l with [] => None | _ => _ end) = _ => destruct l eqn:?; [discriminate E|] end.
    all: apply some_inj in E; subst p; cbn [p_init p_build].
    all: split; [|intros leg rs; try (destruct rs as [|? [|? [|]]])]; cbn [type_name type_kind]; (split; [now auto|reflexivity]).
  Qed.
  Lemma plan_kind r p : rec_ok r -> plan_of nm r = Some p -> node_kind r (p_init p) /\ forall leg rs, node_kind r (p_build p leg rs).
  Proof. intros R E. destruct (plan_form r p R E), (plan_name r p E). split; [|intros leg rs]; split; auto. Qed.

  Record Inv (st : dstate) : Prop := {
    i_types : forall id a, assoc (d_types st) id = Some a -> exists n r p, nth_error (d_heap st) a = Some n /\ record recs id r /\ plan_of nm r = Some p /\ node_kind r n;
    i_inj : forall id id' a, assoc (d_types st) id = Some a -> assoc (d_types st) id' = Some a -> id = id';
    i_leg1 : forall t v, assoc (d_legacy st) t = Some v -> leg0 recs t = Some v;
    i_leg2 : forall t a, assoc (d_types st) t = Some a -> assoc (d_legacy st) t = leg0 recs t;
    i_ids : forall a id, In (RPtr a, id) (d_ids st) -> (a < length (d_heap st))%nat /\ (forall id', assoc (d_types st) id' = Some a -> id' = id) /\ forall id', In (RPtr a, id') (d_ids st) -> id' = id }.

  Record Ext (st st' : dstate) : Prop := {
    e_heap : exists e, d_heap st' = d_heap st ++ e;
    e_types : forall id a, assoc (d_types st) id = Some a -> assoc (d_types st') id = Some a;
    e_ids : forall p, In p (d_ids st) -> In p (d_ids st') }.
  Lemma Ext_refl st : Ext st st.
  Proof. constructor; auto. exists []. now rewrite app_nil_r. Qed.
  Lemma Ext_trans a b c : Ext a b -> Ext b c -> Ext a c.
  Proof. intros [(e & H1) T1 I1] [(e' & H2) T2 I2]. constructor; auto. exists (e ++ e'). now rewrite H2, H1, app_assoc. Qed.
  Lemma Ext_nth st st' i : Ext st st' -> (i < length (d_heap st))%nat -> nth_error (d_heap st') i = nth_error (d_heap st) i.
  Proof. intros [(e & ->) _ _] L. now apply nth_error_app1. Qed.
  Lemma cached_ext st st' id : Ext st st' -> cached st id -> cached st' id /\ addr st' id = addr st id.
  Proof.
    intros E [->|(a & H)]; [split; [now left|reflexivity]|]. pose proof (e_types _ _ E _ _ H) as H'. split; [right; eauto|]. unfold addr. now rewrite H, H'.
  Qed.

  Definition Complete (st : dstate) (id : Z) : Prop := decoded nm recs (d_heap st) (addr st) id /\ forall t, requires id t -> cached st t.
  Definition GoodC (st : dstate) (K : list Z) : Prop := forall j a, assoc (d_types st) j = Some a -> ~ In j K -> good j -> Complete st j.
  Definition Clean (st : dstate) (K : list Z) : Prop := forall j a, assoc (d_types st) j = Some a -> ~ In j K -> sound j /\ forall t, requires j t -> cached st t.

  Lemma requires_ref id r n ids f t : record recs id r -> describes f r n ids -> In t ids -> requires id t.
  Proof.
    intros R D I. left. destruct (describes_plan nm recs r f n ids D) as (p & P & S). exists r, (p_build p (leg0 recs) (map (fun _ => RVoid) ids)), ids. split; [exact R|]. split; [|exact I].
    apply plan_describes; auto; [eapply rok; eassumption|]. intros x _. apply legacy_spec. assumption.
  Qed.
  Lemma requires_tag id t : In t (declTags recs id) -> requires id t.
  Proof. intros H. right. now apply declTags_spec. Qed.

  (** Complete only depends on the node and the addresses of required types *)
  Lemma Complete_change st st' id a : assoc (d_types st) id = Some a -> nth_error (d_heap st') a = nth_error (d_heap st) a ->
    (forall t, cached st t -> requires id t \/ t = id -> cached st' t /\ addr st' t = addr st t) -> id <> 0 -> Complete st id -> Complete st' id.
  Proof.
    intros A N C Z ((r & n & ids & l & np & R & D & T & P & E) & Q). split; [|intros t Ht; apply C; auto].
    exists r, n, ids, l, np. split; [exact R|]. split; [|split; [exact T|split; [exact P|]]].
    - eapply describes_ext; [|exact D]. intros t Ht. assert (requires id t) by (eapply requires_ref; eassumption). symmetry. apply C; auto.
    - assert (Ea : addr st' id = addr st id) by (apply C; [right; eauto|auto]). rewrite Ea. unfold addr in *. destruct (Z.eqb_spec id 0); [contradiction|]. rewrite A in *. cbn [deref] in *. now rewrite N.
  Qed.
  Lemma types_pos st id a : Inv st -> assoc (d_types st) id = Some a -> 1 <= id /\ (a < length (d_heap st))%nat.
  Proof.
    intros I A. destruct (i_types _ I _ _ A) as (n & r & p & N & (R & _) & _). split; [exact R|]. apply nth_error_Some. congruence.
  Qed.
  Lemma Complete_ext st st' id a : Inv st -> Ext st st' -> assoc (d_types st) id = Some a -> Complete st id -> Complete st' id.
  Proof.
    intros I E A C. destruct (types_pos _ _ _ I A). apply (Complete_change st st' id a); auto; [apply Ext_nth; assumption| |lia].
    intros t Ht _. now apply cached_ext.
  Qed.

  (** *** fuel *)
  Definition ids_all : list Z := map Z.of_nat (seq 1 (length recs)).
  Definition unc (types : list (Z * nat)) : nat := length (filter (fun id => match assoc types id with None => true | _ => false end) ids_all).
  Lemma unc_mono t t' : (forall id a, assoc t id = Some a -> assoc t' id = Some a) -> (unc t' <= unc t)%nat.
  Proof. intros H. apply filter_le. intros id. destruct (assoc t' id) eqn:E'; [discriminate|]. destruct (assoc t id) eqn:E; [apply H in E; congruence|auto]. Qed.
  Lemma unc_lt t id a r : record recs id r -> assoc t id = None -> (unc ((id, a) :: t) < unc t)%nat.
  Proof.
    intros (P & R) N. apply filter_lt with (x := id).
    - intros j. cbn [assoc]. destruct (id =? j); [discriminate|auto].
    - unfold ids_all. apply in_map_iff. exists (Z.to_nat id). split; [lia|]. apply in_seq. assert (Z.to_nat (id - 1) < length recs)%nat by (apply nth_error_Some; congruence). lia.
    - cbn [assoc]. now rewrite Z.eqb_refl.
    - now rewrite N.
  Qed.
  Lemma unc_max t : (unc t <= length recs)%nat.
  Proof. unfold unc. etransitivity; [apply filter_length_le|]. unfold ids_all. now rewrite map_length, seq_length. Qed.

  (** *** one call *)
  Record Post (st : dstate) (K : list Z) (id : Z) (st' : dstate) (r : option ref) : Prop := {
    po_inv : Inv st';
    po_ext : Ext st st';
    po_good : GoodC st' K;
    po_total : good id -> r <> None;
    po_val : forall x, r = Some x -> x = addr st' id /\ cached st' id /\ In (x, id) (d_ids st');
    po_clean : Clean st K -> r <> None -> Clean st' K }.
  Definition Stack (K : list Z) (id : Z) : Prop := forall s, In s K -> all_sound s -> needs s id.
  Definition Works (f : nat) : Prop := forall st K id, Inv st -> GoodC st K -> Stack K id -> (unc (d_types st) < f)%nat ->
    exists st' r, inflate nm recs f st id = Some (st', r) /\ Post st K id st' r.

  (** registering a successful result *)
  Lemma success_inv st id x : Inv st -> x = addr st id -> cached st id -> Inv (mkD (d_heap st) (d_types st) ((x, id) :: d_ids st) (d_legacy st)).
  Proof.
    intros I -> C. constructor; cbn [d_heap d_types d_ids d_legacy]; try apply I. intros a i [E|E].
    - assert (E1 : addr st id = RPtr a) by congruence. assert (i = id) by congruence. clear E. subst i. unfold addr in E1. destruct (Z.eqb_spec id 0); [discriminate|]. destruct (assoc (d_types st) id) as [a'|] eqn:A; [|discriminate]. inversion E1; subst a'.
      split; [eapply types_pos; eassumption|]. split; [intros id' A'; eapply i_inj; eassumption|]. intros id' [E'|E'].
      + congruence.
      + symmetry. exact (proj1 (proj2 (i_ids _ I a id' E')) id A).
    - destruct (i_ids _ I a i E) as (L & U & V). split; [exact L|]. split; [exact U|]. intros id' [E'|E']; [|auto]. assert (E1 : addr st id = RPtr a) by congruence. assert (id' = id) by congruence. clear E'. subst id'.
      unfold addr in E1. destruct (Z.eqb_spec id 0); [discriminate|]. destruct (assoc (d_types st) id) as [a'|] eqn:A; [|discriminate]. inversion E1; subst a'. auto.
  Qed.
  Lemma same_goodC st st' K : d_heap st' = d_heap st -> d_types st' = d_types st -> GoodC st K -> GoodC st' K.
  Proof.
    intros H T G j a A N Gj. rewrite T in A. specialize (G j a A N Gj). destruct G as (D & Q).
    assert (Ea : addr st' = addr st) by (unfold addr; now rewrite T). split; [now rewrite H, Ea|]. intros t Ht. specialize (Q t Ht). unfold cached in *. now rewrite T.
  Qed.
  Lemma same_clean st st' K : d_types st' = d_types st -> Clean st K -> Clean st' K.
  Proof. intros T G j a A N. rewrite T in A. destruct (G j a A N) as (D & Q). split; [exact D|]. intros t Ht. specialize (Q t Ht). unfold cached in *. now rewrite T. Qed.
  Lemma same_ext st st' : d_heap st' = d_heap st -> d_types st' = d_types st -> (forall p, In p (d_ids st) -> In p (d_ids st')) -> Ext st st'.
  Proof. intros H T I. constructor; [exists []; now rewrite H, app_nil_r|now rewrite T|exact I]. Qed.

  (** *** the fixups *)
  Lemma steps_ok f : Works f -> forall steps st K, Inv st -> GoodC st K -> (forall t, In (Some t) steps -> Stack K t) -> (unc (d_types st) < f)%nat ->
    exists st' rs, run_steps (inflate nm recs f) st steps = Some (st', rs) /\ Inv st' /\ Ext st st' /\ GoodC st' K /\
      ((forall o, In o steps -> exists t, o = Some t /\ good t) -> rs <> None) /\ (Clean st K -> rs <> None -> Clean st' K) /\
      forall l, rs = Some l -> exists ids, steps = map Some ids /\ l = map (addr st') ids /\ forall t, In t ids -> cached st' t.
  Proof.
    intros W. induction steps as [|[t|] steps IH]; intros st K I G S L; cbn [run_steps].
    - exists st, (Some []). split; [reflexivity|]. split; [exact I|]. split; [apply Ext_refl|]. split; [exact G|]. split; [congruence|]. split; [auto|].
      intros l E. inversion E. exists []. repeat split; try reflexivity. intros t [].
    - destruct (W st K t I G (S t (or_introl eq_refl)) L) as (st1 & r & E & [I1 E1 G1 T1 V1 C1]). rewrite E. destruct r as [x|].
      + assert (L1 : (unc (d_types st1) < f)%nat) by (pose proof (unc_mono _ _ (e_types _ _ E1)); lia).
        destruct (IH st1 K I1 G1) as (st2 & rs & E' & I2 & E2 & G2 & T2 & C2 & V2); [intros u Hu; apply S; now right|exact L1|]. rewrite E'.
        destruct (V1 x eq_refl) as (Vx & Cx & _).
        destruct rs as [l|].
        * exists st2, (Some (x :: l)). split; [reflexivity|]. split; [exact I2|]. split; [eapply Ext_trans; eassumption|]. split; [exact G2|]. split; [congruence|].
          split; [intros C _; apply C2; [apply C1; [exact C|congruence]|congruence]|]. intros l0 El. inversion El; subst l0.
          destruct (V2 l eq_refl) as (ids & -> & -> & Q). exists (t :: ids). split; [reflexivity|]. destruct (cached_ext _ _ _ E2 Cx) as (Cx' & Ax). split; [cbn [map]; now rewrite Ax, Vx|].
          intros u [<-|Hu]; [exact Cx'|auto].
        * exists st2, None. split; [reflexivity|]. split; [exact I2|]. split; [eapply Ext_trans; eassumption|]. split; [exact G2|]. split; [|split; [congruence|congruence]].
          intros H. apply T2. intros o Ho. apply H. now right.
      + exists st1, None. split; [reflexivity|]. split; [exact I1|]. split; [exact E1|]. split; [exact G1|]. split; [|split; [congruence|congruence]].
        intros H. destruct (H (Some t) (or_introl eq_refl)) as (t' & Et & Gt). assert (t' = t) by congruence. subst t'. exfalso. exact (T1 Gt eq_refl).
    - exists st, None. split; [reflexivity|]. split; [exact I|]. split; [apply Ext_refl|]. split; [exact G|]. split; [|split; [congruence|congruence]].
      intros H. destruct (H None (or_introl eq_refl)) as (t & Et & _). discriminate Et.
  Qed.

  (** writing the node of a type in progress *)
  Definition Same (a : nat) (st st' : dstate) : Prop :=
    (length (d_heap st) <= length (d_heap st'))%nat /\ (forall i, i <> a -> (i < length (d_heap st))%nat -> nth_error (d_heap st') i = nth_error (d_heap st) i) /\
    (forall id b, assoc (d_types st) id = Some b -> assoc (d_types st') id = Some b) /\ (forall p, In p (d_ids st) -> In p (d_ids st')).
  Lemma write_inv st id a n r : Inv st -> assoc (d_types st) id = Some a -> record recs id r -> node_kind r n -> Inv (with_heap st (set_nth (d_heap st) a n)).
  Proof.
    intros I A R Nk. destruct (types_pos _ _ _ I A) as (_ & La). constructor; unfold with_heap; cbn [d_heap d_types d_ids d_legacy]; try apply I.
    - intros j b B. destruct (i_types _ I _ _ B) as (n0 & r0 & p0 & N0 & R0 & P0 & K0). destruct (Nat.eq_dec a b) as [->|Ne].
      + assert (j = id) by (eapply i_inj; eassumption). subst j. pose proof (record_fun _ _ _ _ R R0). subst r0. exists n, r, p0. rewrite nth_set_same by exact La. auto.
      + exists n0, r0, p0. rewrite nth_set_other by exact Ne. auto.
    - intros b j J. rewrite set_nth_length. now apply (i_ids _ I).
  Qed.
  Lemma write_goodC st id a n K : Inv st -> assoc (d_types st) id = Some a -> GoodC st (id :: K) -> GoodC (with_heap st (set_nth (d_heap st) a n)) (id :: K).
  Proof.
    intros I A G j b B N Gj. unfold with_heap in B. cbn [d_types] in B. assert (b <> a) by (intros ->; apply N; left; symmetry; eapply i_inj; eassumption).
    destruct (types_pos _ _ _ I B). apply (Complete_change st _ j b); [exact B|cbn; apply nth_set_other; auto| |lia|eapply G; eassumption].
    intros t Ht _. split; [exact Ht|reflexivity].
  Qed.
  Lemma write_clean st h K : Clean st K -> Clean (with_heap st h) K.
  Proof. apply same_clean. reflexivity. Qed.
  Lemma Same_write st a n st' : Same a (with_heap st (set_nth (d_heap st) a n)) st' -> Same a st st'.
  Proof.
    unfold Same, with_heap. cbn [d_heap d_types d_ids]. rewrite set_nth_length. intros (L & N & T & I). split; [exact L|]. split; [|split; assumption].
    intros i Hi Li. rewrite N by assumption. apply nth_set_other. auto.
  Qed.
  Lemma Same_ext st st1 st2 a : Ext st st1 -> Same a st1 st2 -> Same a st st2.
  Proof.
    intros E (L & N & T & I). destruct (e_heap _ _ E) as (e & He). assert (Le : (length (d_heap st) <= length (d_heap st1))%nat) by (rewrite He, app_length; lia).
    split; [lia|]. split; [|split].
    - intros i Hi Li. rewrite N by (auto; lia). now apply Ext_nth.
    - intros j b B. apply T. now apply (e_types _ _ E).
    - intros p Hp. apply I. now apply (e_ids _ _ E).
  Qed.

  (** *** the decl tags *)
  Lemma proto_node st t ret ps : Inv st -> deref (d_heap st) (addr st t) = Some (NFuncProto ret ps) -> exists r, record recs t r /\ kind r = 13 /\ Z.of_nat (length ps) <= vlen r.
  Proof.
    intros I D. unfold addr in D. destruct (Z.eqb_spec t 0); [discriminate D|]. destruct (assoc (d_types st) t) as [b|] eqn:A; [|discriminate D].
    destruct (i_types _ I _ _ A) as (n' & r & p & N & R & _ & Kd). cbn in D. rewrite N in D. inversion D; subst n'. exists r. destruct Kd as [[] _]. auto.
  Qed.
  Lemma proto_params_fun t np np' : proto_params recs t np -> proto_params recs t np' -> np = np'.
  Proof.
    intros [(r & R & K & ->)|(H & ->)] [(r' & R' & K' & ->)|(H' & ->)]; try reflexivity.
    - now rewrite (record_fun _ _ _ _ R R').
    - destruct (H' _ R K).
    - destruct (H _ R' K').
  Qed.
  Lemma proto_params_ex t : exists np, proto_params recs t np.
  Proof.
    destruct (rec_at recs t) as [r|] eqn:E.
    - apply rec_at_record in E. destruct (Z.eq_dec (kind r) 13) as [K|K]; [exists (Some (Z.to_nat (vlen r))); left; eauto|].
      exists None. right. split; [|reflexivity]. intros r' R'. now rewrite <- (record_fun _ _ _ _ E R').
    - exists None. right. split; [|reflexivity]. intros r' R'. apply rec_at_record in R'. congruence.
  Qed.
  Lemma tag_node st t r : Inv st -> cached st t -> record recs t r -> kind r = 17 -> exists x v, deref (d_heap st) (addr st t) = Some (NDeclTag x (fst v) (snd v)) /\ tag_value nm recs t v.
  Proof.
    intros I C R K. unfold addr. destruct (Z.eqb_spec t 0) as [->|]; [destruct R; lia|]. destruct C as [->|(b & A)]; [lia|]. rewrite A. cbn.
    destruct (i_types _ I _ _ A) as (n' & r' & p & N & R' & _ & Kd). pose proof (record_fun _ _ _ _ R R'). subst r'. rewrite N. 
    destruct Kd as [Kd _]. destruct n'; cbn [node_form] in Kd; try (destruct Kd; lia). destruct Kd as (_ & Nm & i0 & A0 & Ei).
    exists t0, (value, index). split; [reflexivity|]. exists r, i0. auto.
  Qed.

  Definition func_target (n : node) (st : dstate) (t : Z) : Prop := match n with NFunc _ x _ _ _ => x = addr st t /\ cached st t | _ => True end.
  Lemma same_shape_kind r n n' : same_shape n n' -> node_kind r n -> node_kind r n'.
  Proof. unfold node_kind. intros H (F & N). destruct n, n'; cbn in H; try contradiction; (split; [exact F|]); cbn [type_name type_kind] in *; intuition congruence. Qed.
  Lemma same_shape_target n n' st t : same_shape n n' -> func_target n st t -> func_target n' st t.
  Proof. destruct n, n'; cbn; try contradiction; auto. intros (<- & _). auto. Qed.
  Lemma func_target_mono n st st' t : (cached st t -> cached st' t /\ addr st' t = addr st t) -> func_target n st t -> func_target n st' t.
  Proof. destruct n; cbn; auto. intros H (E & C). destruct (H C) as (C' & E'). split; [congruence|exact C']. Qed.
  Lemma func_target_ext n st st' t : Ext st st' -> func_target n st t -> func_target n st' t.
  Proof. intros E. apply func_target_mono. apply cached_ext. exact E. Qed.

  Lemma tags_ok f : Works f -> forall ts st K id a r n n0 pre np, Inv st -> GoodC st (id :: K) -> (forall t, In t ts -> Stack (id :: K) t) -> (unc (d_types st) < f)%nat ->
    assoc (d_types st) id = Some a -> record recs id r -> nth_error (d_heap st) a = Some n -> func_target n st (size_or_type r) -> proto_params recs (size_or_type r) np ->
    (n = n0 \/ same_shape n0 n) -> (forall t, In t ts -> In t (declTags recs id)) ->
    (good id -> n = attach (match np with Some k => k | None => 0%nat end) pre n0) ->
    (good id -> ts <> [] -> match n0 with NFunc _ _ _ _ _ => forall st', Inv st' -> GoodC st' (id :: K) -> cached st' (size_or_type r) ->
        exists ret ps, deref (d_heap st') (addr st' (size_or_type r)) = Some (NFuncProto ret ps) /\ np = Some (length ps) | _ => True end) ->
    exists st' b, run_tags (inflate nm recs f) st a ts = Some (st', b) /\ Inv st' /\ Same a st st' /\ GoodC st' (id :: K) /\
      (Clean st (id :: K) -> b = true -> Clean st' (id :: K)) /\
      (b = true -> forall t, In t ts -> cached st' t) /\
      (b = true -> exists l, Forall2 (tag_value nm recs) ts l /\ Forall (fun vi => taggable np n0 (snd vi)) l /\
         (good id -> nth_error (d_heap st') a = Some (attach (match np with Some k => k | None => 0%nat end) (pre ++ l) n0))) /\
      (good id -> (forall t v, In t ts -> tag_value nm recs t v -> taggable np n0 (snd v)) -> b = true).
  Proof.
    intros W. induction ts as [|t ts IH]; intros st K id a r n n0 pre np I G S L A R Na Ft Pp Sh Ts At HF; cbn [run_tags].
    - exists st, true. split; [reflexivity|]. split; [exact I|]. split; [split; [lia|auto]|]. split; [exact G|]. split; [auto|]. split; [intros _ t []|].
      split; [|auto]. intros _. exists []. split; [constructor|]. split; [constructor|]. intros Gd. rewrite app_nil_r, Na. f_equal. auto.
    - destruct (W st (id :: K) t I G (S t (or_introl eq_refl)) L) as (st1 & x & E & [I1 E1 G1 T1 V1 C1]). rewrite E.
      assert (Gt : good id -> good t) by (intros Gd; eapply good_needs; [exact Gd|apply needs_one, requires_tag, Ts; now left]).
      destruct x as [x|].
      2:{ exists st1, false. split; [reflexivity|]. split; [exact I1|]. split; [eapply Same_ext; [exact E1|]; split; [lia|auto]|]. split; [exact G1|].
          split; [congruence|]. split; [congruence|]. split; [congruence|]. intros Gd _. exfalso. apply T1; [auto|reflexivity]. }
      destruct (V1 x eq_refl) as (-> & Ct & _).
      assert (Tt : tags_type recs id t) by (apply declTags_spec, Ts; now left). destruct Tt as (rt & Rt & Kt & _).
      destruct (tag_node st1 t rt I1 Ct Rt Kt) as (y & [v i] & Dn & Tv). cbn [fst snd] in Dn. rewrite Dn.
      pose proof (e_types _ _ E1 _ _ A) as A1. destruct (types_pos _ _ _ I A) as (Pid & La).
      rewrite (Ext_nth _ _ _ E1 La), Na.
      assert (X : good id -> taggable np n0 i -> apply_tag (d_heap st1) n v i = Some (attach (match np with Some k => k | None => 0%nat end) (pre ++ [(v, i)]) n0)).
      { intros Gd Tg. specialize (At Gd). specialize (HF Gd ltac:(discriminate)). subst n. apply apply_attach; [exact Tg|]. destruct n0; auto.
        cbn [attach func_target] in Ft. destruct Ft as (-> & Cf). destruct (cached_ext _ _ _ E1 Cf) as (Cf1 & Ef). rewrite <- Ef. now apply HF. }
      destruct (apply_tag (d_heap st1) n v i) as [n'|] eqn:Ap.
      + destruct (apply_taggable _ _ _ _ _ Ap) as (Shn & Tg).
        assert (Tg' : taggable np n i).
        { apply Tg. destruct n; auto. destruct Ft as (-> & Cf). intros ret ps Dp. destruct (cached_ext _ _ _ E1 Cf) as (Cf1 & Ef). rewrite <- Ef in Dp.
          destruct (proto_node _ _ _ _ I1 Dp) as (rp & Rp & Kp & Lp). assert (np = Some (Z.to_nat (vlen rp))) by (eapply proto_params_fun; [exact Pp|left; eauto]). subst np. eexists. split; [reflexivity|lia]. }
        assert (Sh' : same_shape n0 n') by (destruct Sh as [->|Sh]; [exact Shn|eapply same_shape_trans; eassumption]).
        assert (Tg0 : taggable np n0 i) by (destruct Sh as [->|Sh]; [exact Tg'|exact (same_shape_taggable _ _ _ _ Sh Tg')]).
        set (st2 := with_heap st1 (set_nth (d_heap st1) a n')).
        assert (Nk : node_kind r n').
        { destruct (i_types _ I _ _ A) as (n1 & r1 & p1 & N1 & R1 & _ & K1). rewrite Na in N1. inversion N1; subst n1. rewrite (record_fun _ _ _ _ R R1). exact (same_shape_kind _ _ _ Shn K1). }
        assert (I2 : Inv st2) by (eapply write_inv; eassumption).
        assert (G2 : GoodC st2 (id :: K)) by (eapply write_goodC; eassumption).
        assert (La1 : (a < length (d_heap st1))%nat) by (eapply types_pos; eassumption).
        destruct (IH st2 K id a r n' n0 (pre ++ [(v, i)]) np) as (st3 & b & E3 & I3 & S3 & G3 & C3 & D3 & L3 & B3); auto.
        * intros u Hu. apply S. now right.
        * change (d_types st2) with (d_types st1). pose proof (unc_mono _ _ (e_types _ _ E1)). lia.
        * cbn. now apply nth_set_same.
        * eapply same_shape_target; [exact Shn|]. apply (func_target_mono n st1); [|eapply func_target_ext; eassumption]. intros C. split; [exact C|reflexivity].
        * intros u Hu. apply Ts. now right.
        * intros Gd. specialize (X Gd Tg0). congruence.
        * intros Gd _. apply HF; [exact Gd|discriminate].
        * rewrite E3. exists st3, b. split; [reflexivity|]. split; [exact I3|].
          assert (S13 : Same a st1 st3) by (eapply Same_write; exact S3).
          split; [eapply Same_ext; eassumption|]. split; [exact G3|]. split; [|split; [|split]].
          -- intros C Hb. apply C3; [|exact Hb]. apply write_clean, C1; [exact C|congruence].
          -- intros Hb u [<-|Hu]; [|auto]. destruct Ct as [->|(c & Cc)]; [now left|]. right. exists c. now apply S13.
          -- intros Hb. destruct (L3 Hb) as (l & F1 & F2 & F3). exists ((v, i) :: l). split; [constructor; assumption|]. split; [constructor; assumption|].
             intros Gd. rewrite (F3 Gd), <- app_assoc. reflexivity.
          -- intros Gd H. apply B3; [exact Gd|]. intros u w Hu. apply H. now right.
      + exists st1, false. split; [reflexivity|]. split; [exact I1|]. split; [eapply Same_ext; [exact E1|]; split; [lia|auto]|]. split; [exact G1|].
        split; [congruence|]. split; [congruence|]. split; [congruence|]. intros Gd H. specialize (X Gd (H t (v, i) (or_introl eq_refl) Tv)). discriminate X.
  Qed.

  Lemma prefix_ext {A} (h : list A) : forall h', (length h <= length h')%nat -> (forall i, (i < length h)%nat -> nth_error h' i = nth_error h i) -> exists e, h' = h ++ e.
  Proof.
    induction h as [|x h IH]; intros h' L H; [exists h'; reflexivity|]. destruct h' as [|y h']; [cbn in L; lia|].
    pose proof (H 0%nat ltac:(cbn; lia)) as E. cbn in E. destruct (IH h') as (e & ->); [cbn in L; lia| |].
    - intros i Hi. apply (H (Datatypes.S i)). cbn. lia.
    - exists e. cbn. congruence.
  Qed.
  Lemma describes_void id r f n ids : record recs id r -> describes f r n ids -> exists n', describes (fun _ => RVoid) r n' ids.
  Proof.
    intros R D. destruct (describes_plan nm recs r f n ids D) as (p & P & S). exists (p_build p (leg0 recs) (map (fun _ => RVoid) ids)).
    apply plan_describes; auto; [eapply rok; eassumption|]. intros x _. apply legacy_spec. assumption.
  Qed.
  Lemma sound_intro id r f n ids l np : record recs id r -> describes f r n ids -> tag_list nm recs id l -> proto_params recs (size_or_type r) np ->
    Forall (fun vi => taggable np n (snd vi)) l -> sound id.
  Proof.
    intros R D T P F. right. destruct (describes_void id r f n ids R D) as (n' & D'). exists r, n', ids, l, np. split; [exact R|]. split; [exact D'|]. split; [exact T|]. split; [exact P|].
    eapply Forall_impl; [|exact F]. intros v. eapply describes_taggable; eassumption.
  Qed.
  Lemma sound_plan id r : id <> 0 -> record recs id r -> sound id -> exists p ids, plan_of nm r = Some p /\ p_steps p = map Some ids /\ forall t, In t ids -> requires id t.
  Proof.
    intros Z R [->|(r' & n & ids & l & np & R' & D & _)]; [congruence|]. rewrite (record_fun _ _ _ _ R R') in *. destruct (describes_plan _ _ _ _ _ _ D) as (p & P & S).
    exists p, ids. split; [exact P|]. split; [exact S|]. intros t Ht. eapply requires_ref; eassumption.
  Qed.

  (** an error undoes the registration *)
  Lemma failed_post st K id st' r : Inv st -> assoc (d_types st) id = None -> Inv st' -> (exists e, d_heap st' = d_heap st ++ e) ->
    (forall j a, assoc (d_types st) j = Some a -> assoc (d_types st') j = Some a) -> (forall q, In q (d_ids st) -> In q (d_ids st')) -> GoodC st' (id :: K) -> ~ good id -> r = None ->
    Post st K id (mkD (d_heap st') (remove (d_types st') id) (d_ids st') (d_legacy st')) r.
  Proof.
    intros I N I' H T Id G B ->. set (st'' := mkD _ _ _ _).
    assert (As : forall j, assoc (d_types st'') j = if j =? id then None else assoc (d_types st') j) by (intros j; apply assoc_remove).
    assert (Am : forall j a, assoc (d_types st'') j = Some a -> assoc (d_types st') j = Some a) by (intros j a; rewrite As; destruct (j =? id); congruence).
    constructor; try congruence; try contradiction.
    - constructor.
      + intros j a Ha. exact (i_types _ I' _ _ (Am _ _ Ha)).
      + intros j j' a Ha Hb. exact (i_inj _ I' _ _ _ (Am _ _ Ha) (Am _ _ Hb)).
      + apply (i_leg1 _ I').
      + intros t a Ha. exact (i_leg2 _ I' _ _ (Am _ _ Ha)).
      + intros a j J. destruct (i_ids _ I' a j J) as (X & Y & Z). split; [exact X|]. split; [|exact Z]. intros j' Hj'. apply Y, Am, Hj'.
    - constructor; [exact H| |exact Id]. intros j a Ha. rewrite As. destruct (Z.eqb_spec j id) as [->|]; [congruence|]. now apply T.
    - intros j a Ha Nj Gj. pose proof (Am _ _ Ha) as Ha'. rewrite As in Ha. destruct (Z.eqb_spec j id) as [|Nid]; [discriminate|].
      apply (Complete_change st' st'' j a); auto; [|destruct (types_pos _ _ _ I' Ha'); lia|apply (G j a); auto; intros [|]; congruence].
      intros t Ct Rt. assert (t <> id).
      { intros ->. destruct Rt as [Rt|]; [|congruence]. apply B. eapply good_needs; [exact Gj|]. now apply needs_one. }
      unfold cached, addr. rewrite As. destruct (Z.eqb_spec t id); [contradiction|]. split; [exact Ct|reflexivity].
  Qed.

  Lemma works : forall f, Works f.
  Proof.
    induction f as [|f W]; intros st K id I G S L; [lia|]. cbn [inflate].
    assert (Succ : forall x, x = addr st id -> cached st id -> Post st K id (mkD (d_heap st) (d_types st) ((x, id) :: d_ids st) (d_legacy st)) (Some x)).
    { intros x Ex Cx. constructor.
      - now apply success_inv.
      - apply same_ext; auto. intros p Hp. now right.
      - now apply (same_goodC st).
      - congruence.
      - intros y Ey. assert (y = x) by congruence. subst y. split; [exact Ex|]. split; [exact Cx|now left].
      - intros C _. now apply (same_clean st). }
    destruct (Z.eqb_spec id 0) as [Z0|Z0]; [eexists _, _; split; [reflexivity|]; apply Succ; subst id; [reflexivity|now left]|].
    destruct (assoc (d_types st) id) as [a|] eqn:A.
    { eexists _, _; split; [reflexivity|]; apply Succ; [|right; eauto]. unfold addr. rewrite A. destruct (Z.eqb_spec id 0); congruence. }
    assert (Fail0 : ~ good id -> Post st K id (mkD (d_heap st) (remove (d_types st) id) (d_ids st) (d_legacy st)) None).
    { intros B. apply (failed_post st K id st); auto; [exists []; now rewrite app_nil_r|]. intros j a Ha Nj Gj. apply (G j a); auto. intros Hj. apply Nj. now right. }
    destruct (rec_at recs id) as [r|] eqn:R.
    2:{ eexists _, _; split; [reflexivity|]. apply Fail0. intros (B & _). destruct (B id (needs_refl _ _ _)) as [|(r & n & ids & l & np & R' & _)]; [contradiction|].
        apply rec_at_record in R'. congruence. }
    apply rec_at_record in R. destruct (plan_of nm r) as [p|] eqn:P.
    2:{ eexists _, _; split; [reflexivity|]. apply Fail0. intros (B & _). destruct (sound_plan id r Z0 R (B id (needs_refl _ _ _))) as (p & ids & P' & _). congruence. }
    set (a := length (d_heap st)). set (st1 := mkD (d_heap st ++ [p_init p]) ((id, a) :: d_types st) (d_ids st) _).
    pose proof (rok r id R) as Rok. destruct (plan_kind r p Rok P) as (Ki & Kb).
    assert (T1 : forall j b, assoc (d_types st) j = Some b -> assoc (d_types st1) j = Some b).
    { intros j b Hb. cbn. destruct (Z.eqb_spec id j); [congruence|exact Hb]. }
    assert (E1 : Ext st st1) by (constructor; [now exists [p_init p]|exact T1|auto]).
    assert (A1 : assoc (d_types st1) id = Some a) by (cbn; now rewrite Z.eqb_refl).
    assert (T1' : forall j b, assoc (d_types st1) j = Some b -> j = id /\ b = a \/ j <> id /\ assoc (d_types st) j = Some b).
    { intros j b. cbn. destruct (Z.eqb_spec id j) as [<-|]; intros Hb; [left; split; congruence|right; auto]. }
    assert (Lr : leg0 recs id = legacy_of r) by (unfold leg0; apply rec_at_record in R; now rewrite R).
    assert (I1 : Inv st1).
    { constructor.
      - intros j b Hb. destruct (T1' _ _ Hb) as [(-> & ->)|(_ & Hb')].
        + exists (p_init p), r, p. split; [|auto]. cbn. unfold a. rewrite nth_error_app2 by lia. now rewrite Nat.sub_diag.
        + destruct (i_types _ I _ _ Hb') as (n & r' & p' & N & X). exists n, r', p'. split; [|exact X]. cbn. rewrite nth_error_app1; [exact N|]. apply nth_error_Some. congruence.
      - intros j j' b Hb Hb'. destruct (T1' _ _ Hb) as [(-> & ->)|(Nj & Hb1)], (T1' _ _ Hb') as [(-> & Eb)|(Nj' & Hb1')].
        + reflexivity.
        + destruct (types_pos _ _ _ I Hb1'). unfold a in *. lia.
        + subst b. destruct (types_pos _ _ _ I Hb1). unfold a in *. lia.
        + eapply i_inj; eassumption.
      - intros t v Ht. cbn in Ht. destruct (legacy_of r) as [l|] eqn:Lg; [|now apply (i_leg1 _ I)]. cbn [assoc] in Ht. destruct (Z.eqb_spec id t) as [<-|]; [congruence|now apply (i_leg1 _ I)].
      - intros t b Hb. cbn [d_legacy st1]. destruct (T1' _ _ Hb) as [(-> & ->)|(Nt & Hb1)].
        + destruct (legacy_of r) as [l|] eqn:Lg; [cbn [assoc]; rewrite Z.eqb_refl; congruence|]. destruct (assoc (d_legacy st) id) as [v|] eqn:V; [apply (i_leg1 _ I) in V; congruence|congruence].
        + destruct (legacy_of r) as [l|]; [cbn [assoc]; destruct (Z.eqb_spec id t); [congruence|]|]; eapply i_leg2; eassumption.
      - intros b j J. destruct (i_ids _ I b j J) as (X & Y & Z). split; [cbn; rewrite app_length; cbn; lia|]. split; [|exact Z]. intros j' Hj'.
        destruct (T1' _ _ Hj') as [(-> & ->)|(_ & H)]; [unfold a in X; lia|auto]. }
    assert (G1 : GoodC st1 (id :: K)).
    { intros j b Hb Nj Gj. destruct (T1' _ _ Hb) as [(-> & _)|(_ & Hb1)]; [destruct Nj; now left|]. apply (Complete_ext st st1 j b); auto. apply (G j b); auto. intros Hj. apply Nj. now right. }
    assert (Sk : forall s, In s (id :: K) -> all_sound s -> needs s id) by (intros s [<-|Hs] Hsd; [constructor|now apply S]).
    assert (Sst : forall t, In (Some t) (p_steps p) -> Stack (id :: K) t).
    { intros t Ht s Hs Hsd. pose proof (Sk s Hs Hsd) as Ns. destruct (sound_plan id r Z0 R (Hsd id Ns)) as (p' & ids & P' & Ep & Rq). assert (p' = p) by congruence. subst p'.
      rewrite Ep in Ht. apply in_map_iff in Ht. destruct Ht as (t' & Et & Ht). assert (t' = t) by congruence. subst t'. eapply needs_trans; [exact Ns|]. now apply needs_one, Rq. }
    assert (L1 : (unc (d_types st1) < f)%nat) by (pose proof (unc_lt (d_types st) id a r R A); cbn [d_types st1]; lia).
    destruct (steps_ok f W (p_steps p) st1 (id :: K) I1 G1 Sst L1) as (st2 & rs & Es & I2 & E2 & G2 & Tot2 & C2 & V2). rewrite Es.
    assert (E02 : Ext st st2) by (eapply Ext_trans; eassumption).
    destruct rs as [l|].
    2:{ eexists _, _; split; [reflexivity|]. apply failed_post; auto; try apply E02. intros Gd. apply Tot2; [|reflexivity]. intros o Ho.
        destruct (sound_plan id r Z0 R (proj1 Gd id (needs_refl _ _ _))) as (p' & ids & P' & Ep & Rq). assert (p' = p) by congruence. subst p'.
        rewrite Ep in Ho. apply in_map_iff in Ho. destruct Ho as (t & <- & Ht). exists t. split; [reflexivity|]. eapply good_needs; [exact Gd|]. now apply needs_one, Rq. }
    destruct (V2 l eq_refl) as (ids & Ei & El & Ci). clear V2.
    set (n0 := p_build p (assoc (d_legacy st2)) l).
    assert (D2 : describes (addr st2) r n0 ids).
    { unfold n0. rewrite El. apply plan_describes; auto. intros t Ht. replace (assoc (d_legacy st2) t) with (leg0 recs t); [apply legacy_spec; exact Hok|].
      destruct (Ci t Ht) as [->|(b & Hb)]; [|symmetry; eapply i_leg2; eassumption]. unfold leg0, rec_at. cbn. destruct (assoc (d_legacy st2) 0) as [v|] eqn:V; [|reflexivity]. apply (i_leg1 _ I2) in V. discriminate V. }
    pose proof (e_types _ _ E2 _ _ A1) as A2.
    set (st3 := with_heap st2 (set_nth (d_heap st2) a n0)).
    assert (I3 : Inv st3) by (apply (write_inv st2 id a n0 r); auto; apply Kb).
    assert (G3 : GoodC st3 (id :: K)) by (now apply write_goodC).
    destruct (proto_params_ex (size_or_type r)) as (np & Np).
    assert (La2 : (a < length (d_heap st2))%nat) by (eapply types_pos; eassumption).
    assert (Ts : forall t, In t (declTags recs id) -> Stack (id :: K) t).
    { intros t Ht s Hs Hsd. eapply needs_trans; [exact (Sk s Hs Hsd)|]. now apply needs_one, requires_tag. }
    assert (Ft : func_target n0 st3 (size_or_type r)).
    { assert (X : func_target n0 st2 (size_or_type r)); [|exact X]. inversion D2; cbn [func_target]; auto. subst. split; [reflexivity|]. apply Ci. now left. }
    assert (HF : good id -> declTags recs id <> [] -> match n0 with NFunc _ _ _ _ _ => forall st', Inv st' -> GoodC st' (id :: K) -> cached st' (size_or_type r) ->
        exists ret ps, deref (d_heap st') (addr st' (size_or_type r)) = Some (NFuncProto ret ps) /\ np = Some (length ps) | _ => True end).
    { intros Gd Nts. destruct n0 eqn:En; auto. intros st' I' G' C'.
      assert (K12 : kind r = 12) by (inversion D2; assumption).
      assert (Rq : requires id (size_or_type r)) by (eapply requires_ref; [exact R|exact D2|]; inversion D2; subst; now left).
      destruct (declTags recs id) as [|t1 ts1] eqn:Ed; [congruence|]. assert (Tt : tags_type recs id t1) by (apply declTags_spec; rewrite Ed; now left).
      destruct (proj1 Gd id (needs_refl _ _ _)) as [|(r' & n' & ids' & l' & np' & R' & D' & T' & P' & F')]; [contradiction|]. pose proof (record_fun _ _ _ _ R R'). subst r'.
      pose proof (proto_params_fun _ _ _ Np P'). subst np'. apply tag_list_spec in T'. rewrite Ed in T'. inversion T' as [|? v1 ? l1 Tv Tl]; subst. inversion F' as [|? ? Tg _]; subst.
      pose proof (describes_taggable _ _ _ _ _ _ _ _ _ _ _ D' D2 Tg) as Tg'. cbn [taggable] in Tg'. destruct Np as [(rp & Rp & Kp & ->)|(_ & ->)]; [|contradiction].
      assert (Gp : good (size_or_type r)) by (eapply good_needs; [exact Gd|now apply needs_one]).
      assert (NK : ~ In (size_or_type r) (id :: K)).
      { intros [Eid|Hk]; [rewrite <- Eid in Rp; pose proof (record_fun _ _ _ _ R Rp); subst; lia|]. apply (proj2 Gd id r t1 (needs_refl _ _ _) R K12 Tt). apply S; [exact Hk|apply Gp]. }
      destruct C' as [E0|(b & Hb)]; [rewrite E0 in Rp; destruct Rp; lia|].
      destruct (G' _ _ Hb NK Gp) as ((rq & nq & idq & lq & npq & Rq' & Dq & _ & _ & Eq) & _). pose proof (record_fun _ _ _ _ Rp Rq'). subst rq.
      inversion Dq; try congruence. subst. cbn [attach] in Eq. eexists _, _. split; [exact Eq|]. f_equal.
      match goal with F : Forall2 _ ?ws ps, E : Z.of_nat (length ?ws) = _ |- _ => pose proof (Forall2_len _ _ _ F); lia end. }
    destruct (tags_ok f W (declTags recs id) st3 K id a r n0 n0 [] np) as (st4 & b & E4 & I4 & S4 & G4 & C4 & Q4 & L4 & B4); auto.
    { change (d_types st3) with (d_types st2). pose proof (unc_mono _ _ (e_types _ _ E2)). lia. }
    { cbn. now apply nth_set_same. }
    { intros _. symmetry. apply attach_nil. eapply describes_untagged; exact D2. }
    rewrite E4.
    assert (S24 : Same a st2 st4) by (eapply Same_write; exact S4).
    assert (S04 : Same a st st4) by (eapply Same_ext; eassumption). destruct S04 as (Le & Nt & Ty & Is).
    assert (He : exists e, d_heap st4 = d_heap st ++ e) by (apply prefix_ext; [exact Le|]; intros i Hi; apply Nt; [unfold a; lia|exact Hi]).
    destruct b.
    2:{ eexists _, _; split; [reflexivity|]. apply failed_post; auto. intros Gd. assert (X : false = true); [|discriminate X]. apply B4; [exact Gd|].
        intros t v Ht Tv. destruct (proj1 Gd id (needs_refl _ _ _)) as [|(r' & n' & ids' & l' & np' & R' & D' & T' & P' & F')]; [contradiction|]. pose proof (record_fun _ _ _ _ R R'). subst r'.
        pose proof (proto_params_fun _ _ _ Np P'). subst np'. apply tag_list_spec in T'. eapply describes_taggable; [exact D'|exact D2|].
        revert Ht F'. clear -T' Tv. induction T' as [|t0 v0 ts l Tv0 F IH]; [intros []|]. intros [->|Ht] F'; inversion F'; subst; auto. now rewrite (tag_value_fun _ _ _ _ _ Tv Tv0). }
    destruct (L4 eq_refl) as (lt & F1 & F2 & F3). specialize (C4). specialize (Q4 eq_refl). clear L4 B4. cbn [app] in F3.
    assert (A4 : assoc (d_types st4) id = Some a) by (apply S24; exact A2).
    assert (Aid : addr st4 id = RPtr a) by (unfold addr; rewrite A4; destruct (Z.eqb_spec id 0); congruence).
    assert (C24 : forall t, cached st2 t -> cached st4 t /\ addr st4 t = addr st2 t).
    { intros t [->|(b & Hb)]; [split; [now left|reflexivity]|]. assert (Hb4 : assoc (d_types st4) t = Some b) by (apply S24; exact Hb). split; [right; eauto|]. unfold addr. now rewrite Hb, Hb4. }
    assert (D4 : describes (addr st4) r n0 ids) by (eapply describes_ext; [|exact D2]; intros t Ht; symmetry; apply C24; auto).
    assert (Rq4 : forall t, requires id t -> cached st4 t).
    { intros t [(r' & n' & ids' & R' & D' & Hin)|Ht]; [|apply Q4, declTags_spec, Ht]. pose proof (record_fun _ _ _ _ R R'). subst r'. rewrite (describes_ids _ _ _ _ _ _ _ _ _ D' D2) in Hin. apply C24. auto. }
    set (st5 := mkD (d_heap st4) (d_types st4) ((RPtr a, id) :: d_ids st4) (d_legacy st4)).
    eexists _, _; split; [reflexivity|]. constructor.
    - apply success_inv; auto. right; eauto.
    - constructor; [exact He|exact Ty|]. intros q Hq. right. auto.
    - intros j b Hb Nj Gj. cbn in Hb. change (Complete st5 j). assert (X : Complete st4 j); [|exact X]. destruct (Z.eq_dec j id) as [->|Nid]; [|apply (G4 j b); auto; intros [|]; congruence].
      split; [|exact Rq4]. exists r, n0, ids, lt, np. split; [exact R|]. split; [exact D4|]. split; [now apply tag_list_spec|]. split; [exact Np|]. rewrite Aid. cbn. auto.
    - congruence.
    - intros x Ex. assert (x = RPtr a) by congruence. subst x. split; [symmetry; exact Aid|]. split; [right; eauto|now left].
    - intros C _. assert (C1 : Clean st1 (id :: K)).
      { intros j b Hb Nj. destruct (T1' _ _ Hb) as [(-> & _)|(_ & Hb1)]; [destruct Nj; now left|]. destruct (C j b Hb1) as (X & Y); [intros Hj; apply Nj; now right|]. split; [exact X|].
        intros t Ht. eapply cached_ext; [exact E1|auto]. }
      specialize (C4 (write_clean _ _ _ (C2 C1 ltac:(congruence))) eq_refl). intros j b Hb Nj. cbn in Hb. destruct (Z.eq_dec j id) as [->|Nid]; [|apply (C4 j b); auto; intros [|]; congruence].
      split; [|exact Rq4]. eapply sound_intro; [exact R|exact D4|apply tag_list_spec; exact F1|exact Np|exact F2].
  Qed.
End Decode.
