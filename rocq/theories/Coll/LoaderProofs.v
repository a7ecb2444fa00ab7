(** The loader: proofs (properties C66-C69). *)
From Coq Require Import ZArith List Lia Bool Permutation Arith.
From Verif.Base Require Import GoInt.
From Verif.Coll Require Import Loader LoaderSpec.
Import ListNotations.
Local Open Scope nat_scope.

Lemma get_In : forall A (l : list (name * A)) n a, get l n = Some a -> In (n, a) l.
Proof. induction l as [|[m b] l IH]; cbn; intros n a H; [discriminate|]. destruct (Nat.eqb_spec n m); [injection H as ->; subst; now left|right; auto]. Qed.
Lemma get_none : forall A (l : list (name * A)) n, get l n = None <-> ~ In n (map fst l).
Proof. induction l as [|[m b] l IH]; cbn; intros n; [split; auto|]. destruct (Nat.eqb_spec n m); [split; [discriminate|intros H; exfalso; apply H; now left]|]. rewrite IH. split; [intros H [E|H']; congruence||auto|intros H H'; apply H; now right]. Qed.
Lemma get_NoDup : forall A (l : list (name * A)) n a, NoDup (map fst l) -> In (n, a) l -> get l n = Some a.
Proof.
  induction l as [|[m b] l IH]; cbn; intros n a ND H; [contradiction|]. inversion ND; subst.
  destruct H as [H|H]; [injection H as -> ->; now rewrite Nat.eqb_refl|]. destruct (Nat.eqb_spec n m); [subst; exfalso; apply H2; exact (List.in_map fst _ _ H)|auto].
Qed.

Lemma NoDup_left : forall A (a b : list A), NoDup (a ++ b) -> NoDup a.
Proof. induction a; intros b H; constructor; inversion H; subst; eauto. intros Hin; apply H2, in_or_app; auto. Qed.

Lemma snd_inj : forall (l : list (name * obj)) n m o, NoDup (map snd l) -> In (n, o) l -> In (m, o) l -> m = n.
Proof.
  induction l as [|[a b] l IH]; cbn; intros n m o ND H H1; [contradiction|]. inversion ND; subst. destruct H as [H|H], H1 as [H1|H1].
  - congruence.
  - injection H as -> ->. exfalso. apply H3. now apply (List.in_map snd) in H1.
  - injection H1 as -> ->. exfalso. apply H3. now apply (List.in_map snd) in H.
  - eauto.
Qed.

Lemma In_del : forall A (l : list (name * A)) n e, In e (del l n) <-> In e l /\ fst e <> n.
Proof.
  induction l as [|[m a] l IH]; intros n e; cbn; [tauto|]. destruct (Nat.eqb_spec n m).
  - rewrite IH. subst. split; [tauto|]. intros [[<-|H] H1]; [now cbn in H1|auto].
  - cbn. rewrite IH. split; [intros [<-|[H H1]]; cbn; auto|]. intros [[H|H] H1]; auto.
Qed.
Lemma In_removeAll : forall A ns (l : list (name * A)) e, In e (removeAll l ns) <-> In e l /\ ~ In (fst e) ns.
Proof. unfold removeAll. induction ns as [|n ns IH]; intros l e; cbn; [tauto|]. rewrite IH, In_del. intuition. Qed.
Lemma NoDup_del : forall A B (g : name * A -> B) (l : list (name * A)) n, NoDup (map g l) -> NoDup (map g (del l n)).
Proof.
  induction l as [|[m a] l IH]; intros n H; cbn; auto. inversion H; subst. destruct (Nat.eqb n m); auto. cbn. constructor; auto.
  intros Hin. apply H2. apply in_map_iff in Hin. destruct Hin as (e & He & Hin). apply In_del in Hin. rewrite <- He. now apply List.in_map.
Qed.
Lemma NoDup_removeAll : forall A B (g : name * A -> B) ns (l : list (name * A)), NoDup (map g l) -> NoDup (map g (removeAll l ns)).
Proof. unfold removeAll. induction ns as [|n ns IH]; intros l H; cbn; auto. apply IH. now apply NoDup_del. Qed.
Lemma NoDup_app_iff : forall A (a b : list A), NoDup (a ++ b) <-> NoDup a /\ NoDup b /\ (forall x, In x a -> ~ In x b).
Proof.
  induction a as [|y a IH]; intros b; cbn.
  - split; [intros H; split; [constructor|split; [auto|contradiction]]|tauto].
  - split.
    + intros H. inversion H; subst. apply IH in H3. destruct H3 as (H4 & H5 & H6). split; [constructor; auto; intros Hin; apply H2, in_or_app; auto|]. split; auto. intros x [<-|Hx]; auto. intros Hin. apply H2, in_or_app. auto.
    + intros (H1 & H2 & H3). inversion H1; subst. constructor; [|apply IH; split; [auto|split; [auto|]]]; auto. intros Hin. apply in_app_or in Hin. destruct Hin as [Hin|Hin]; auto. apply (H3 y); auto.
Qed.


Lemma Forall2_impl : forall A B (P Q : A -> B -> Prop), (forall a b, P a b -> Q a b) -> forall l m, Forall2 P l m -> Forall2 Q l m.
Proof. intros A B P Q H l m F. induction F; constructor; auto. Qed.

Section Logs.
  Lemma created_maps_app : forall a b, created_maps (a ++ b) = created_maps a ++ created_maps b. Proof. intros; apply flat_map_app. Qed.
  Lemma created_progs_app : forall a b, created_progs (a ++ b) = created_progs a ++ created_progs b. Proof. intros; apply flat_map_app. Qed.
  Lemma closed_app : forall a b, closed (a ++ b) = closed a ++ closed b. Proof. intros; apply flat_map_app. Qed.
  Lemma finalized_app : forall a b, finalized (a ++ b) = finalized a ++ finalized b. Proof. intros; apply flat_map_app. Qed.
  Lemma closed_closes : forall l, closed (map EClose l) = l. Proof. induction l; cbn; [reflexivity|f_equal; exact IHl]. Qed.
  Lemma created_maps_closes : forall l, created_maps (map EClose l) = []. Proof. induction l; cbn; auto. Qed.
  Lemma created_progs_closes : forall l, created_progs (map EClose l) = []. Proof. induction l; cbn; auto. Qed.
  Lemma finalized_closes : forall l, finalized (map EClose l) = []. Proof. induction l; cbn; auto. Qed.
End Logs.

Section P.
  Variable fails : nat -> bool.
  Variable sp : spec.
  Variable repl : replacements.
  Variable base : obj.

  Lemma history_nil : history sp repl base [].
  Proof. intros [|y pre] e post H; discriminate. Qed.
  Lemma history_snoc : forall log e, history sp repl base log -> valid sp repl base log e -> history sp repl base (log ++ [e]).
  Proof.
    intros log e H V pre x post E. destruct post as [|y post _] using rev_ind.
    - apply app_inj_tail in E. destruct E as [-> ->]. exact V.
    - rewrite app_comm_cons, app_assoc in E. apply app_inj_tail in E. destruct E as [-> ->]. eapply H. reflexivity.
  Qed.

  (** the invariant; [done]: maps which have been populated *)
  Record J (done : list name) (s : st) : Prop := mkJ {
    J_closed : closed (t_log s) = [];
    J_maps : created_maps (t_log s) = l_maps s;
    J_progs : created_progs (t_log s) = l_progs s;
    J_nodup : NoDup (map snd (l_maps s) ++ map snd (l_progs s));
    J_range : forall o, In o (map snd (l_maps s) ++ map snd (l_progs s)) -> base <= o < t_next s;
    J_nmaps : NoDup (map fst (l_maps s));
    J_nprogs : NoDup (map fst (l_progs s));
    J_spec : forall n o, In (n, o) (l_maps s) -> get (s_maps sp) n <> None;
    J_pspec : forall n o, In (n, o) (l_progs s) -> exists ps, get (s_progs sp) n = Some ps /\ ps_unspec ps = false;
    J_fin : forall o, In o (finalized (t_log s)) -> exists n, In (n, o) (l_maps s) /\ ((In n done /\ exists ms, get (s_maps sp) n = Some ms /\ ms_kind ms <> Scalar) \/ early sp repl n);
    J_early : forall n o, In (n, o) (l_maps s) -> early sp repl n -> In o (finalized (t_log s));
    J_done : forall n o, In (n, o) (l_maps s) -> In n done -> (exists ms, get (s_maps sp) n = Some ms /\ ms_kind ms <> Scalar) -> In o (finalized (t_log s));
    J_hist : history sp repl base (t_log s);
    J_base : base <= t_next s;
    J_dmaps : incl done (map fst (l_maps s));
    J_vars : forall n o, In (n, o) (l_vars s) -> exists sec, get (s_vars sp) n = Some sec /\ In (sec, o) (l_maps s) }.
  (** what holds after an error *)
  Record E (s : st) : Prop := mkE {
    E_hist : history sp repl base (t_log s);
    E_created : exists c, closed (t_log s) = c /\ Permutation (created (t_log s)) (c ++ map snd (l_maps s) ++ map snd (l_progs s));
    E_nodup : NoDup (created (t_log s));
    E_range : forall o, In o (created (t_log s)) -> base <= o }.
  (** what one step of the loader does *)
  Record ext (s s' : st) : Prop := mkExt {
    X_maps : exists x, l_maps s' = l_maps s ++ x;
    X_progs : exists x, l_progs s' = l_progs s ++ x;
    X_vars : exists x, l_vars s' = l_vars s ++ x;
    X_log : exists x, t_log s' = t_log s ++ x }.

  Lemma ext_refl : forall s, ext s s.
  Proof. intros s; split; exists []; now rewrite app_nil_r. Qed.
  Lemma ext_trans : forall a b c, ext a b -> ext b c -> ext a c.
  Proof.
    intros a b c [[m Hm] [p Hp] [v Hv] [l Hl]] [[m' Hm'] [p' Hp'] [v' Hv'] [l' Hl']]. split; eexists.
    - rewrite Hm', Hm, <- app_assoc; reflexivity. - rewrite Hp', Hp, <- app_assoc; reflexivity.
    - rewrite Hv', Hv, <- app_assoc; reflexivity. - rewrite Hl', Hl, <- app_assoc; reflexivity.
  Qed.
  Lemma ext_map : forall s s' e, ext s s' -> In e (l_maps s) -> In e (l_maps s').
  Proof. intros s s' e [[x H] _ _ _] I1. rewrite H. apply in_or_app. now left. Qed.
  Lemma ext_prog : forall s s' e, ext s s' -> In e (l_progs s) -> In e (l_progs s').
  Proof. intros s s' e [_ [x H] _ _] I1. rewrite H. apply in_or_app. now left. Qed.
  Lemma ext_var : forall s s' e, ext s s' -> In e (l_vars s) -> In e (l_vars s').
  Proof. intros s s' e [_ _ [x H] _] I1. rewrite H. apply in_or_app. now left. Qed.
  Lemma ext_fin : forall s s' o, ext s s' -> In o (finalized (t_log s)) -> In o (finalized (t_log s')).
  Proof. intros s s' e [_ _ _ [x H]] I1. rewrite H, finalized_app. apply in_or_app. now left. Qed.

  Lemma J_step : forall d s k, J d s -> J d (mkSt k (t_next s) (t_log s) (l_maps s) (l_progs s) (l_vars s)).
  Proof. intros d s k []. split; auto. Qed.
  Lemma ext_step : forall s k, ext s (mkSt k (t_next s) (t_log s) (l_maps s) (l_progs s) (l_vars s)).
  Proof. intros s k; split; exists []; cbn; now rewrite app_nil_r. Qed.
  Lemma J_E : forall d s, J d s -> E s.
  Proof.
    intros d s H. destruct H. split; auto.
    - exists []. split; auto. unfold created. now rewrite J_maps0, J_progs0.
    - unfold created. now rewrite J_maps0, J_progs0.
    - intros o Ho. unfold created in Ho. rewrite J_maps0, J_progs0 in Ho. apply J_range0 in Ho. lia.
  Qed.
  Lemma J_created : forall d s, J d s -> created (t_log s) = map snd (l_maps s) ++ map snd (l_progs s).
  Proof. intros d s []. unfold created. congruence. Qed.
  Lemma J_fresh : forall d s, J d s -> ~ In (t_next s) (created (t_log s)).
  Proof. intros d s H Hin. rewrite (J_created _ _ H) in Hin. apply (J_range _ _ H) in Hin. lia. Qed.

  (** the good outcome of a function which loads *)
  Definition good {A} (d : list name) (s : st) (r : st * res lerr A) (P : st -> A -> Prop) : Prop :=
    match r with (s', Ok a) => J d s' /\ ext s s' /\ P s' a | (s', Err e) => E s' end.

  (** a new map in the loader *)
  Lemma J_new_map : forall d s k n o e l, J d s -> l_maps s = l_maps s -> o = t_next s -> get (l_maps s) n = None -> get (s_maps sp) n <> None ->
    (e = ECreateMap n o /\ get repl n = None \/ exists src, e = EClone n src o /\ get repl n = Some src) ->
    (l = [] /\ ~ early sp repl n \/ exists c ms, l = [EFinalize o c] /\ early sp repl n /\ get (s_maps sp) n = Some ms /\ Forall2 (resolved (t_log s ++ [e]) (ms_kind ms)) (ms_contents ms) c) ->
    J d (mkSt k (S o) (t_log s ++ [e] ++ l) (l_maps s ++ [(n, o)]) (l_progs s) (l_vars s)).
  Proof.
    intros d s k n o e l HJ _ Ho Hg Hs He Hl. pose proof (J_fresh _ _ HJ) as Hfr.
    assert (Hcm : created_maps [e] = [(n, o)]) by (destruct He as [[-> _]|[src [-> _]]]; reflexivity).
    assert (Hcp : created_progs [e] = []) by (destruct He as [[-> _]|[src [-> _]]]; reflexivity).
    assert (Hcc : closed [e] = []) by (destruct He as [[-> _]|[src [-> _]]]; reflexivity).
    assert (Hcf : finalized [e] = []) by (destruct He as [[-> _]|[src [-> _]]]; reflexivity).
    assert (Hlm : created_maps l = []) by (destruct Hl as [[-> _]|(c & ms & -> & _)]; reflexivity).
    assert (Hlp : created_progs l = []) by (destruct Hl as [[-> _]|(c & ms & -> & _)]; reflexivity).
    assert (Hlc : closed l = []) by (destruct Hl as [[-> _]|(c & ms & -> & _)]; reflexivity).
    assert (Hnn : ~ In n (map fst (l_maps s))) by (now apply get_none).
    destruct HJ. rewrite (J_created d s) in Hfr by (split; auto).
    assert (Hv : valid sp repl base (t_log s) e).
    { assert (Hx : closed (t_log s) = [] /\ base <= o /\ ~ In o (created (t_log s)) /\ ~ In n (map fst (created_maps (t_log s)))).
      { unfold created. rewrite J_maps0, J_progs0. subst o. auto. }
      destruct He as [[-> Hr]|[src [-> Hr]]]; cbn; tauto. }
    assert (Hnf : ~ In o (finalized (t_log s))).
    { intros Hin. apply J_fin0 in Hin. destruct Hin as (m & Hin & _). apply Hfr. apply in_or_app. left. subst o. now apply (List.in_map snd) in Hin. }
    split; cbn [t_log t_next l_maps l_progs l_vars]; rewrite ?created_maps_app, ?created_progs_app, ?closed_app, ?finalized_app, ?Hcm, ?Hcp, ?Hcc, ?Hcf, ?Hlm, ?Hlp, ?Hlc; cbn [app].
    - now rewrite J_closed0.
    - now rewrite J_maps0.
    - now rewrite J_progs0, app_nil_r.
    - rewrite map_app, <- app_assoc. cbn. apply (NoDup_Add (Add_app o _ _)). subst o. auto.
    - intros x Hx. rewrite map_app, <- app_assoc in Hx. cbn in Hx. apply in_app_or in Hx. destruct Hx as [Hx|[Hx|Hx]].
      + assert (base <= x < t_next s) by (apply J_range0, in_or_app; auto). subst o; lia.
      + subst; lia.
      + assert (base <= x < t_next s) by (apply J_range0, in_or_app; auto). subst o; lia.
    - rewrite map_app. cbn. apply (NoDup_Add (Add_app n (map fst (l_maps s)) [])). rewrite app_nil_r. auto.
    - auto.
    - intros m x Hx. apply in_app_or in Hx. destruct Hx as [Hx|[Hx|[]]]; [eauto|]. now injection Hx as <- <-.
    - auto.
    - intros x Hx. apply in_app_or in Hx. destruct Hx as [Hx|Hx].
      + apply J_fin0 in Hx. destruct Hx as (m & H1 & H2). exists m. split; auto. apply in_or_app; auto.
      + destruct Hl as [[-> _]|(c & ms & -> & He' & _)]; cbn in Hx; [contradiction|]. destruct Hx as [<-|[]]. exists n. split; [apply in_or_app; right; now left|now right].
    - intros m x Hx Hea. apply in_or_app. apply in_app_or in Hx. destruct Hx as [Hx|[Hx|[]]]; [left; eauto|]. injection Hx as <- <-. right.
      destruct Hl as [(-> & Hne)|(c & ms & -> & He' & _)]; [contradiction|now left].
    - intros m x Hx Hd Hk. apply in_or_app. apply in_app_or in Hx. destruct Hx as [Hx|[Hx|[]]]; [left; eauto|]. injection Hx as <- <-.
      exfalso. apply Hnn. now apply J_dmaps0.
    - destruct Hl as [[-> _]|(c & ms & -> & Hee & Hg' & Hf)]; [now apply history_snoc|].
      change (e :: [EFinalize o c]) with ([e] ++ [EFinalize o c]). rewrite app_assoc. apply history_snoc; [now apply history_snoc|].
      cbn. rewrite closed_app, Hcc, J_closed0, finalized_app, Hcf. split; [reflexivity|]. split; [rewrite app_nil_r; exact Hnf|].
      exists n, ms. split; [rewrite created_maps_app, Hcm; apply in_or_app; right; now left|auto].
    - subst o. lia.
    - rewrite map_app. now apply incl_appl.
    - intros m x Hx. destruct (J_vars0 m x Hx) as (sec & H1 & H2). exists sec. split; auto. apply in_or_app; auto.
  Qed.
  Lemma J_new_prog : forall d s k n o refs ps, J d s -> o = t_next s -> get (l_progs s) n = None -> get (s_progs sp) n = Some ps -> ps_unspec ps = false ->
    Forall2 (linked sp repl (t_log s)) (ps_insns ps) refs ->
    J d (mkSt k (S o) (t_log s ++ [ECreateProg n o refs]) (l_maps s) (l_progs s ++ [(n, o)]) (l_vars s)).
  Proof.
    intros d s k n o refs ps HJ Ho Hg Hs Hu Hl. pose proof (J_fresh _ _ HJ) as Hfr. rewrite (J_created d s HJ) in Hfr.
    assert (Hnn : ~ In n (map fst (l_progs s))) by (now apply get_none).
    destruct HJ.
    split; cbn [t_log t_next l_maps l_progs l_vars]; rewrite ?created_maps_app, ?created_progs_app, ?closed_app, ?finalized_app; cbn [created_maps created_progs closed finalized flat_map app]; rewrite ?app_nil_r; auto.
    - now rewrite J_progs0.
    - rewrite map_app. cbn. rewrite app_assoc. apply (NoDup_Add (Add_app o _ [])). rewrite app_nil_r. subst o. auto.
    - intros x Hx. rewrite map_app, app_assoc in Hx. apply in_app_or in Hx. destruct Hx as [Hx|[Hx|[]]].
      + apply J_range0 in Hx. subst o; lia.
      + cbn in Hx. subst; lia.
    - rewrite map_app. cbn. apply (NoDup_Add (Add_app n (map fst (l_progs s)) [])). rewrite app_nil_r. auto.
    - intros m x Hx. apply in_app_or in Hx. destruct Hx as [Hx|[Hx|[]]]; [eauto|]. injection Hx as <- <-. eauto.
    - apply history_snoc; auto. cbn. unfold created. rewrite J_maps0, J_progs0, J_closed0. subst o. repeat split; eauto.
    - subst o. lia.
  Qed.

  Lemma early_dec : forall n ms, get (s_maps sp) n = Some ms -> get repl n = None -> canStoreMapOrProgram (ms_kind ms) = false -> early sp repl n.
  Proof. intros n ms H H0 H1. split; auto. exists ms. split; auto. destruct (ms_kind ms); cbn in H1; congruence. Qed.
  Lemma not_early : forall n ms, get (s_maps sp) n = Some ms -> canStoreMapOrProgram (ms_kind ms) = true -> ~ early sp repl n.
  Proof. intros n ms H H1 [_ (ms' & H2 & H3)]. rewrite H in H2. injection H2 as <-. now rewrite H3 in H1. Qed.

  Lemma plain_resolved : forall pre k c, canStoreMapOrProgram k = false -> Forall2 (resolved pre k) c (plain c).
  Proof. intros pre k c H. induction c as [|[key v] c IH]; cbn; constructor; auto. split; [reflexivity|]. cbn. destruct v, k; cbn in H; try discriminate; reflexivity. Qed.

  (** each step once, so that terms stay small *)
  Lemma loadMap_cases : forall s n (P : st * res lerr obj -> Prop),
    (forall o, get (l_maps s) n = Some o -> P (s, Ok o)) ->
    (get (l_maps s) n = None -> get (s_maps sp) n = None -> P (s, Err (LMissingMap n))) ->
    (forall ms k, get (l_maps s) n = None -> get (s_maps sp) n = Some ms -> P (failed (mkSt k (t_next s) (t_log s) (l_maps s) (l_progs s) (l_vars s)))) ->
    (forall ms src k, get (l_maps s) n = None -> get (s_maps sp) n = Some ms -> get repl n = Some src ->
       P (mkSt k (S (t_next s)) (t_log s ++ [EClone n src (t_next s)]) (l_maps s ++ [(n, t_next s)]) (l_progs s) (l_vars s), Ok (t_next s))) ->
    (forall ms k, get (l_maps s) n = None -> get (s_maps sp) n = Some ms -> get repl n = None -> canStoreMapOrProgram (ms_kind ms) = true ->
       P (mkSt k (S (t_next s)) (t_log s ++ [ECreateMap n (t_next s)]) (l_maps s ++ [(n, t_next s)]) (l_progs s) (l_vars s), Ok (t_next s))) ->
    (forall ms k, get (l_maps s) n = None -> get (s_maps sp) n = Some ms -> get repl n = None -> canStoreMapOrProgram (ms_kind ms) = false ->
       P (failed (mkSt k (S (t_next s)) ((t_log s ++ [ECreateMap n (t_next s)]) ++ [EClose (t_next s)]) (l_maps s) (l_progs s) (l_vars s)))) ->
    (forall ms k, get (l_maps s) n = None -> get (s_maps sp) n = Some ms -> get repl n = None -> canStoreMapOrProgram (ms_kind ms) = false ->
       P (mkSt k (S (t_next s)) ((t_log s ++ [ECreateMap n (t_next s)]) ++ [EFinalize (t_next s) (plain (ms_contents ms))]) (l_maps s ++ [(n, t_next s)]) (l_progs s) (l_vars s), Ok (t_next s))) ->
    P (loadMap fails sp repl s n).
  Proof.
    intros s n P H1 H2 H3 H4 H5 H6 H7. unfold loadMap.
    destruct (get (l_maps s) n) as [o|] eqn:Hg; [now apply H1|]. destruct (get (s_maps sp) n) as [ms|] eqn:Hs; [|now apply H2].
    destruct (get repl n) as [src|] eqn:Hr.
    - unfold step at 1. destruct (fails (t_step s)); [eapply H3; eauto|]. unfold step at 1. cbn [t_step t_next t_log l_maps l_progs l_vars].
      destruct (fails (S (t_step s))); [eapply H3; eauto|]. cbn. eapply H4; eauto.
    - unfold step at 1. destruct (fails (t_step s)); [eapply H3; eauto|]. unfold step at 1. cbn [t_step t_next t_log l_maps l_progs l_vars].
      destruct (fails (S (t_step s))); [eapply H3; eauto|]. cbn [fresh t_step t_next t_log l_maps l_progs l_vars].
      destruct (canStoreMapOrProgram (ms_kind ms)) eqn:Hk; [cbn; eapply H5; eauto|]. unfold step, emit. cbn [t_step t_next t_log l_maps l_progs l_vars].
      destruct (fails (S (S (t_step s)))); [eapply H6; eauto|]. cbn. eapply H7; eauto.
  Qed.

  Lemma loadMap_good : forall d s n, J d s -> good d s (loadMap fails sp repl s n) (fun s' o => In (n, o) (l_maps s')).
  Proof.
    intros d s n HJ. apply loadMap_cases.
    - intros o Hg. cbn. split; auto. split; [apply ext_refl|now apply get_In].
    - intros. cbn. eapply J_E; eauto.
    - intros. cbn. eapply J_E, J_step, HJ.
    - intros ms src k Hg Hs Hr. cbn. split; [|split].
      + apply J_new_map with (e := EClone n src (t_next s)) (l := []); auto; [congruence|right; eauto|left]. split; auto. intros [H _]; congruence.
      + split; cbn; eexists; try reflexivity; now rewrite app_nil_r.
      + apply in_or_app. right. now left.
    - intros ms k Hg Hs Hr Hk. cbn. split; [|split].
      + apply J_new_map with (e := ECreateMap n (t_next s)) (l := []); auto; [congruence|left]. split; auto. eapply not_early; eauto.
      + split; cbn; eexists; try reflexivity; now rewrite app_nil_r.
      + apply in_or_app. right. now left.
    - intros ms k Hg Hs Hr Hk. cbn.
      assert (HJ' : J d (mkSt 0 (S (t_next s)) (t_log s ++ [ECreateMap n (t_next s)] ++ [EFinalize (t_next s) (plain (ms_contents ms))]) (l_maps s ++ [(n, t_next s)]) (l_progs s) (l_vars s))).
      { apply J_new_map; auto; [congruence|]. right. exists (plain (ms_contents ms)), ms. repeat split; auto; [exists ms; split; auto; destruct (ms_kind ms); cbn in Hk; congruence|]. now apply plain_resolved. }
      destruct (J_E _ _ HJ') as [Hh _ Hn Hrg]. cbn [t_log] in *. rewrite app_assoc in Hh.
      assert (Hc : created ((t_log s ++ [ECreateMap n (t_next s)]) ++ [EClose (t_next s)]) = created (t_log s ++ [ECreateMap n (t_next s)] ++ [EFinalize (t_next s) (plain (ms_contents ms))])).
      { unfold created. rewrite !created_maps_app, !created_progs_app, <- !app_assoc. reflexivity. }
      split; cbn [t_log l_maps l_progs].
      + apply history_snoc.
         * intros pre e post Hp. apply (Hh pre e (post ++ [EFinalize (t_next s) (plain (ms_contents ms))])). now rewrite Hp, <- app_assoc.
         * cbn. split.
            -- unfold created. rewrite created_maps_app, map_app. apply in_or_app. left. apply in_or_app. right. now left.
            -- rewrite closed_app, (J_closed _ _ HJ). cbn. auto.
      + exists [t_next s]. split; [now rewrite !closed_app, (J_closed _ _ HJ)|].
         unfold created. rewrite !created_maps_app, !created_progs_app, (J_maps _ _ HJ), (J_progs _ _ HJ). cbn. rewrite !app_nil_r, map_app. cbn.
         rewrite <- app_assoc. cbn. symmetry. apply Permutation_middle.
      + now rewrite Hc.
      + intros o Ho. rewrite Hc in Ho. auto.
    - intros ms k Hg Hs Hr Hk. cbn. split; [|split].
      + rewrite <- app_assoc. apply J_new_map; auto; [congruence|]. right. exists (plain (ms_contents ms)), ms. repeat split; auto; [exists ms; split; auto; destruct (ms_kind ms); cbn in Hk; congruence|]. now apply plain_resolved.
      + split; cbn; eexists; try (rewrite <- app_assoc); try reflexivity; now rewrite app_nil_r.
      + apply in_or_app. right. now left.
  Qed.

  Lemma linked_ext : forall s s' i r, created_maps (t_log s) = l_maps s -> created_maps (t_log s') = l_maps s' -> ext s s' -> linked sp repl (t_log s) i r -> linked sp repl (t_log s') i r.
  Proof.
    intros s s' i r H1 H2 X. unfold linked. destruct (map_of i); auto. intros (o & -> & Hin & He). exists o. split; auto. split.
    - rewrite H2. rewrite H1 in Hin. eapply ext_map; eauto.
    - intros. eapply ext_fin; eauto.
  Qed.

  Lemma loadMap_progs : forall s n, l_progs (fst (loadMap fails sp repl s n)) = l_progs s.
  Proof. intros s n. apply loadMap_cases; reflexivity. Qed.
  Lemma loadMap_vars : forall s n, l_vars (fst (loadMap fails sp repl s n)) = l_vars s.
  Proof. intros s n. apply loadMap_cases; reflexivity. Qed.

  Lemma loadRefs_good : forall is d s, J d s -> good d s (loadRefs fails sp repl s is) (fun s' rs => Forall2 (linked sp repl (t_log s')) is rs /\ l_progs s' = l_progs s /\ l_vars s' = l_vars s).
  Proof.
    induction is as [|i is IH]; intros d s HJ; [cbn; auto using ext_refl|].
    cbn [loadRefs].
    assert (Hskip : map_of i = None -> good d s (match loadRefs fails sp repl s is with (s, Err e) => (s, Err e) | (s, Ok r) => (s, Ok (None :: r)) end) (fun s' rs => Forall2 (linked sp repl (t_log s')) (i :: is) rs /\ l_progs s' = l_progs s /\ l_vars s' = l_vars s)).
    { intros Hm. specialize (IH d s HJ). destruct (loadRefs fails sp repl s is) as [s' [r|e]]; cbn in *; [|auto]. destruct IH as (H1 & H2 & H3 & H4). split; auto. split; auto. split; auto. constructor; auto. unfold linked. now rewrite Hm. }
    unfold map_of in Hskip at 1.
    destruct (in_map i) eqn:Hi; [|now apply Hskip]. destruct (in_ref i) as [n|] eqn:Hn; [|apply Hskip; now destruct (_ && _)%bool].
    assert (Hz : (i32 (in_const i) <=? 0)%Z = negb (i32 (in_const i) >? 0)%Z) by (rewrite Z.gtb_ltb, Z.leb_antisym; reflexivity).
    rewrite Hz in Hskip. destruct (i32 (in_const i) >? 0)%Z eqn:Hc; [now apply Hskip|]. clear Hskip.
    pose proof (loadMap_good d s n HJ) as G. pose proof (loadMap_progs s n) as Gp. pose proof (loadMap_vars s n) as Gv. destruct (loadMap fails sp repl s n) as [s1 [o|e]]; [|exact G]. destruct G as (J1 & X1 & Hin).
    specialize (IH d s1 J1). destruct (loadRefs fails sp repl s1 is) as [s2 [r|e]]; [|exact IH]. destruct IH as (J2 & X2 & Hf & Hp & Hv). cbn in Gp, Gv |- *.
    split; auto. split; [eapply ext_trans; eauto|]. split; [|split; congruence]. constructor; auto.
    unfold linked, map_of. rewrite Hi, Hz, Hn. cbn. exists o. split; auto. split.
    - rewrite (J_maps _ _ J2). eapply ext_map; eauto.
    - intros He. eapply ext_fin; [exact X2|]. eapply J_early; eauto.
  Qed.

  Lemma loadProgram_good : forall d s n, J d s -> good d s (loadProgram fails sp repl s n) (fun s' o => In (n, o) (l_progs s') /\ l_vars s' = l_vars s).
  Proof.
    intros d s n HJ. unfold loadProgram, step, fresh, failed, put_prog, emit. destruct (get (l_progs s) n) as [o|] eqn:Hg.
    { cbn. split; auto. split; [apply ext_refl|]. split; [now apply get_In|auto]. }
    destruct (get (s_progs sp) n) as [ps|] eqn:Hs; [|cbn; eapply J_E; eauto].
    destruct (ps_unspec ps) eqn:Hu; [cbn; eapply J_E; eauto|].
    pose proof (loadRefs_good (ps_insns ps) d s HJ) as G. destruct (loadRefs fails sp repl s (ps_insns ps)) as [s1 [r|e]]; [|exact G].
    destruct G as (J1 & X1 & Hf & Hp & Hv). cbn. destruct (fails (t_step s1)); [cbn; eapply J_E, J_step, J1|]. cbn. split; [|split; [|split]].
    - eapply J_new_prog; eauto. now rewrite Hp.
    - eapply ext_trans; [exact X1|]. split; cbn; eexists; try reflexivity; now rewrite app_nil_r.
    - apply in_or_app. right. now left.
    - auto.
  Qed.

  Lemma loadVariable_good : forall d s n, J d s -> good d s (loadVariable fails sp repl s n) (fun s' o => In (n, o) (l_vars s')).
  Proof.
    intros d s n HJ. unfold loadVariable, step, fresh, failed, put_var. destruct (get (l_vars s) n) as [o|] eqn:Hg.
    { cbn. split; auto. split; [apply ext_refl|now apply get_In]. }
    destruct (get (s_vars sp) n) as [sec|] eqn:Hs; [|cbn; eapply J_E; eauto].
    pose proof (loadMap_good d s sec HJ) as G. destruct (loadMap fails sp repl s sec) as [s1 [o|e]]; [|exact G]. destruct G as (J1 & X1 & Hin). cbn.
    destruct (fails (t_step s1)); [cbn; eapply J_E, J_step, J1|]. cbn. destruct (fails (S (t_step s1))); [cbn; eapply J_E, J_step, J1|]. cbn. split; [|split].
    - destruct J1; split; auto. cbn. intros m x Hx. apply in_app_or in Hx. destruct Hx as [Hx|[Hx|[]]]; [auto|]. injection Hx as <- <-. eauto.
    - eapply ext_trans; [exact X1|]. split; cbn; eexists; try reflexivity; now rewrite app_nil_r.
    - apply in_or_app. right. now left.
  Qed.

  Lemma resolved_ext : forall d d' s s' k kv kr, J d s -> J d' s' -> ext s s' -> resolved (t_log s) k kv kr -> resolved (t_log s') k kv kr.
  Proof.
    intros d d' s s' k kv kr J1 J2 X [H1 H2]. split; auto. destruct (snd kv) as [z|n], k; auto.
    - destruct H2 as (o & H2 & H3). exists o. split; auto. rewrite (J_maps _ _ J2). rewrite (J_maps _ _ J1) in H3. eapply ext_map; eauto.
    - destruct H2 as (o & H2 & H3). exists o. split; auto. rewrite (J_progs _ _ J2). rewrite (J_progs _ _ J1) in H3. eapply ext_prog; eauto.
  Qed.

  Lemma resolve_good : forall c d s k, J d s -> good d s (resolve fails sp repl s k c) (fun s' l => Forall2 (resolved (t_log s') k) c l /\ l_vars s' = l_vars s).
  Proof.
    induction c as [|[key v] c IH]; intros d s k HJ; [cbn; auto using ext_refl|].
    cbn [resolve].
    assert (G : good d s (match v, k with
          | VString n, OfProgs => match loadProgram fails sp repl s n with (s, Ok o) => (s, Ok (RProg o)) | (s, Err e) => (s, Err e) end
          | VString n, OfMaps => match loadMap fails sp repl s n with (s, Ok o) => (s, Ok (RMap o)) | (s, Err e) => (s, Err e) end
          | VString n, _ => (s, Ok (RString n))
          | VData d, _ => (s, Ok (RData d))
          end) (fun s' r => resolved (t_log s') k (key, v) (key, r) /\ l_vars s' = l_vars s)).
    { destruct v as [z|n].
      - destruct k; cbn; (split; [exact HJ|split; [apply ext_refl|split; [split; reflexivity|reflexivity]]]).
      - destruct k.
        + cbn; (split; [exact HJ|split; [apply ext_refl|split; [split; reflexivity|reflexivity]]]).
        + pose proof (loadMap_good d s n HJ) as G. pose proof (loadMap_vars s n) as Gv. destruct (loadMap fails sp repl s n) as [s1 [o|e]]; [|exact G]. cbn in G, Gv |- *. destruct G as (J1 & X1 & Hin).
          split; auto. split; auto. split; auto. split; [reflexivity|]. cbn. exists o. split; auto. now rewrite (J_maps _ _ J1).
        + pose proof (loadProgram_good d s n HJ) as G. destruct (loadProgram fails sp repl s n) as [s1 [o|e]]; [|exact G]. cbn in G |- *. destruct G as (J1 & X1 & Hin & Hv).
          split; auto. split; auto. split; auto. split; [reflexivity|]. cbn. exists o. split; auto. now rewrite (J_progs _ _ J1).
        + cbn; (split; [exact HJ|split; [apply ext_refl|split; [split; reflexivity|reflexivity]]]). }
    match type of G with good _ _ ?r _ => set (R := r) in * end.
    destruct R as [s1 [r|e]]; [|exact G]. destruct G as (J1 & X1 & Hr & Hv).
    specialize (IH d s1 k J1). destruct (resolve fails sp repl s1 k c) as [s2 [l|e]]; [|exact IH]. destruct IH as (J2 & X2 & Hf & Hv2). cbn.
    split; auto. split; [eapply ext_trans; eauto|]. split; [|congruence]. constructor; auto. eapply resolved_ext with (s := s1); eauto.
  Qed.

  Lemma kind_early : forall n ms, get (s_maps sp) n = Some ms -> negb (canStoreMapOrProgram (ms_kind ms)) = false -> ms_kind ms <> Scalar.
  Proof. intros n ms H H1 H2. now rewrite H2 in H1. Qed.

  Lemma J_finalize : forall d s k n o ms c, J d s -> In (n, o) (l_maps s) -> ~ In n d -> get (s_maps sp) n = Some ms -> ms_kind ms <> Scalar ->
    Forall2 (resolved (t_log s) (ms_kind ms)) (ms_contents ms) c -> J (n :: d) (mkSt k (t_next s) (t_log s ++ [EFinalize o c]) (l_maps s) (l_progs s) (l_vars s)).
  Proof.
    intros d s k n o ms c HJ Hin Hd Hg Hk Hf.
    assert (Hnf : ~ In o (finalized (t_log s))).
    { intros H. apply (J_fin _ _ HJ) in H. destruct H as (m & H1 & H2).
      assert (m = n); [|subst m].
      { pose proof (J_nodup _ _ HJ) as ND. apply NoDup_left in ND. revert ND Hin H1. generalize (l_maps s). clear. intros l ND H H1.
        induction l as [|[a b] l IH]; [contradiction|]. cbn in *. inversion ND; subst. destruct H as [H|H], H1 as [H1|H1].
        - congruence.
        - injection H as -> ->. exfalso. apply H3. now apply (List.in_map snd) in H1.
        - injection H1 as -> ->. exfalso. apply H3. now apply (List.in_map snd) in H.
        - auto. }
      destruct H2 as [[H2 _]|[_ (ms' & H2 & H3)]]; [auto|]. congruence. }
    destruct HJ.
    split; cbn [t_log t_next l_maps l_progs l_vars]; rewrite ?created_maps_app, ?created_progs_app, ?closed_app, ?finalized_app; cbn [created_maps created_progs closed finalized flat_map app]; rewrite ?app_nil_r; auto.
    - intros x Hx. apply in_app_or in Hx. destruct Hx as [Hx|[Hx|[]]].
      + apply J_fin0 in Hx. destruct Hx as (m & H1 & [[H2 H2']|H2]); exists m; split; auto. left; split; [now right|auto].
      + subst x. exists n. split; auto. left. split; [now left|eauto].
    - intros m x Hx He. apply in_or_app. left. eauto.
    - intros m x Hx [<-|Hm] Hms; apply in_or_app; [right; left|left; eauto].
      pose proof (get_NoDup _ _ _ _ J_nmaps0 Hin) as A1. pose proof (get_NoDup _ _ _ _ J_nmaps0 Hx) as A2. congruence.
    - apply history_snoc; auto. cbn. split; auto. split; auto. exists n, ms. rewrite J_maps0. auto.
    - intros m [<-|Hm]; [now apply (List.in_map fst) in Hin|auto].
  Qed.

  Lemma J_skip : forall d s n ms, J d s -> In n (map fst (l_maps s)) -> get (s_maps sp) n = Some ms -> ms_kind ms = Scalar -> J (n :: d) s.
  Proof.
    intros d s n ms [] Hn Hg Hk. split; auto.
    - intros o Ho. destruct (J_fin0 o Ho) as (m & H1 & H2). exists m. split; auto. destruct H2 as [[H2 H3]|H2]; auto. left; split; [now right|auto].
    - intros m o Hm [<-|Hd] (ms' & Hms & Hk'); [congruence|eauto].
    - intros x [<-|Hx]; auto.
  Qed.

  Lemma populate_good : forall order d s, J d s -> NoDup (order ++ d) ->
    match populate fails sp repl s order with (s', Ok _) => (exists d', J d' s' /\ incl d d' /\ (forall n, In n order -> In n (map fst (l_maps s)) -> In n d')) /\ ext s s' | (s', Err _) => E s' end.
  Proof.
    induction order as [|n order IH]; intros d s HJ ND; cbn.
    - split; [|apply ext_refl]. exists d. split; auto. split; [apply incl_refl|contradiction].
    - assert (Hnd : ~ In n d) by (inversion ND; subst; intros H; apply H1, in_or_app; now right).
      assert (ND' : NoDup (order ++ d)) by (now inversion ND).
      assert (ND'' : NoDup (order ++ n :: d)) by (apply (NoDup_Add (Add_app n order d)); inversion ND; subst; auto).
      destruct (get (l_maps s) n) as [m|] eqn:Hg.
      + destruct (get (s_maps sp) n) as [ms|] eqn:Hs; [|eapply J_E; eauto].
        pose proof (get_In _ _ _ _ Hg) as Hin.
        destruct (negb (canStoreMapOrProgram (ms_kind ms))) eqn:Hk.
        * assert (HJ' : J (n :: d) s). { eapply J_skip; eauto; [now apply (List.in_map fst) in Hin|]. destruct (ms_kind ms); cbn in Hk; congruence. }
          specialize (IH (n :: d) s HJ' ND''). destruct (populate fails sp repl s order) as [s' [u|e]]; [|exact IH].
          destruct IH as ((d' & H1 & H2 & H3) & H4). split; auto. exists d'. split; auto. split; [intros x Hx; apply H2; now right|]. intros x [<-|Hx] Hl; [apply H2; now left|auto].
        * pose proof (resolve_good (ms_contents ms) d s (ms_kind ms) HJ) as G. destruct (resolve fails sp repl s (ms_kind ms) (ms_contents ms)) as [s1 [c|e]]; [|exact G].
          destruct G as (J1 & X1 & Hf & _). cbn.
          destruct (fails (t_step s1)); [cbn; eapply J_E, J_step, J1|]. cbn. destruct (fails (S (t_step s1))); [cbn; eapply J_E, J_step, J1|]. cbn.
          assert (J2 : J (n :: d) (emit (mkSt (S (S (t_step s1))) (t_next s1) (t_log s1) (l_maps s1) (l_progs s1) (l_vars s1)) (EFinalize m c))).
          { unfold emit. cbn [t_step t_next t_log l_maps l_progs l_vars]. eapply J_finalize; eauto; [eapply ext_map; eauto|eapply kind_early; eauto]. }
          assert (X2 : ext s (emit (mkSt (S (S (t_step s1))) (t_next s1) (t_log s1) (l_maps s1) (l_progs s1) (l_vars s1)) (EFinalize m c))).
          { eapply ext_trans; [exact X1|]. split; cbn; eexists; try reflexivity; now rewrite app_nil_r. }
          specialize (IH _ _ J2 ND''). destruct (populate fails sp repl _ order) as [s' [u|e]]; [|exact IH].
          destruct IH as ((d' & H1 & H2 & H3) & H4). split; [|eapply ext_trans; eauto]. exists d'. split; auto. split; [intros x Hx; apply H2; now right|].
          intros x [<-|Hx] Hl; [apply H2; now left|]. apply H3; auto. destruct X2 as [[y Hy] _ _ _]. rewrite Hy, map_app. apply in_or_app; auto.
      + specialize (IH d s HJ ND'). destruct (populate fails sp repl s order) as [s' [u|e]]; [|exact IH].
        destruct IH as ((d' & H1 & H2 & H3) & H4). split; auto. exists d'. split; auto. split; auto. intros x [<-|Hx] Hl; auto. apply get_none in Hg. contradiction.
  Qed.
  (** *** closing *)
  Lemma created_closes : forall log l, created (log ++ map EClose l) = created log.
  Proof. intros log l. unfold created. rewrite created_maps_app, created_progs_app, created_maps_closes, created_progs_closes, !app_nil_r. reflexivity. Qed.
  Lemma closes_history : forall log l, history sp repl base log -> NoDup (closed log ++ l) -> incl l (created log) -> history sp repl base (log ++ map EClose l).
  Proof.
    intros log l Hh. induction l as [|o l IH] using rev_ind; intros ND Hi.
    - now rewrite app_nil_r.
    - rewrite map_app, app_assoc. apply history_snoc.
      + apply IH. { rewrite app_assoc in ND. eapply NoDup_left; eauto. } { intros x Hx; apply Hi, in_or_app; auto. }
      + cbn. rewrite created_closes, closed_app, closed_closes. split; [apply Hi, in_or_app; right; now left|].
        rewrite app_assoc in ND. apply NoDup_remove_2 in ND. now rewrite app_nil_r in ND.
  Qed.
  Lemma close_history : forall s, E s -> history sp repl base (t_log (close s)) /\ Permutation (closed (t_log (close s))) (created (t_log s)) /\ created (t_log (close s)) = created (t_log s).
  Proof.
    intros s [Hh (c & Hc & Hp) Hn Hr]. unfold close. cbn [t_log]. rewrite <- map_app.
    split; [|split].
    - apply closes_history; auto; [rewrite Hc; eapply Permutation_NoDup; eauto|]. intros x Hx; eapply Permutation_in; [symmetry; exact Hp|]; apply in_or_app; now right.
    - rewrite closed_app, closed_closes, Hc. now symmetry.
    - apply created_closes.
  Qed.
  Lemma J_init : J [] (mkSt 0 base [] [] [] []).
  Proof. split; cbn; auto using NoDup_nil, history_nil; try contradiction; try lia. intros x []. Qed.
  Lemma newLoader_good : match newLoader fails sp repl base with (s, Ok _) => J [] s /\ l_maps s = [] /\ l_progs s = [] /\ l_vars s = [] | (s, Err _) => t_log s = [] end.
  Proof.
    unfold newLoader. destruct (filter _ repl); cbn; [|reflexivity]. destruct (fails 0); cbn; [reflexivity|]. split; auto. apply (J_step [] _ 1 J_init).
  Qed.

  Lemma loadAll_good : forall A (load : st -> name -> st * res lerr A) (P : name -> st -> Prop),
    (forall d s n, J d s -> good d s (load s n) (fun s' _ => P n s')) -> (forall n s s', P n s -> ext s s' -> P n s') ->
    forall l d s, J d s -> good d s (loadAll load s l) (fun s' _ => forall n, In n l -> P n s').
  Proof.
    intros A load P Hl Hx. induction l as [|n l IH]; intros d s HJ; cbn; [split; [auto|split; [apply ext_refl|contradiction]]|].
    specialize (Hl d s n HJ). destruct (load s n) as [s1 [a|e]]; [|exact Hl]. destruct Hl as (J1 & X1 & HP).
    specialize (IH d s1 J1). destruct (loadAll load s1 l) as [s2 [u|e]]; [|exact IH]. destruct IH as (J2 & X2 & HQ). cbn.
    split; auto. split; [eapply ext_trans; eauto|]. intros m [<-|Hm]; eauto.
  Qed.
  Lemma good_weaken : forall A d s (r : st * res lerr A) (P Q : st -> A -> Prop), (forall s a, P s a -> Q s a) -> good d s r P -> good d s r Q.
  Proof. intros A d s [s' [a|e]] P Q H; cbn; intuition. Qed.

  Lemma loadEverything_good : forall os s, J [] s -> NoDup (o_populate os) ->
    match loadEverything fails sp repl s os with
    | (s', Ok _) => (exists d, J d s' /\ (forall n, In n (o_populate os) -> In n (o_maps os) -> In n d)) /\ ext s s' /\
        (forall n, In n (o_maps os) -> exists o, In (n, o) (l_maps s')) /\ (forall n, In n (o_progs os) -> typed sp n = true -> exists o, In (n, o) (l_progs s')) /\
        (forall n, In n (o_vars os) -> exists o, In (n, o) (l_vars s'))
    | (s', Err _) => E s'
    end.
  Proof.
    intros os s HJ ND. unfold loadEverything.
    pose proof (loadAll_good _ (loadMap fails sp repl) (fun n s => exists o, In (n, o) (l_maps s))) as G. 
    assert (G1 : forall d s n, J d s -> good d s (loadMap fails sp repl s n) (fun s' _ => exists o, In (n, o) (l_maps s'))) by (intros; eapply good_weaken; [|apply loadMap_good; eauto]; cbn; eauto).
    assert (G2 : forall n s s', (exists o, In (n, o) (l_maps s)) -> ext s s' -> exists o, In (n, o) (l_maps s')) by (intros n a b [o Ho] X; exists o; eapply ext_map; eauto).
    specialize (G G1 G2 (o_maps os) [] s HJ). destruct (loadAll _ s (o_maps os)) as [s1 [u|e]]; [|exact G]. destruct G as (J1 & X1 & Hm). clear G1.
    pose proof (loadAll_good _ (loadProgram fails sp repl) (fun n s => exists o, In (n, o) (l_progs s))) as G. 
    assert (G1 : forall d s n, J d s -> good d s (loadProgram fails sp repl s n) (fun s' _ => exists o, In (n, o) (l_progs s'))) by (intros; eapply good_weaken; [|apply loadProgram_good; eauto]; cbn; intuition eauto).
    assert (G3 : forall n s s', (exists o, In (n, o) (l_progs s)) -> ext s s' -> exists o, In (n, o) (l_progs s')) by (intros n a b [o Ho] X; exists o; eapply ext_prog; eauto).
    specialize (G G1 G3 (filter (typed sp) (o_progs os)) [] s1 J1). destruct (loadAll _ s1 _) as [s2 [u1|e]]; [|exact G]. destruct G as (J2 & X2 & Hp). clear G1.
    pose proof (loadAll_good _ (loadVariable fails sp repl) (fun n s => exists o, In (n, o) (l_vars s))) as G. 
    assert (G1 : forall d s n, J d s -> good d s (loadVariable fails sp repl s n) (fun s' _ => exists o, In (n, o) (l_vars s'))) by (intros; eapply good_weaken; [|apply loadVariable_good; eauto]; cbn; intuition eauto).
    assert (G4 : forall n s s', (exists o, In (n, o) (l_vars s)) -> ext s s' -> exists o, In (n, o) (l_vars s')) by (intros n a b [o Ho] X; exists o; eapply ext_var; eauto).
    specialize (G G1 G4 (o_vars os) [] s2 J2). destruct (loadAll _ s2 _) as [s3 [u2|e]]; [|exact G]. destruct G as (J3 & X3 & Hv). clear G1.
    pose proof (populate_good (o_populate os) [] s3 J3) as G. rewrite app_nil_r in G. specialize (G ND). destruct (populate fails sp repl s3 (o_populate os)) as [s4 [u3|e]]; [|exact G].
    destruct G as ((d & J4 & _ & Hd) & X4). split; [|split; [|split; [|split]]].
    - exists d. split; auto. intros n H1 H2. apply Hd; auto. destruct (G2 n s1 s3 (Hm n H2) (ext_trans _ _ _ X2 X3)) as [o Ho]. now apply (List.in_map fst) in Ho.
    - eauto using ext_trans.
    - intros n Hn. apply (G2 n s1); eauto using ext_trans.
    - intros n Hn Ht. apply (G3 n s2); [apply Hp, filter_In; auto|eauto using ext_trans].
    - intros n Hn. apply (G4 n s3); eauto using ext_trans.
  Qed.

  (** *** LoadAndAssign *)
  Definition field_ok (s : st) (f : field) (o : obj) : Prop := In (f_name f, o) (match f_type f with FProg => l_progs s | FMap => l_maps s | FVar => l_vars s end).
  Lemma field_ok_ext : forall s s' f o, ext s s' -> field_ok s f o -> field_ok s' f o.
  Proof. intros s s' f o X. unfold field_ok. destruct (f_type f); eauto using ext_prog, ext_map, ext_var. Qed.
  Lemma ftype_eqb_spec : forall a b, ftype_eqb a b = true <-> a = b.
  Proof. destruct a, b; cbn; split; congruence. Qed.

  Lemma assignValues_good : forall fs dn s, J [] s ->
    match assignValues fails sp repl s dn fs with
    | (s', l, Ok _) => J [] s' /\ ext s s' /\ Forall2 (field_ok s') fs l /\ NoDup (map (fun f => (f_type f, f_name f)) fs) /\ (forall f, In f fs -> ~ In (f_type f, f_name f) dn)
    | (s', l, Err _) => E s'
    end.
  Proof.
    induction fs as [|f fs IH]; intros dn s HJ; cbn [assignValues].
    - split; [auto|split; [apply ext_refl|split; [constructor|split; [constructor|contradiction]]]].
    - match goal with |- context [existsb ?g dn] => destruct (existsb g dn) eqn:Hex end; [eapply J_E; eauto|].
      assert (Hdn : ~ In (f_type f, f_name f) dn).
      { intros Hin. assert (existsb (fun e => ftype_eqb (fst e) (f_type f) && Nat.eqb (snd e) (f_name f)) dn = true); [|congruence]. apply existsb_exists. eexists. split; [exact Hin|]. cbn.
        apply andb_true_intro. split; [now apply ftype_eqb_spec|apply Nat.eqb_refl]. }
      assert (G : good [] s (loadField fails sp repl s (f_type f) (f_name f)) (fun s' o => field_ok s' f o)).
      { unfold loadField, field_ok. destruct (f_type f); [eapply good_weaken; [|apply loadProgram_good; auto]; cbn; tauto|now apply loadMap_good|now apply loadVariable_good]. }
      destruct (loadField fails sp repl s (f_type f) (f_name f)) as [s1 [o|e]]; [|exact G]. destruct G as (J1 & X1 & Ho).
      destruct (f_set f); [|eapply J_E; eauto].
      specialize (IH ((f_type f, f_name f) :: dn) s1 J1). destruct (assignValues fails sp repl s1 _ fs) as [[s2 l] [u|e]]; [|exact IH].
      destruct IH as (J2 & X2 & Hf & Hnd & Hni). split; auto. split; [eapply ext_trans; eauto|]. split; [constructor; auto; eapply field_ok_ext; eauto|]. split.
      + cbn. constructor; auto. intros Hin. apply in_map_iff in Hin. destruct Hin as (g & Hg & Hin). apply (Hni g Hin). rewrite Hg. now left.
      + intros g [<-|Hg]; auto. intros Hin. apply (Hni g Hg). now right.
  Qed.

  (** a program is created after the maps it needs *)
  Lemma prog_maps : forall d s n o ps i m, J d s -> In (n, o) (l_progs s) -> get (s_progs sp) n = Some ps -> In i (ps_insns ps) -> map_of i = Some m -> In m (map fst (l_maps s)).
  Proof.
    intros d s n o ps i m HJ Hin Hps Hi Hm. rewrite <- (J_progs _ _ HJ) in Hin. apply in_flat_map in Hin. destruct Hin as (e & He & Hin).
    destruct e as [| | |n' o' refs|]; cbn in Hin; try contradiction. destruct Hin as [Hin|[]]. injection Hin as -> ->.
    apply in_split in He. destruct He as (pre & post & He). pose proof (J_hist _ _ HJ pre _ post He) as (_ & _ & _ & _ & ps' & Hp1 & _ & Hf).
    rewrite Hps in Hp1. injection Hp1 as <-. assert (Hl : exists r, linked sp repl pre i r).
    { clear He. revert Hi. induction Hf as [|i' r' is rs Hl Hf IH]; intros Hi; [contradiction|]. destruct Hi as [->|Hi]; eauto. }
    destruct Hl as [r Hl].
    unfold linked in Hl. rewrite Hm in Hl. destruct Hl as (o1 & _ & Ho1 & _). rewrite <- (J_maps _ _ HJ), He, created_maps_app. apply (List.in_map fst) in Ho1. rewrite map_app. apply in_or_app. now left.
  Qed.
  Lemma needed_loaded : forall s f o, J [] s -> field_ok s f o -> incl (needed_by sp f) (map fst (l_maps s)).
  Proof.
    intros s f o HJ Ho m Hm. unfold needed_by, field_ok in *. destruct (f_type f).
    - destruct (get (s_progs sp) (f_name f)) as [ps|] eqn:Hp; [|contradiction]. apply in_flat_map in Hm. destruct Hm as (i & Hi & Hm). destruct (map_of i) as [m'|] eqn:Hmo; [|contradiction]. destruct Hm as [<-|[]]. eapply prog_maps; eauto.
    - destruct Hm as [<-|[]]. now apply (List.in_map fst) in Ho.
    - destruct (J_vars _ _ HJ _ _ Ho) as (sec & H1 & H2). rewrite H1 in Hm. destruct Hm as [<-|[]]. now apply (List.in_map fst) in H2.
  Qed.

  Lemma names_of_In : forall t fs n, In n (names_of t (map (fun f => (f_type f, f_name f)) fs)) <-> exists f, In f fs /\ f_type f = t /\ f_name f = n.
  Proof.
    intros t fs n. unfold names_of. rewrite in_map_iff. split.
    - intros ((t' & n') & <- & H). apply filter_In in H. destruct H as [H H1]. apply in_map_iff in H. destruct H as (f & H & Hf). injection H as <- <-. cbn in *. apply ftype_eqb_spec in H1. eauto.
    - intros (f & H & H1 & H2). exists (t, n). split; auto. apply filter_In. split; [apply in_map_iff; exists f; split; [congruence|auto]|now apply ftype_eqb_spec].
  Qed.
  Lemma owned_In : forall fs l o, In o (owned fs l) -> exists f, In f fs /\ f_type f <> FVar /\ In (f, o) (combine fs l).
  Proof.
    intros fs l o H. unfold owned in H. apply in_flat_map in H. destruct H as ((f & o') & H & H1). cbn in H1. exists f. split; [eapply in_combine_l; eauto|].
    destruct (f_type f); cbn in H1; try contradiction; destruct H1 as [<-|[]]; (split; [discriminate|auto]).
  Qed.
  Lemma owned_spec : forall s fs l, J [] s \/ (exists d, J d s) -> Forall2 (field_ok s) fs l -> NoDup (map (fun f => (f_type f, f_name f)) fs) ->
    NoDup (owned fs l) /\ (forall o, In o (owned fs l) <-> exists f, In f fs /\ f_type f <> FVar /\ field_ok s f o).
  Proof.
    intros s fs l HJ Hf ND. assert (HJ' : exists d, J d s) by (destruct HJ; eauto). clear HJ. destruct HJ' as [d HJ].
    pose proof (J_nodup _ _ HJ) as Hnd. apply NoDup_app_iff in Hnd. destruct Hnd as (Nm & Np & Nd).
    assert (Huniq : forall f g o, f_type f <> FVar -> f_type g <> FVar -> field_ok s f o -> field_ok s g o -> (f_type f, f_name f) = (f_type g, f_name g)).
    { intros f g o T1 T2 H1 H2. unfold field_ok in *. destruct (f_type f), (f_type g); try congruence.
      - f_equal. now apply (snd_inj _ _ _ _ Np H2).
      - exfalso. apply (List.in_map snd) in H1, H2. apply (Nd o H2 H1).
      - exfalso. apply (List.in_map snd) in H1, H2. apply (Nd o H1 H2).
      - f_equal. now apply (snd_inj _ _ _ _ Nm H2). }
    assert (Hone : forall f o o', f_type f <> FVar -> field_ok s f o -> field_ok s f o' -> o = o').
    { intros f o o' T H1 H2. unfold field_ok in *. destruct (f_type f); [|..|congruence].
      - pose proof (get_NoDup _ _ _ _ (J_nprogs _ _ HJ) H1). pose proof (get_NoDup _ _ _ _ (J_nprogs _ _ HJ) H2). congruence.
      - pose proof (get_NoDup _ _ _ _ (J_nmaps _ _ HJ) H1). pose proof (get_NoDup _ _ _ _ (J_nmaps _ _ HJ) H2). congruence. }
    induction Hf as [|f o fs l Ho Hf IH].
    - cbn. split; [constructor|]. split; [contradiction|]. intros (f & [] & _).
    - inversion ND; subst. specialize (IH H2). destruct IH as [IH1 IH2].
      assert (Hiff : forall x, (exists g, In g (f :: fs) /\ f_type g <> FVar /\ field_ok s g x) <-> (f_type f <> FVar /\ x = o) \/ In x (owned fs l)).
      { intros x. rewrite IH2. split.
        - intros (g & [<-|Hg] & T & Hx); [left; split; auto; eapply Hone; eauto|right; eauto].
        - intros [[T ->]|(g & Hg & T & Hx)]; [exists f; split; [now left|auto]|exists g; split; [now right|auto]]. }
      assert (Hn : f_type f <> FVar -> ~ In o (owned fs l)).
      { intros T Hin. apply IH2 in Hin. destruct Hin as (g & Hg & T' & Hx). apply H1. apply in_map_iff. exists g. split; auto. eapply Huniq; eauto. }
      unfold owned in *. cbn [combine flat_map fst snd]. destruct (f_type f) eqn:Ht; cbn [app].
      + split; [constructor; auto; apply Hn; discriminate|]. intros x. rewrite Hiff. cbn. split; [intros [<-|Hx]; [left; split; [discriminate|auto]|auto]|intros [[_ ->]|Hx]; auto].
      + split; [constructor; auto; apply Hn; discriminate|]. intros x. rewrite Hiff. cbn. split; [intros [<-|Hx]; [left; split; [discriminate|auto]|auto]|intros [[_ ->]|Hx]; auto].
      + split; auto. intros x. rewrite Hiff. split; [auto|]. intros [[T _]|Hx]; [congruence|auto].
  Qed.
End P.

(** ** C66: nothing leaks *)
Theorem newCollection_log : forall fails sp repl base os log r, NoDup (o_populate os) -> newCollection fails sp repl base os = (log, r) -> history sp repl base log.
Proof.
  intros fails sp repl base os log r ND H. unfold newCollection in H. pose proof (newLoader_good fails sp repl base) as G. destruct (newLoader fails sp repl base) as [s [u|e]].
  - destruct G as (HJ & _). pose proof (loadEverything_good fails sp repl base os s HJ ND) as G. destruct (loadEverything fails sp repl s os) as [s1 [u1|e1]].
    + destruct G as ((d & J1 & _) & _). injection H as <- <-. apply (J_hist _ _ _ _ _ J1).
    + injection H as <- <-. now apply close_history.
  - injection H as <- <-. rewrite G. apply history_nil.
Qed.
Theorem newCollection_error_closes : forall fails sp repl base os log e, NoDup (o_populate os) -> newCollection fails sp repl base os = (log, Err e) ->
  Permutation (closed log) (created log).
Proof.
  intros fails sp repl base os log r ND H. unfold newCollection in H. pose proof (newLoader_good fails sp repl base) as G. destruct (newLoader fails sp repl base) as [s [u|e]].
  - destruct G as (HJ & _). pose proof (loadEverything_good fails sp repl base os s HJ ND) as G. destruct (loadEverything fails sp repl s os) as [s1 [u1|e1]]; [discriminate|].
    assert (log = t_log (close s1)) by congruence. subst log. destruct (close_history _ _ _ _ G) as (_ & H1 & H2). now rewrite H2.
  - injection H as <- <-. rewrite G. constructor.
Qed.
Theorem newCollection_success_owns : forall fails sp repl base os log progs maps vars, NoDup (o_populate os) ->
  newCollection fails sp repl base os = (log, Ok (progs, maps, vars)) ->
  closed log = [] /\ maps = created_maps log /\ progs = created_progs log /\ NoDup (map snd maps ++ map snd progs) /\ NoDup (map fst maps) /\ NoDup (map fst progs).
Proof.
  intros fails sp repl base os log progs maps vars ND H. unfold newCollection in H. pose proof (newLoader_good fails sp repl base) as G. destruct (newLoader fails sp repl base) as [s [u|e]]; [|discriminate].
  destruct G as (HJ & _). pose proof (loadEverything_good fails sp repl base os s HJ ND) as G. destruct (loadEverything fails sp repl s os) as [s1 [u1|e1]]; [|discriminate].
  destruct G as ((d & J1 & _) & _). injection H as <- <- <- <-. destruct J1. auto 10.
Qed.

(** what the history says about every prefix: objects are created once, closed at most once and objects of the user never *)
Lemma history_prefix : forall sp repl base a b, history sp repl base (a ++ b) -> history sp repl base a.
Proof. intros sp repl base a b H pre e post E. apply (H pre e (post ++ b)). now rewrite E, <- app_assoc. Qed.
Lemma created_snoc : forall log e, created (log ++ [e]) = map snd (created_maps log ++ created_maps [e]) ++ map snd (created_progs log ++ created_progs [e]).
Proof. intros. unfold created. now rewrite created_maps_app, created_progs_app. Qed.
Theorem history_once : forall sp repl base log, history sp repl base log ->
  NoDup (created log) /\ NoDup (closed log) /\ NoDup (finalized log) /\ incl (closed log) (created log) /\
  NoDup (map fst (created_maps log)) /\ NoDup (map fst (created_progs log)) /\ (forall o, In o (created log) -> base <= o).
Proof.
  intros sp repl base log. induction log as [|e log IH] using rev_ind; intros H.
  - cbn. repeat split; auto using NoDup_nil; try contradiction. intros x [].
  - specialize (IH (history_prefix _ _ _ _ _ H)). destruct IH as (I1 & I2 & I3 & I4 & I5 & I6 & I7).
    specialize (H log e [] eq_refl). rewrite created_snoc, !map_app, closed_app, finalized_app, created_maps_app, created_progs_app, !map_app.
    assert (Hsn : forall A (l : list A) a, NoDup l -> ~ In a l -> NoDup (l ++ [a])) by (intros A l a N1 N2; apply (NoDup_Add (Add_app a l [])); rewrite app_nil_r; auto).
    assert (Hmap : forall o, base <= o -> ~ In o (created log) -> NoDup ((map snd (created_maps log) ++ [o]) ++ map snd (created_progs log)) /\ (forall x, In x ((map snd (created_maps log) ++ [o]) ++ map snd (created_progs log)) -> base <= x) /\ incl (created log) ((map snd (created_maps log) ++ [o]) ++ map snd (created_progs log))).
    { intros o Ho Hni. rewrite <- app_assoc. cbn. split; [apply (NoDup_Add (Add_app o _ _)); split; auto|]. split.
      - intros x Hx. apply in_app_or in Hx. destruct Hx as [Hx|[<-|Hx]]; [apply I7, in_or_app; auto|auto|apply I7, in_or_app; auto].
      - intros x Hx. apply in_app_or in Hx. apply in_or_app. cbn. intuition. }
    destruct e as [n o|n src o|o c|n o refs|o]; cbn [created_maps created_progs closed finalized flat_map map fst snd app]; rewrite ?app_nil_r.
    + destruct H as (H1 & H2 & H3 & H4 & _). destruct (Hmap o H2 H3) as (M1 & M2 & M3). repeat split; auto. intros x Hx; auto.
    + destruct H as (H1 & H2 & H3 & H4 & _). destruct (Hmap o H2 H3) as (M1 & M2 & M3). repeat split; auto. intros x Hx; auto.
    + destruct H as (H1 & H2 & _). repeat split; auto.
    + destruct H as (H1 & H2 & H3 & H4 & _). rewrite app_assoc. repeat split; auto.
      * intros x Hx. apply in_or_app. left. now apply I4.
      * intros x Hx. apply in_app_or in Hx. destruct Hx as [Hx|[<-|[]]]; auto.
    + destruct H as (H1 & H2). repeat split; auto. intros x Hx. apply in_app_or in Hx. destruct Hx as [Hx|[<-|[]]]; auto.
Qed.

(** ** C68: every map is populated exactly once by NewCollection *)
(** the orders are orders of the Go maps of the spec; cl.maps doesn't grow while it is populated *)
Theorem newCollection_complete : forall fails sp repl base os log progs maps vars,
  Permutation (o_maps os) (map fst (s_maps sp)) -> Permutation (o_progs os) (map fst (s_progs sp)) -> Permutation (o_vars os) (map fst (s_vars sp)) ->
  Permutation (o_populate os) (map fst (s_maps sp)) -> NoDup (map fst (s_maps sp)) ->
  newCollection fails sp repl base os = (log, Ok (progs, maps, vars)) ->
  Permutation (map fst maps) (map fst (s_maps sp)) /\
  (forall n, In n (map fst progs) <-> exists ps, get (s_progs sp) n = Some ps /\ ps_unspec ps = false) /\
  (forall n, In n (map fst (s_vars sp)) -> In n (map fst vars)) /\
  (forall n o, In (n, o) maps -> (In o (finalized log) <-> ~ (get repl n <> None /\ exists ms, get (s_maps sp) n = Some ms /\ ms_kind ms = Scalar))) /\
  NoDup (finalized log).
Proof.
  intros fails sp repl base os log progs maps vars Pm Pp Pv Po ND H.
  assert (NDo : NoDup (o_populate os)) by (eapply Permutation_NoDup; [symmetry; exact Po|auto]).
  pose proof (newCollection_log _ _ _ _ _ _ _ NDo H) as Hh. unfold newCollection in H. pose proof (newLoader_good fails sp repl base) as G. destruct (newLoader fails sp repl base) as [s [u|e]]; [|discriminate].
  destruct G as (HJ & _). pose proof (loadEverything_good fails sp repl base os s HJ NDo) as G. destruct (loadEverything fails sp repl s os) as [s1 [u1|e1]]; [|discriminate].
  destruct G as ((d & J1 & Hd) & X & Hm & Hp & Hv). injection H as <- <- <- <-. destruct J1.
  split; [|split; [|split; [|split]]].
  - apply NoDup_Permutation; auto. intros n. split.
    + intros Hn. apply in_map_iff in Hn. destruct Hn as ((a & b) & <- & Hn). cbn. apply J_spec0 in Hn. destruct (get (s_maps sp) a) eqn:Ha; [|congruence]. apply get_In in Ha. now apply (List.in_map fst) in Ha.
    + intros Hn. destruct (Hm n) as [o Ho]; [eapply Permutation_in; [symmetry; exact Pm|exact Hn]|]. now apply (List.in_map fst) in Ho.
  - intros n. split.
    + intros Hn. apply in_map_iff in Hn. destruct Hn as ((a & b) & <- & Hn). cbn. eauto.
    + intros (ps & H1 & H2). destruct (Hp n) as [o Ho]; [|unfold typed; now rewrite H1, H2|now apply (List.in_map fst) in Ho].
      eapply Permutation_in; [symmetry; exact Pp|]. apply get_In in H1. now apply (List.in_map fst) in H1.
  - intros n Hn. destruct (Hv n) as [o Ho]; [eapply Permutation_in; [symmetry; exact Pv|exact Hn]|]. now apply (List.in_map fst) in Ho.
  - intros n o Hin. pose proof (J_spec0 _ _ Hin) as Hs. destruct (get (s_maps sp) n) as [ms|] eqn:Hg; [|congruence].
    assert (Hn : In n (map fst (s_maps sp))) by (apply get_In in Hg; now apply (List.in_map fst) in Hg).
    split.
    + intros Hf [H1 (ms' & H2 & H3)]. injection H2 as <-. apply J_fin0 in Hf. destruct Hf as (m & Hm' & Hc).
      assert (m = n) by (eapply snd_inj; eauto using NoDup_left). subst m. destruct Hc as [[_ (ms' & H4 & H5)]|[H4 _]]; congruence.
    + intros Hc. destruct (get repl n) eqn:Hr.
      * apply (J_done0 n o Hin).
        -- apply Hd; eapply Permutation_in; [symmetry; exact Po|auto|symmetry; exact Pm|auto].
        -- exists ms. split; auto. intros Hk. apply Hc. split; [discriminate|eauto].
      * destruct (ms_kind ms) eqn:Hk; [apply (J_early0 n o Hin); split; eauto| | |]; (apply (J_done0 n o Hin); [apply Hd; eapply Permutation_in; [symmetry; exact Po|auto|symmetry; exact Pm|auto]|exists ms; split; auto; congruence]).
  - now apply history_once in Hh.
Qed.

(** ** LoadAndAssign *)
(** what a successful call looks like before the objects which aren't assigned are closed *)
Lemma loadAndAssign_ok : forall fails sp repl base fs order log l u, NoDup order -> loadAndAssign fails sp repl base fs order = (log, l, Ok u) ->
  exists d s0 s, J sp repl base [] s0 /\ ext s0 s /\ J sp repl base d s /\ (forall n, In n order -> In n (map fst (l_maps s0)) -> In n d) /\
    Forall2 (field_ok s0) fs l /\ NoDup (map (fun f => (f_type f, f_name f)) fs) /\ unassigned sp fs s = [] /\
    let as_ := map (fun f => (f_type f, f_name f)) fs in
    log = t_log s ++ map EClose (map snd (removeAll (l_maps s) (names_of FMap as_)) ++ map snd (removeAll (l_progs s) (names_of FProg as_))).
Proof.
  intros fails sp repl base fs order log l u ND H. unfold loadAndAssign in H. pose proof (newLoader_good fails sp repl base) as G. destruct (newLoader fails sp repl base) as [s [u0|e]]; [|discriminate].
  destruct G as (HJ & _). pose proof (assignValues_good fails sp repl base fs [] s HJ) as G. destruct (assignValues fails sp repl s [] fs) as [[s1 l1] [u1|e]]; [|discriminate].
  destruct G as (J1 & X1 & Hf & Hnd & _). pose proof (populate_good fails sp repl base order [] s1 J1) as G. rewrite app_nil_r in G. specialize (G ND).
  destruct (populate fails sp repl s1 order) as [s2 [u2|e]]; [|discriminate]. destruct G as ((d & J2 & _ & Hd) & X2).
  destruct (unassigned sp fs s2) eqn:Hu; [|discriminate]. exists d, s1, s2. injection H as <- <-. unfold close. cbn [t_log l_maps l_progs]. rewrite <- map_app. auto 10.
Qed.
Lemma loadAndAssign_err : forall fails sp repl base fs order log l e, NoDup order -> loadAndAssign fails sp repl base fs order = (log, l, Err e) ->
  exists s, E sp repl base s /\ (log = t_log (close s)).
Proof.
  intros fails sp repl base fs order log l e ND H. unfold loadAndAssign in H. pose proof (newLoader_good fails sp repl base) as G. destruct (newLoader fails sp repl base) as [s [u0|e0]].
  - destruct G as (HJ & _). pose proof (assignValues_good fails sp repl base fs [] s HJ) as G. destruct (assignValues fails sp repl s [] fs) as [[s1 l1] [u1|e1]].
    + destruct G as (J1 & X1 & Hf & Hnd & _). pose proof (populate_good fails sp repl base order [] s1 J1) as G. rewrite app_nil_r in G. specialize (G ND).
      destruct (populate fails sp repl s1 order) as [s2 [u2|e2]].
      * destruct G as ((d & J2 & _ & Hd) & X2). destruct (unassigned sp fs s2) eqn:Hu; [discriminate|]. exists s2. split; [eapply J_E; eauto|congruence].
      * exists s2. split; auto. congruence.
    + exists s1. split; auto. congruence.
  - exists (mkSt 0 base [] [] [] []). split; [eapply J_E, J_init; exact fails|]. cbn. congruence.
Qed.
Lemma removed_NoDup : forall sp repl base d s ms ps, J sp repl base d s -> NoDup (map snd (removeAll (l_maps s) ms) ++ map snd (removeAll (l_progs s) ps)).
Proof.
  intros sp repl base d s ms ps HJ. pose proof (J_nodup _ _ _ _ _ HJ) as H. apply NoDup_app_iff in H. destruct H as (H1 & H2 & H3). apply NoDup_app_iff. split; [now apply NoDup_removeAll|]. split; [now apply NoDup_removeAll|].
  intros x Hx Hy. apply in_map_iff in Hx, Hy. destruct Hx as (e & <- & Hx), Hy as (e' & He & Hy). apply In_removeAll in Hx, Hy. apply (H3 (snd e)); [apply List.in_map; tauto|rewrite <- He; apply List.in_map; tauto].
Qed.
Theorem loadAndAssign_log : forall fails sp repl base fs order log l r, NoDup order -> loadAndAssign fails sp repl base fs order = (log, l, r) -> history sp repl base log.
Proof.
  intros fails sp repl base fs order log l [u|e] ND H.
  - destruct (loadAndAssign_ok _ _ _ _ _ _ _ _ _ ND H) as (d & s0 & s & J0 & X & J1 & Hd & Hf & Hnd & Hu & ->). apply closes_history; [apply (J_hist _ _ _ _ _ J1)| |].
    + rewrite (J_closed _ _ _ _ _ J1). cbn. eapply removed_NoDup; eauto.
    + intros x Hx. rewrite (J_created _ _ _ _ _ J1). apply in_app_or in Hx. apply in_or_app. destruct Hx as [Hx|Hx]; [left|right]; apply in_map_iff in Hx; destruct Hx as (e & <- & Hx); apply In_removeAll in Hx; apply List.in_map; tauto.
  - destruct (loadAndAssign_err _ _ _ _ _ _ _ _ _ ND H) as (s & He & ->). now apply close_history.
Qed.
Theorem loadAndAssign_error_closes : forall fails sp repl base fs order log l e, NoDup order -> loadAndAssign fails sp repl base fs order = (log, l, Err e) ->
  Permutation (closed log) (created log).
Proof.
  intros fails sp repl base fs order log l e ND H. destruct (loadAndAssign_err _ _ _ _ _ _ _ _ _ ND H) as (s & He & ->). destruct (close_history _ _ _ _ He) as (_ & H1 & H2). now rewrite H2.
Qed.
(** a field which has been set *)
Definition assigned (sp : spec) (log : list event) (f : field) (o : obj) : Prop :=
  match f_type f with
  | FProg => In (f_name f, o) (created_progs log)
  | FMap => In (f_name f, o) (created_maps log)
  | FVar => exists sec, get (s_vars sp) (f_name f) = Some sec /\ In (sec, o) (created_maps log)
  end.
Lemma created_maps_log : forall log l, created_maps (log ++ map EClose l) = created_maps log.
Proof. intros. now rewrite created_maps_app, created_maps_closes, app_nil_r. Qed.
Lemma created_progs_log : forall log l, created_progs (log ++ map EClose l) = created_progs log.
Proof. intros. now rewrite created_progs_app, created_progs_closes, app_nil_r. Qed.
Theorem loadAndAssign_success_owns : forall fails sp repl base fs order log l u, NoDup order -> loadAndAssign fails sp repl base fs order = (log, l, Ok u) ->
  Forall2 (assigned sp log) fs l /\ Permutation (created log) (closed log ++ owned fs l) /\ NoDup (map (fun f => (f_type f, f_name f)) fs).
Proof.
  intros fails sp repl base fs order log l u ND H. pose proof (loadAndAssign_log _ _ _ _ _ _ _ _ _ ND H) as Hh.
  destruct (loadAndAssign_ok _ _ _ _ _ _ _ _ _ ND H) as (d & s0 & s & J0 & X & J1 & Hd & Hf & Hnd & Hu & Hlog).
  assert (Hf' : Forall2 (field_ok s) fs l) by (eapply Forall2_impl; [|exact Hf]; intros; eapply field_ok_ext; eauto).
  split; [|split; auto].
  - eapply Forall2_impl; [|exact Hf']. intros f o Ho. unfold assigned, field_ok in *. rewrite Hlog, created_maps_log, created_progs_log, (J_maps _ _ _ _ _ J1), (J_progs _ _ _ _ _ J1).
    destruct (f_type f); auto. apply (J_vars _ _ _ _ _ J1 _ _ Ho).
  - destruct (owned_spec sp repl base s fs l (or_intror (ex_intro _ d J1)) Hf' Hnd) as [O1 O2].
    assert (Hcl : closed log = map snd (removeAll (l_maps s) (names_of FMap (map (fun f => (f_type f, f_name f)) fs))) ++ map snd (removeAll (l_progs s) (names_of FProg (map (fun f => (f_type f, f_name f)) fs)))).
    { rewrite Hlog, closed_app, (J_closed _ _ _ _ _ J1), closed_closes. reflexivity. }
    assert (Hcr : created log = map snd (l_maps s) ++ map snd (l_progs s)). { rewrite Hlog, created_closes. eapply J_created; eauto. }
    pose proof (J_nodup _ _ _ _ _ J1) as Nd. pose proof Nd as Nd'. apply NoDup_app_iff in Nd'. destruct Nd' as (Nm & Np & Nx).
    assert (Hcin : forall x, In x (closed log) <-> (exists n, In (n, x) (l_maps s) /\ ~ exists f, In f fs /\ f_type f = FMap /\ f_name f = n) \/ (exists n, In (n, x) (l_progs s) /\ ~ exists f, In f fs /\ f_type f = FProg /\ f_name f = n)).
    { intros x. rewrite Hcl, in_app_iff, !in_map_iff. split.
      - intros [((n & o) & <- & Hx)|((n & o) & <- & Hx)]; apply In_removeAll in Hx; rewrite names_of_In in Hx; cbn in *; [left|right]; exists n; auto.
      - intros [(n & Hx & Hn)|(n & Hx & Hn)]; [left|right]; exists (n, x); (split; [reflexivity|]); apply In_removeAll; rewrite names_of_In; auto. }
    apply NoDup_Permutation.
    + now rewrite Hcr.
    + apply NoDup_app_iff. split; [rewrite Hcl; eapply removed_NoDup; eauto|]. split; auto. intros x Hx Hy. apply O2 in Hy. destruct Hy as (f & Hfi & T & Hok). apply Hcin in Hx. unfold field_ok in Hok.
      destruct (f_type f) eqn:Ht; [| |congruence]; destruct Hx as [(n & Hx & Hn)|(n & Hx & Hn)].
      * apply (Nx x); [now apply (List.in_map snd) in Hx|now apply (List.in_map snd) in Hok].
      * apply Hn. exists f. split; auto. split; auto. now apply (snd_inj _ _ _ _ Np Hx).
      * apply Hn. exists f. split; auto. split; auto. now apply (snd_inj _ _ _ _ Nm Hx).
      * apply (Nx x); [now apply (List.in_map snd) in Hok|now apply (List.in_map snd) in Hx].
    + intros x. rewrite in_app_iff, Hcin, O2, Hcr, in_app_iff, !in_map_iff. split.
      * intros [((n & o) & <- & Hx)|((n & o) & <- & Hx)]; cbn.
        -- destruct (in_dec Nat.eq_dec n (names_of FMap (map (fun f => (f_type f, f_name f)) fs))) as [Hi|Hi]; rewrite names_of_In in Hi.
           ++ right. destruct Hi as (f & F1 & F2 & F3). exists f. split; auto. split; [congruence|]. unfold field_ok. now rewrite F2, F3.
           ++ left. left. exists n. auto.
        -- destruct (in_dec Nat.eq_dec n (names_of FProg (map (fun f => (f_type f, f_name f)) fs))) as [Hi|Hi]; rewrite names_of_In in Hi.
           ++ right. destruct Hi as (f & F1 & F2 & F3). exists f. split; auto. split; [congruence|]. unfold field_ok. now rewrite F2, F3.
           ++ left. right. exists n. auto.
      * intros [[(n & Hx & _)|(n & Hx & _)]|(f & F1 & F2 & F3)].
        -- left. now exists (n, x).
        -- right. now exists (n, x).
        -- unfold field_ok in F3. destruct (f_type f); [right|left|congruence]; eexists; (split; [|exact F3]); reflexivity.
Qed.
(** the maps which the fields need have their contents, and program arrays with contents are assigned *)
Theorem loadAndAssign_populated : forall fails sp repl base fs order log l u, NoDup order -> incl (flat_map (needed_by sp) fs) order ->
  loadAndAssign fails sp repl base fs order = (log, l, Ok u) ->
  (forall n, In n (flat_map (needed_by sp) fs) -> exists o, In (n, o) (created_maps log) /\
     (In o (finalized log) <-> ~ (get repl n <> None /\ exists ms, get (s_maps sp) n = Some ms /\ ms_kind ms = Scalar))) /\
  (forall n o ms, In (n, o) (created_maps log) -> get (s_maps sp) n = Some ms -> ms_kind ms = OfProgs -> ms_contents ms <> [] -> In (FMap, n) (map (fun f => (f_type f, f_name f)) fs)).
Proof.
  intros fails sp repl base fs order log l u ND Hinc H.
  destruct (loadAndAssign_ok _ _ _ _ _ _ _ _ _ ND H) as (d & s0 & s & J0 & X & J1 & Hd & Hf & Hnd & Hu & Hlog). split.
  - intros n Hn. assert (Hn0 : In n (map fst (l_maps s0))).
    { apply in_flat_map in Hn. destruct Hn as (f & Hfi & Hn). clear - Hf J0 Hfi Hn. induction Hf as [|g o fs l Ho Hf IH]; [contradiction|]. destruct Hfi as [->|Hfi]; [eapply needed_loaded; eauto|auto]. }
    pose proof Hn0 as Hn1. apply in_map_iff in Hn1. destruct Hn1 as ((n' & o) & Hno & Hin). cbn in Hno. subst n'. exists o. pose proof (ext_map _ _ _ X Hin) as Hin1.
    rewrite Hlog, created_maps_log, finalized_app, finalized_closes, app_nil_r, (J_maps _ _ _ _ _ J1). split; auto.
    assert (Hndd : In n d) by auto. pose proof (J_spec _ _ _ _ _ J1 _ _ Hin1) as Hs. destruct (get (s_maps sp) n) as [ms|] eqn:Hg; [|congruence]. split.
    + intros Hfin [Hr (ms' & H2 & H3)]. injection H2 as <-. apply (J_fin _ _ _ _ _ J1) in Hfin. destruct Hfin as (m & Hm & Hc).
      assert (m = n) by (eapply snd_inj; [eapply NoDup_left, (J_nodup _ _ _ _ _ J1)| |]; eauto). subst m. destruct Hc as [[_ (ms' & H4 & H5)]|[H4 _]]; congruence.
    + intros Hc. destruct (ms_kind ms) eqn:Hk; [|apply (J_done _ _ _ _ _ J1 n o Hin1 Hndd); exists ms; split; auto; congruence..].
      apply (J_early _ _ _ _ _ J1 n o Hin1). split; [|eauto]. destruct (get repl n) eqn:Hr; auto. exfalso. apply Hc. split; [discriminate|eauto].
  - intros n o ms Hin Hg Hk Hc. rewrite Hlog, created_maps_log, (J_maps _ _ _ _ _ J1) in Hin. unfold unassigned in Hu.
    destruct (existsb (fun f => ftype_eqb (f_type f) FMap && Nat.eqb (f_name f) n) fs) eqn:Hex.
    + apply existsb_exists in Hex. destruct Hex as (f & Hfi & Hex). apply andb_prop in Hex. destruct Hex as [E1 E2]. apply ftype_eqb_spec in E1. apply Nat.eqb_eq in E2. apply in_map_iff. exists f. split; [congruence|auto].
    + assert (In (n, o) []); [|contradiction]. rewrite <- Hu. apply filter_In. split; auto. cbn [fst]. rewrite Hex, Hg, Hk. cbn. destruct (ms_contents ms); [congruence|reflexivity].
Qed.
