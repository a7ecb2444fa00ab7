(** C56: CORERelocate returns one fixup per relocation, in order; relocations of the same type are solved together.
    C57: relocations of enum values and of types. *)
From Coq Require Import ZArith List Lia Bool Permutation.
From Verif.Base Require Import GoInt.
From Verif.Btf Require Import Names Types TypesSpec TypesProof PropsTypes.
From Verif.Core Require Import Fixup PropsFixup Compat CompatSpec CompatProof PropsCompat Field FieldSpec FieldProof PropsField Relocate.
Import ListNotations.
Open Scope Z_scope.

(** *** Specification *)
(** the relocations which are solved together with one of type t *)
Definition together (t : ref) (r : relo) : bool := negb (r_kind r =? reloTypeIDLocal) && (if ref_eq_dec (r_type r) t then true else false).
(** all types with a given essential name, target by target *)
Definition types_named (targets : list target_spec) (name : str) : list ref :=
  concat (map (fun t => match ts_by_name t name with FoundTypes l => l | _ => [] end) targets).

(** *** Splitting *)
Fixpoint sel (t : ref) (i : nat) (relos : list relo) : list (relo * nat) :=
  match relos with
  | [] => []
  | r :: rs => if together t r then (r, i) :: sel t (S i) rs else sel t (S i) rs
  end.
Fixpoint look (t : ref) (gs : list rgroup) : list (relo * nat) :=
  match gs with
  | [] => []
  | (t', l) :: gs' => if ref_eq_dec t' t then l else look t gs'
  end.
Lemma look_add t x gs t' : look t' (add_relo t x gs) = if ref_eq_dec t t' then look t' gs ++ [x] else look t' gs.
Proof.
  induction gs as [|(u, l) gs IH]; cbn [add_relo look].
  - destruct (ref_eq_dec t t'); reflexivity.
  - destruct (ref_eq_dec u t) as [->|N]; cbn [look].
    + destruct (ref_eq_dec t t'); reflexivity.
    + destruct (ref_eq_dec u t') as [->|N']; [destruct (ref_eq_dec t t'); congruence|exact IH].
Qed.
Lemma keys_add t x gs : forall k, In k (map fst (add_relo t x gs)) <-> k = t \/ In k (map fst gs).
Proof.
  intros k. induction gs as [|(u, l) gs IH]; cbn [add_relo map fst In].
  - intuition.
  - destruct (ref_eq_dec u t) as [->|N]; cbn [map fst In]; [|rewrite IH]; intuition.
Qed.
Lemma add_nodup t x gs : NoDup (map fst gs) -> NoDup (map fst (add_relo t x gs)).
Proof.
  induction gs as [|(u, l) gs IH]; cbn [add_relo map fst]; intros N; [constructor; [auto|constructor]|]. inversion N as [|? ? A B]; subst. destruct (ref_eq_dec u t) as [->|Nu]; cbn [map fst]; constructor; auto.
  rewrite keys_add. intros [X|X]; congruence.
Qed.
Lemma set_nth_len {A} n (x : A) l : length (set_nth n x l) = length l.
Proof. unfold set_nth. destruct (Nat.ltb_spec n (length l)); [|reflexivity]. rewrite app_length, firstn_length. cbn [length]. rewrite skipn_length. lia. Qed.
Lemma set_nth_same {A} n (x : A) l : (n < length l)%nat -> nth_error (set_nth n x l) n = Some x.
Proof. intros H. unfold set_nth. destruct (Nat.ltb_spec n (length l)); [|lia]. rewrite nth_error_app2 by (rewrite firstn_length; lia). rewrite firstn_length, Nat.min_l, Nat.sub_diag by lia. reflexivity. Qed.
Lemma nth_error_firstn {A} n : forall k (l : list A), (k < n)%nat -> nth_error (firstn n l) k = nth_error l k.
Proof. induction n as [|n IH]; intros k l H; [lia|]. destruct l, k; cbn; auto. apply IH. lia. Qed.
Lemma nth_error_skipn {A} n : forall k (l : list A), nth_error (skipn n l) k = nth_error l (n + k).
Proof. induction n as [|n IH]; intros k l; [reflexivity|]. destruct l; cbn; [destruct k; reflexivity|apply IH]. Qed.
Lemma set_nth_other {A} n (x : A) l k : k <> n -> nth_error (set_nth n x l) k = nth_error l k.
Proof.
  intros H. unfold set_nth. destruct (Nat.ltb_spec n (length l)); [|reflexivity]. destruct (Nat.lt_ge_cases k n).
  - rewrite nth_error_app1 by (rewrite firstn_length; lia). apply nth_error_firstn. lia.
  - rewrite nth_error_app2 by (rewrite firstn_length; lia). rewrite firstn_length, Nat.min_l by lia. destruct (k - n)%nat as [|j] eqn:J; [lia|]. cbn [nth_error]. rewrite nth_error_skipn. f_equal. lia.
Qed.
Lemma split_spec resolveLocal : forall relos i gs result gs' result', split_relos resolveLocal i relos gs result = Ok (gs', result') -> NoDup (map fst gs) -> (forall t l, In (t, l) gs -> l <> []) -> (i + length relos <= length result)%nat ->
  NoDup (map fst gs') /\ (forall t l, In (t, l) gs' -> l <> []) /\ (forall t, look t gs' = look t gs ++ sel t i relos) /\ length result' = length result /\
  (forall k r, nth_error relos k = Some r -> r_kind r = reloTypeIDLocal -> exists id, resolveLocal (r_type r) = Some id /\ nth_error result' (i + k) = Some (mkFixup (r_kind r) (r_id r) id false false)) /\
  (forall j, (j < i)%nat -> nth_error result' j = nth_error result j).
Proof.
  induction relos as [|r relos IH]; intros i gs result gs' result' E N Ne Ln; cbn [split_relos] in E.
  - inversion E; subst. repeat split; auto; [intros t; cbn; now rewrite app_nil_r|]. intros [|k] r X; discriminate X.
  - cbn [length] in Ln. destruct (Z.eqb_spec (r_kind r) reloTypeIDLocal) as [K|K].
    + destruct (bad_accessor r); [discriminate E|]. destruct (resolveLocal (r_type r)) as [id|] eqn:R; [|discriminate E]. apply IH in E; auto; [|rewrite set_nth_len; lia]. destruct E as (A & B & C & D & F & G).
      split; [exact A|]. split; [exact B|]. split; [intros t; rewrite C; f_equal; cbn [sel]; unfold together at 1; rewrite K; reflexivity|]. split; [rewrite D; apply set_nth_len|]. split.
      * intros [|k] r' X L; cbn [nth_error] in X.
        -- inversion X; subst r'. exists id. split; [exact R|]. rewrite Nat.add_0_r, G by lia. apply set_nth_same. lia.
        -- rewrite Nat.add_succ_r. exact (F k r' X L).
      * intros j J. rewrite G by lia. apply set_nth_other. lia.
    + apply IH in E; [|apply add_nodup; exact N| |lia].
      * destruct E as (A & B & C & D & F & G). split; [exact A|]. split; [exact B|]. split.
        { intros t. rewrite C, look_add. cbn [sel]. unfold together at 1. destruct (Z.eqb_spec (r_kind r) reloTypeIDLocal); [contradiction|]. cbn [negb andb]. destruct (ref_eq_dec (r_type r) t); [now rewrite <- app_assoc|reflexivity]. }
        split; [exact D|]. split; [|intros j J; apply G; lia]. intros [|k] r' X L; cbn [nth_error] in X; [congruence|]. rewrite Nat.add_succ_r. exact (F k r' X L).
      * clear -Ne. induction gs as [|(u, l) gs IH]; cbn [add_relo]; intros t l' I.
        -- destruct I as [X|[]]. inversion X; subst. discriminate.
        -- destruct (ref_eq_dec u (r_type r)).
           ++ destruct I as [X|I]; [inversion X; subst; destruct l; discriminate|]. apply (Ne t l'). now right.
           ++ destruct I as [X|I]; [inversion X; subst; apply (Ne t l'); now left|]. eapply IH; [|exact I]. intros t0 l0 I0. apply (Ne t0 l0). now right.
Qed.
Lemma look_in gs : NoDup (map fst gs) -> forall t l, In (t, l) gs -> look t gs = l.
Proof.
  induction gs as [|(u, m) gs IH]; cbn [map fst look]; intros N t l I; [destruct I|]. inversion N as [|? ? A B]; subst. destruct I as [X|I].
  - inversion X; subst. destruct (ref_eq_dec t t); congruence.
  - destruct (ref_eq_dec u t) as [->|]; [|auto]. exfalso. apply A. change t with (fst (t, l)). now apply in_map.
Qed.
Lemma in_look gs t : look t gs <> [] -> In (t, look t gs) gs.
Proof. induction gs as [|(u, m) gs IH]; cbn [look]; [congruence|]. destruct (ref_eq_dec u t) as [->|]; [now left|intros H; right; auto]. Qed.
Lemma sel_in t : forall relos i r j, In (r, j) (sel t i relos) -> (i <= j)%nat /\ nth_error relos (j - i) = Some r /\ together t r = true.
Proof.
  induction relos as [|r0 relos IH]; intros i r j I; cbn [sel] in I; [destruct I|].
  assert (R : In (r, j) (sel t (S i) relos) -> (i <= j)%nat /\ nth_error (r0 :: relos) (j - i) = Some r /\ together t r = true).
  { intros H. destruct (IH _ _ _ H) as (A & B & C). split; [lia|]. replace (j - i)%nat with (S (j - S i)) by lia. auto. }
  destruct (together t r0) eqn:T; [|auto]. destruct I as [X|I]; [|auto]. inversion X; subst. rewrite Nat.sub_diag. auto.
Qed.
Lemma sel_nodup t : forall relos i, NoDup (map snd (sel t i relos)).
Proof.
  induction relos as [|r relos IH]; intros i; cbn [sel]; [constructor|]. destruct (together t r); [|auto]. cbn [map snd]. constructor; [|auto]. intros I. apply in_map_iff in I. destruct I as ((r', j) & E & I). cbn in E. subst j. apply sel_in in I. lia.
Qed.
Lemma sel_fst t : forall relos i, map fst (sel t i relos) = filter (together t) relos.
Proof. induction relos as [|r relos IH]; intros i; cbn [sel filter]; [reflexivity|]. destruct (together t r); cbn [map fst]; rewrite IH; reflexivity. Qed.
Lemma sel_nth t : forall relos i k r, nth_error relos k = Some r -> together t r = true -> nth_error (sel t i relos) (length (filter (together t) (firstn k relos))) = Some (r, (i + k)%nat).
Proof.
  induction relos as [|r0 relos IH]; intros i [|k] r E T; cbn [nth_error] in E; try discriminate E; cbn [sel firstn filter].
  - inversion E; subst. rewrite T. cbn. now rewrite Nat.add_0_r.
  - destruct (together t r0); cbn [length nth_error]; rewrite (IH (S i) k r E T); f_equal; f_equal; lia.
Qed.

(** *** Solving *)
Lemma write_len : forall g fs result, length (write_fixups g fs result) = length result.
Proof. induction g as [|(r, i) g IH]; intros [|f fs] result; cbn [write_fixups]; auto. rewrite IH. apply set_nth_len. Qed.
Lemma write_other : forall g fs result j, ~ In j (map snd g) -> nth_error (write_fixups g fs result) j = nth_error result j.
Proof.
  induction g as [|(r, i) g IH]; intros [|f fs] result j N; cbn [write_fixups]; auto. cbn [map snd In] in N. rewrite IH by tauto. apply set_nth_other. intros ->. tauto.
Qed.
Lemma write_at : forall g fs result k r i, NoDup (map snd g) -> length fs = length g -> nth_error g k = Some (r, i) -> (i < length result)%nat -> nth_error (write_fixups g fs result) i = nth_error fs k.
Proof.
  induction g as [|(r0, i0) g IH]; intros [|f fs] result [|k] r i N L E H; cbn [nth_error length] in *; try discriminate; cbn [write_fixups]; inversion N as [|? ? A B]; subst.
  - inversion E; subst. rewrite write_other by exact A. apply set_nth_same. exact H.
  - eapply IH; eauto. rewrite set_nth_len. exact H.
Qed.
Lemma candidates_spec targets name ts : candidates name targets = Some ts -> ts = types_named targets name /\ forall t, In t targets -> ts_by_name t name <> LookupFailed.
Proof.
  revert ts. induction targets as [|t targets IH]; intros ts E; cbn [candidates] in E.
  - inversion E. split; [reflexivity|intros ? []].
  - unfold types_named. cbn [map concat]. destruct (ts_by_name t name) eqn:L; [| |discriminate E].
    + destruct (candidates name targets) as [l'|]; [|discriminate E]. inversion E; subst. destruct (IH _ eq_refl) as (-> & H). split; [reflexivity|]. intros u [<-|I]; [congruence|auto].
    + destruct (IH _ E) as (-> & H). split; [reflexivity|]. intros u [<-|I]; [congruence|auto].
Qed.
Definition solved fuel h little resolve targets (t : ref) (g : list (relo * nat)) (fs : list fixup) : Prop :=
  local_name h t <> [] /\ exists ts, candidates (newEssentialName (local_name h t)) targets = Some ts /\ coreCalculateFixups relo ref r_kind (relo_calc fuel h little resolve) (map fst g) ts = Ok fs.
Definition positions (gs : list rgroup) : list nat := concat (map (fun g => map snd (snd g)) gs).
Lemma solve_spec fuel h little resolve targets : forall gs result fs, solve_groups fuel h little resolve targets gs result = Ok fs -> NoDup (positions gs) ->
  length fs = length result /\ (forall t g, In (t, g) gs -> exists gfs, solved fuel h little resolve targets t g gfs /\ forall k r i, nth_error g k = Some (r, i) -> (i < length result)%nat -> nth_error fs i = nth_error gfs k) /\
  (forall j, ~ In j (positions gs) -> nth_error fs j = nth_error result j).
Proof.
  induction gs as [|(t, g) gs IH]; intros result fs E N; cbn [solve_groups] in E.
  - inversion E; subst. repeat split; auto. intros t g [].
  - destruct (local_name h t) as [|c name] eqn:Nm; [discriminate E|]. destruct (candidates _ targets) as [ts|] eqn:Ca; [|discriminate E]. destruct (coreCalculateFixups _ _ _ _ _ _) as [gfs|] eqn:Cf; [|discriminate E].
    unfold positions in N. cbn [map concat snd] in N. assert (Ng : NoDup (map snd g) /\ NoDup (positions gs) /\ forall j, In j (map snd g) -> ~ In j (positions gs)).
    { clear -N. unfold positions. induction (map snd g) as [|x l IHl]; cbn [app] in N; [split; [constructor|auto]|]. inversion N as [|? ? A B]; subst. destruct (IHl B) as (P & Q & R). split; [constructor; [intros X; apply A; apply in_or_app; now left|exact P]|]. split; [exact Q|].
      intros j [<-|I]; [intros X; apply A; apply in_or_app; now right|auto]. }
    destruct Ng as (N1 & N2 & N3). destruct (IH _ _ E N2) as (A & B & C). pose proof (C38_length _ _ _ _ _ _ _ Cf) as Ll. rewrite map_length in Ll. rewrite write_len in *.
    split; [exact A|]. split.
    + intros t' g' [X|I]; [|exact (B t' g' I)]. inversion X; subst t' g'. exists gfs. split; [split; [rewrite Nm; discriminate|rewrite Nm; eauto]|]. intros k r i K I. rewrite C; [eapply write_at; eassumption|].
      apply N3. apply nth_error_In in K. change i with (snd (r, i)). now apply in_map.
    + intros j J. unfold positions in J. cbn [map concat snd] in J. rewrite in_app_iff in J. rewrite C by tauto. apply write_other. tauto.
Qed.
Lemma solve_ok_iff fuel h little resolve targets : forall gs result, (exists fs, solve_groups fuel h little resolve targets gs result = Ok fs) <-> forall t g, In (t, g) gs -> exists gfs, solved fuel h little resolve targets t g gfs.
Proof.
  induction gs as [|(t, g) gs IH]; intros result; cbn [solve_groups].
  - split; [intros _ t g []|eauto].
  - split.
    + intros (fs & E) t' g' I. destruct (local_name h t) as [|c name] eqn:Nm; [discriminate E|]. destruct (candidates _ targets) as [ts|] eqn:Ca; [|discriminate E]. destruct (coreCalculateFixups _ _ _ _ _ _) as [gfs|] eqn:Cf; [|discriminate E].
      destruct I as [X|I]; [inversion X; subst; exists gfs; split; [rewrite Nm; discriminate|rewrite Nm; eauto]|]. apply (proj1 (IH _) (ex_intro _ _ E) t' g' I).
    + intros H. destruct (H t g (or_introl eq_refl)) as (gfs & Nm & ts & Ca & Cf). destruct (local_name h t) as [|c name]; [congruence|]. rewrite Ca, Cf. apply IH. intros t' g' I. apply H. now right.
Qed.

Definition any_order (order : list rgroup -> list rgroup) : Prop := forall gs, Permutation gs (order gs).
Lemma groups_ok relos gs : NoDup (map fst gs) -> (forall t l, In (t, l) gs -> l <> []) -> (forall t, look t gs = sel t 0 relos) ->
  (forall t l, In (t, l) gs -> l = sel t 0 relos) /\ NoDup (positions gs).
Proof.
  intros N Ne Lk. assert (S : forall t l, In (t, l) gs -> l = sel t 0 relos) by (intros t l I; rewrite <- Lk; symmetry; now apply look_in). split; [exact S|].
  clear Ne Lk. induction gs as [|(t, l) gs IH]; unfold positions; cbn [map concat snd]; [constructor|]. inversion N as [|? ? A B]; subst.
  assert (IH' : NoDup (positions gs)) by (apply IH; [exact B|intros; apply S; now right]). rewrite (S t l (or_introl eq_refl)).
  assert (D : forall j, In j (map snd (sel t 0 relos)) -> ~ In j (positions gs)).
  { intros j J P. apply in_map_iff in J. destruct J as ((r, j') & X & J). cbn in X. subst j'. apply sel_in in J. destruct J as (_ & J & T). rewrite Nat.sub_0_r in J.
    apply in_concat in P. destruct P as (ps & Ips & Pj). apply in_map_iff in Ips. destruct Ips as ((t', l') & <- & I'). cbn [snd] in Pj. rewrite (S t' l' (or_intror I')) in Pj. apply in_map_iff in Pj. destruct Pj as ((r', j') & X & Pj). cbn in X. subst j'. apply sel_in in Pj.
    destruct Pj as (_ & J' & T'). rewrite Nat.sub_0_r in J'. assert (r' = r) by congruence. subst. unfold together in T, T'. destruct (ref_eq_dec (r_type r) t) as [<-|]; [|rewrite andb_false_r in T; discriminate T]. destruct (ref_eq_dec (r_type r) t') as [<-|]; [|rewrite andb_false_r in T'; discriminate T'].
    apply A. change (r_type r) with (fst (r_type r, l')). now apply in_map. }
  pose proof (sel_nodup t relos 0) as Ns. clear -Ns IH' D. induction (map snd (sel t 0 relos)) as [|x xs IHx]; cbn [app]; [exact IH'|]. inversion Ns; subst. constructor; [rewrite in_app_iff; intros [X|X]; [auto|]; eapply D; [now left|exact X]|]. apply IHx; auto. intros j J. apply D. now right.
Qed.
Lemma positions_perm gs gs' : Permutation gs gs' -> NoDup (positions gs) -> NoDup (positions gs').
Proof.
  intros P. apply Permutation_NoDup. unfold positions. induction P; cbn [map concat]; [constructor|now apply Permutation_app_head|rewrite !app_assoc; apply Permutation_app_tail; apply Permutation_app_comm|etransitivity; eassumption].
Qed.

Theorem C56_relocate : forall fuel h little relos targets resolveLocal order fs, any_order order ->
  CORERelocate fuel h little relos targets resolveLocal order = Ok fs ->
  length fs = length relos /\ exists t0, hd_error targets = Some t0 /\
  forall i r, nth_error relos i = Some r ->
    (r_kind r = reloTypeIDLocal -> exists id, resolveLocal (r_type r) = Some id /\ nth_error fs i = Some (mkFixup (r_kind r) (r_id r) id false false)) /\
    (r_kind r <> reloTypeIDLocal -> local_name h (r_type r) <> [] /\ exists gfs,
       coreCalculateFixups relo ref r_kind (relo_calc fuel h little (ts_id t0)) (filter (together (r_type r)) relos) (types_named targets (newEssentialName (local_name h (r_type r)))) = Ok gfs /\
       nth_error fs i = nth_error gfs (length (filter (together (r_type r)) (firstn i relos)))).
Proof.
  intros fuel h little relos targets resolveLocal order fs O E. unfold CORERelocate in E. destruct targets as [|t0 targets']; [discriminate E|]. set (targets := t0 :: targets') in *. destruct (existsb _ targets); [discriminate E|].
  destruct (split_relos resolveLocal 0 relos [] _) as [[gs result]|] eqn:S; [|discriminate E]. apply split_spec in S; [|constructor|intros ? ? []|rewrite repeat_length; lia]. destruct S as (N & Ne & Lk & Ll & Lo & _). rewrite repeat_length in Ll.
  destruct (groups_ok relos gs N Ne Lk) as (Sg & Np). apply solve_spec in E; [|eapply positions_perm; [apply O|exact Np]]. destruct E as (A & B & C). split; [congruence|]. exists t0. split; [reflexivity|].
  assert (PI : forall x, In x (positions (order gs)) -> exists t g r, In (t, g) gs /\ In (r, x) g).
  { intros x I. apply in_concat in I. destruct I as (ps & Ips & Pj). apply in_map_iff in Ips. destruct Ips as ((t', l') & <- & I'). apply in_map_iff in Pj. destruct Pj as ((r', j') & X & Pj). cbn in X. subst j'. exists t', l', r'. split; [|exact Pj]. eapply Permutation_in; [symmetry; apply O|exact I']. }
  intros i r Ni. split; intros K.
  - destruct (Lo i r Ni K) as (id & R & F). exists id. split; [exact R|]. rewrite C; [exact F|]. intros I. destruct (PI i I) as (t & g & r' & Ig & Ir). rewrite (Sg _ _ Ig) in Ir. apply sel_in in Ir. rewrite Nat.sub_0_r in Ir. destruct Ir as (_ & X & T). assert (r' = r) by congruence. subst.
    unfold together in T. rewrite K in T. discriminate T.
  - assert (T : together (r_type r) r = true). { unfold together. destruct (Z.eqb_spec (r_kind r) reloTypeIDLocal); [contradiction|]. destruct (ref_eq_dec (r_type r) (r_type r)); [reflexivity|congruence]. }
    pose proof (sel_nth (r_type r) relos 0 i r Ni T) as Sn. assert (I : In (r_type r, sel (r_type r) 0 relos) gs). { assert (Lk' : look (r_type r) gs = sel (r_type r) 0 relos) by exact (Lk (r_type r)). rewrite <- Lk'. apply in_look. rewrite Lk'. intros X. rewrite X in Sn. apply nth_error_In in Sn. exact Sn. }
    destruct (B (r_type r) (sel (r_type r) 0 relos)) as (gfs & (Nm & ts & Ca & Cf) & W); [eapply Permutation_in; [apply O|exact I]|]. split; [exact Nm|]. apply candidates_spec in Ca. destruct Ca as (-> & _). rewrite sel_fst in Cf. exists gfs. split; [exact Cf|].
    apply (W _ _ _ Sn). rewrite Ll. apply nth_error_Some. cbn. congruence.
Qed.
(** Neither success nor the result depends on the order in which Go iterates over the map of types. *)
Theorem C56_order : forall fuel h little relos targets resolveLocal order order' fs, any_order order -> any_order order' ->
  CORERelocate fuel h little relos targets resolveLocal order = Ok fs -> CORERelocate fuel h little relos targets resolveLocal order' = Ok fs.
Proof.
  intros fuel h little relos targets resolveLocal order order' fs O O' E.
  assert (X : exists fs', CORERelocate fuel h little relos targets resolveLocal order' = Ok fs').
  { unfold CORERelocate in *. destruct targets as [|t0 targets']; [discriminate E|]. destruct (existsb _ (t0 :: targets')); [discriminate E|]. destruct (split_relos _ _ _ _ _) as [[gs result]|]; [|discriminate E].
    apply solve_ok_iff. intros t g I. apply (proj1 (solve_ok_iff fuel h little (ts_id t0) (t0 :: targets') (order gs) result) (ex_intro _ _ E)). eapply Permutation_in; [apply O|]. eapply Permutation_in; [symmetry; apply O'|exact I]. }
  destruct X as (fs' & E'). rewrite E'. f_equal. destruct (C56_relocate _ _ _ _ _ _ _ _ O E) as (L & t0 & T & H), (C56_relocate _ _ _ _ _ _ _ _ O' E') as (L' & t0' & T' & H'). assert (t0' = t0) by congruence. subst.
  assert (Q : forall i, nth_error fs' i = nth_error fs i).
  { intros i. destruct (nth_error relos i) as [r|] eqn:R.
    - destruct (H i r R) as (A & B), (H' i r R) as (A' & B'). destruct (Z.eq_dec (r_kind r) reloTypeIDLocal) as [K|K].
      + destruct (A K) as (id & Q & ->), (A' K) as (id' & Q' & ->). congruence.
      + destruct (B K) as (_ & g & Q & ->), (B' K) as (_ & g' & Q' & ->). congruence.
    - apply nth_error_None in R. transitivity (@None fixup); [|symmetry]; apply nth_error_None; lia. }
  clear -Q. revert fs Q. induction fs' as [|x fs' IH]; intros [|y fs] Q; [reflexivity|discriminate (Q O)|discriminate (Q O)|]. pose proof (Q O) as Q0. cbn in Q0. inversion Q0; subst. f_equal. apply IH. intros i. exact (Q (S i)).
Qed.
(** Two types, three relocations interleaved, and one for a local type ID. *)
Definition c56_targets : list target_spec := [mkTarget true (fun n => if list_eq_dec Z.eq_dec n s_s then FoundTypes [RPtr 6; RPtr 2] else if list_eq_dec Z.eq_dec n s_int then FoundTypes [RPtr 0] else NoTypes) (fun _ => Ok 77)].
Definition c56_relos : list relo := [mkRelo (RPtr 4) [0; 0] reloFieldByteOffset 5; mkRelo (RPtr 0) [0] reloTypeSize 1; mkRelo (RPtr 4) [0] reloTypeIDLocal 5; mkRelo (RPtr 4) [0; 1; 1; 0; 2] reloFieldByteOffset 5; mkRelo (RPtr 0) [0] reloTypeIDTarget 1].
Example c56_run : CORERelocate 10 c40_heap true c56_relos c56_targets (fun _ => Some 9) (@rev _) =
  Ok [mkFixup 0 0 24 false false; mkFixup 9 4 4 false false; mkFixup 6 5 9 false false; mkFixup 0 12 16 false false; mkFixup 7 1 77 false false].
Proof. reflexivity. Qed.
Example c56_any_order : any_order (@rev _).
Proof. intros gs. apply Permutation_rev. Qed.

(** ** C57 *)
Definition variants (h : heap) (t : ref) (vs : list enumvalue) : Prop := exists c n s g, stripped h t c /\ deref h c = Some (NEnum n s g vs).
Lemma as_enum_iff h t vs : (exists n s g, as_enum h t = Some (n, s, g, vs)) <-> variants h t vs.
Proof.
  unfold as_enum, variants. split.
  - intros (n & s & g & E). destruct (UnderlyingType h t) as [r|] eqn:U; [|discriminate E]. apply Underlying_stripped in U. destruct (deref h r) as [[]|] eqn:D; try discriminate E. inversion E; subst. eauto 8.
  - intros (c & n & s & g & S & D). apply Underlying_stripped in S. rewrite S, D. eauto.
Qed.
(** the variant of the target with the same essential name, the first if there are several *)
Definition same_variant (lv tv : enumvalue) : Prop := newEssentialName (ev_name tv) = newEssentialName (ev_name lv).
Definition first_variant (lv : enumvalue) (vs : list enumvalue) (tv : enumvalue) : Prop :=
  exists l r, vs = l ++ tv :: r /\ same_variant lv tv /\ forall v, In v l -> ~ same_variant lv v.
Lemma find_first lv vs : match find (fun tv => str_eqb (newEssentialName (ev_name tv)) (newEssentialName (ev_name lv))) vs with
  | Some tv => first_variant lv vs tv
  | None => forall v, In v vs -> ~ same_variant lv v
  end.
Proof.
  induction vs as [|v vs IH]; cbn [find]; [intros ? []|]. destruct (str_eqb _ _) eqn:E.
  - apply str_eqb_eq in E. exists [], vs. split; [reflexivity|]. split; [exact E|intros ? []].
  - assert (N : ~ same_variant lv v) by (intros X; apply str_eqb_eq in X; congruence). destruct (find _ vs) as [tv|].
    + destruct IH as (l & r & -> & S & F). exists (v :: l), r. split; [reflexivity|]. split; [exact S|]. intros w [<-|I]; auto.
    + intros w [<-|I]; auto.
Qed.
Lemma enum_spec h t i target : match coreFindEnumValue h t [i] target with
  | Ok (lv, tv) => exists lvs tvs, variants h t lvs /\ 0 <= i /\ nth_error lvs (Z.to_nat i) = Some lv /\ variants h target tvs /\ first_variant lv tvs tv
  | Err Impossible => exists lvs lv, variants h t lvs /\ 0 <= i /\ nth_error lvs (Z.to_nat i) = Some lv /\ forall tvs tv, variants h target tvs -> In tv tvs -> ~ same_variant lv tv
  | Err Other => forall lvs lv, variants h t lvs -> 0 <= i -> nth_error lvs (Z.to_nat i) <> Some lv
  end.
Proof.
  unfold coreFindEnumValue. destruct (as_enum h t) as [[[[n s] g] lvs]|] eqn:A.
  - assert (V : variants h t lvs) by (apply as_enum_iff; eauto). assert (Uq : forall l, variants h t l -> l = lvs) by (intros l X; apply as_enum_iff in X; destruct X as (? & ? & ? & X); congruence).
    unfold nth_z. destruct (Z.ltb_spec i 0); [intros l v X Y; lia|]. destruct (nth_error lvs (Z.to_nat i)) as [lv|] eqn:N; [|intros l v X Y; rewrite (Uq _ X), N; discriminate].
    destruct (as_enum h target) as [[[[n' s'] g'] tvs]|] eqn:B.
    + assert (V' : variants h target tvs) by (apply as_enum_iff; eauto). assert (Uq' : forall l, variants h target l -> l = tvs) by (intros l X; apply as_enum_iff in X; destruct X as (? & ? & ? & X); congruence).
      pose proof (find_first lv tvs) as F. destruct (find _ tvs) as [tv|]; [eauto 10|]. exists lvs, lv. split; [exact V|]. split; [lia|]. split; [exact N|]. intros l v X. rewrite (Uq' _ X). apply F.
    + exists lvs, lv. split; [exact V|]. split; [lia|]. split; [exact N|]. intros l v X. apply as_enum_iff in X. destruct X as (? & ? & ? & X). congruence.
  - intros l v X. apply as_enum_iff in X. destruct X as (? & ? & ? & X). congruence.
Qed.
Theorem C57_enum_value : forall fuel h little resolve t i id target f,
  coreCalculateFixup fuel h little resolve (mkRelo t [i] reloEnumvalValue id) target = Some (Ok f) ->
  exists lvs lv, variants h t lvs /\ 0 <= i /\ nth_error lvs (Z.to_nat i) = Some lv /\
    ((f_poison f = false /\ f_local f = ev_value lv /\ exists tvs tv, variants h target tvs /\ first_variant lv tvs tv /\ f_target f = ev_value tv) \/
     (f_poison f = true /\ forall tvs tv, variants h target tvs -> In tv tvs -> ~ same_variant lv tv)).
Proof.
  intros fuel h little resolve t i id target f E. unfold coreCalculateFixup in E. cbn [r_kind r_type r_acc] in E. change (Some (match coreFindEnumValue h t [i] target with Err Impossible => poison (mkRelo t [i] reloEnumvalValue id) | Err Other => Err Other | Ok (lv, tv) => fix_up (mkRelo t [i] reloEnumvalValue id) (ev_value lv) (ev_value tv) end) = Some (Ok f)) in E.
  pose proof (enum_spec h t i target) as S. destruct (coreFindEnumValue h t [i] target) as [[lv tv]|[]].
  - destruct S as (lvs & tvs & V & I & N & V' & F). exists lvs, lv. split; [exact V|]. split; [exact I|]. split; [exact N|]. left. unfold fix_up in E. inversion E; subst f. cbn. eauto 8.
  - destruct S as (lvs & lv & V & I & N & F). exists lvs, lv. split; [exact V|]. split; [exact I|]. split; [exact N|]. right. cbn in E. inversion E; subst f. auto.
  - discriminate E.
Qed.
Theorem C57_enum_exists : forall fuel h little resolve t i id target lvs lv,
  variants h t lvs -> 0 <= i -> nth_error lvs (Z.to_nat i) = Some lv ->
  exists v, coreCalculateFixup fuel h little resolve (mkRelo t [i] reloEnumvalExists id) target = Some (Ok (mkFixup reloEnumvalExists 1 v false false)) /\
    (v = 1 /\ (exists tvs tv, variants h target tvs /\ In tv tvs /\ same_variant lv tv) \/ v = 0 /\ ~ exists tvs tv, variants h target tvs /\ In tv tvs /\ same_variant lv tv).
Proof.
  intros fuel h little resolve t i id target lvs lv V I N. unfold coreCalculateFixup. cbn [r_kind r_type r_acc].
  change (exists v, Some (match coreFindEnumValue h t [i] target with Err Impossible => poison (mkRelo t [i] reloEnumvalExists id) | Err Other => Err Other | Ok (lv, tv) => fix_up (mkRelo t [i] reloEnumvalExists id) 1 1 end) = Some (Ok (mkFixup reloEnumvalExists 1 v false false)) /\ (v = 1 /\ (exists tvs tv, variants h target tvs /\ In tv tvs /\ same_variant lv tv) \/ v = 0 /\ ~ exists tvs tv, variants h target tvs /\ In tv tvs /\ same_variant lv tv)).
  assert (Uq : forall l, variants h t l -> l = lvs) by (intros l X; apply as_enum_iff in X; apply as_enum_iff in V; destruct X as (? & ? & ? & X), V as (? & ? & ? & V); congruence).
  pose proof (enum_spec h t i target) as S. destruct (coreFindEnumValue h t [i] target) as [[lv' tv]|[]].
  - destruct S as (lvs' & tvs & V1 & _ & N1 & V' & l & r & -> & Sv & _). rewrite (Uq _ V1) in N1. assert (lv' = lv) by congruence. subst. exists 1. split; [reflexivity|]. left. split; [reflexivity|]. exists (l ++ tv :: r), tv. split; [exact V'|]. split; [apply in_or_app; right; now left|exact Sv].
  - destruct S as (lvs' & lv' & V1 & _ & N1 & F). rewrite (Uq _ V1) in N1. assert (lv' = lv) by congruence. subst. exists 0. split; [reflexivity|]. right. split; [reflexivity|]. intros (tvs & tv & A & B & C). exact (F tvs tv A B C).
  - exfalso. exact (S lvs lv V I N).
Qed.
Lemma type_relo fuel h little resolve t id target k : k = reloTypeIDTarget \/ k = reloTypeSize \/ k = reloTypeExists ->
  coreCalculateFixup fuel h little resolve (mkRelo t [0] k id) target =
  match CheckTypeCompatibility h t target with
  | None => None
  | Some (Err Incompatible) => Some (poison (mkRelo t [0] k id))
  | Some (Err Unsupported) => Some (Err Other)
  | Some (Ok _) =>
      Some (if k =? reloTypeExists then fix_up (mkRelo t [0] k id) 1 1
            else if k =? reloTypeIDTarget then match resolve target with Err Impossible => poison (mkRelo t [0] k id) | Err Other => Err Other | Ok i => fix_up (mkRelo t [0] k id) id i end
            else match Sizeof h t with Err _ => Err Other | Ok ls => match Sizeof h target with Err _ => Err Other | Ok ts => fix_up (mkRelo t [0] k id) (u64 ls) (u64 ts) end end)
  end.
Proof. intros [->|[->| ->]]; reflexivity. Qed.
Theorem C57_type_exists : forall fuel h little resolve t id target f,
  coreCalculateFixup fuel h little resolve (mkRelo t [0] reloTypeExists id) target = Some (Ok f) ->
  f_poison f = false /\ f_local f = 1 /\ (f_target f = 1 /\ compatible h t target \/ f_target f = 0 /\ ~ compatible h t target).
Proof.
  intros fuel h little resolve t id target f E. rewrite type_relo in E by auto. destruct (CheckTypeCompatibility h t target) as [[[]|[]]|] eqn:C; try discriminate E; cbn in E; inversion E; subst f; cbn; (split; [reflexivity|split; [reflexivity|]]).
  - left. split; [reflexivity|]. now apply C42_exact.
  - right. split; [reflexivity|]. rewrite <- C42_exact. congruence.
Qed.
Lemma size_relo fuel h little resolve t id target : coreCalculateFixup fuel h little resolve (mkRelo t [0] reloTypeSize id) target =
  match CheckTypeCompatibility h t target with
  | None => None
  | Some (Err Incompatible) => Some (Ok (mkFixup reloTypeSize 0 0 true false))
  | Some (Err Unsupported) => Some (Err Other)
  | Some (Ok _) => Some (match Sizeof h t with Err _ => Err Other | Ok ls => match Sizeof h target with Err _ => Err Other | Ok ts => Ok (mkFixup reloTypeSize (u64 ls) (u64 ts) false false) end end)
  end.
Proof. rewrite type_relo by auto. destruct (CheckTypeCompatibility h t target) as [[[]|[]]|]; reflexivity. Qed.
Theorem C57_type_size : forall fuel h little resolve t id target f, heap_u32 h ->
  coreCalculateFixup fuel h little resolve (mkRelo t [0] reloTypeSize id) target = Some (Ok f) ->
  (f_poison f = false /\ compatible h t target /\ (exists d, has_size h t d (f_local f)) /\ (exists d, has_size h target d (f_target f))) \/ (f_poison f = true /\ ~ compatible h t target).
Proof.
  intros fuel h little resolve t id target f H E. rewrite size_relo in E. destruct (CheckTypeCompatibility h t target) as [[[]|[]]|] eqn:C; try discriminate E.
  - left.
    destruct (Sizeof h t) as [ls|] eqn:Sl; [|discriminate E]. destruct (Sizeof h target) as [ts|] eqn:St; [|discriminate E]. injection E as <-. cbn [f_poison f_local f_target].
    destruct (C37_exact _ _ _ H Sl) as (d & _ & Hl & Rl), (C37_exact _ _ _ H St) as (d' & _ & Ht & Rt). split; [reflexivity|]. split; [now apply C42_exact|]. unfold u64, wrapu, maxInt64 in *. rewrite !Z.mod_small by lia. eauto.
  - right. injection E as <-. split; [reflexivity|]. rewrite <- C42_exact. congruence.
Qed.
Theorem C57_type_id : forall fuel h little resolve t id target f,
  coreCalculateFixup fuel h little resolve (mkRelo t [0] reloTypeIDTarget id) target = Some (Ok f) ->
  (f_poison f = false /\ compatible h t target /\ f_local f = id /\ resolve target = Ok (f_target f)) \/ (f_poison f = true /\ (~ compatible h t target \/ resolve target = Err Impossible)).
Proof.
  intros fuel h little resolve t id target f E. rewrite type_relo in E by auto. destruct (CheckTypeCompatibility h t target) as [[[]|[]]|] eqn:C; try discriminate E; cbn in E.
  - destruct (resolve target) as [i|[]] eqn:R; try discriminate E; injection E as <-; cbn; [left|right]; auto. split; [reflexivity|]. split; [now apply C42_exact|]. auto.
  - injection E as <-. right. split; [reflexivity|]. left. rewrite <- C42_exact. congruence.
Qed.
Theorem C57_type_matches : forall fuel h little resolve t id target f,
  coreCalculateFixup fuel h little resolve (mkRelo t [0] reloTypeMatches id) target = Some (Ok f) ->
  f_poison f = false /\ f_local f = 1 /\ (f_target f = 1 /\ largest h (match_rule h) t target \/ f_target f = 0 /\ ~ largest h (match_rule h) t target).
Proof.
  intros fuel h little resolve t id target f E.
  change (match coreTypesMatch h t target with None => None | Some (Err Incompatible) => Some (poison (mkRelo t [0] reloTypeMatches id)) | Some (Err Unsupported) => Some (Err Other) | Some (Ok _) => Some (fix_up (mkRelo t [0] reloTypeMatches id) 1 1) end = Some (Ok f)) in E.
  destruct (coreTypesMatch h t target) as [[[]|[]]|] eqn:C; try discriminate E; cbn in E; injection E as <-; cbn; (split; [reflexivity|split; [reflexivity|]]).
  - left. split; [reflexivity|]. now apply C55_exact.
  - right. split; [reflexivity|]. rewrite <- C55_exact. congruence.
Qed.
(** enum e { A, B___v2 = 7 } against enum e { C = 3, B = 9 } and against int *)
Definition c57_heap : heap := [NEnum s_s 4 false [mkEV [65] 0; mkEV ([66] ++ [95; 95; 95] ++ [118; 50]) 7]; NTypedef s_a (RPtr 2) []; NEnum s_s 8 false [mkEV [67] 3; mkEV [66] 9]; NInt s_int 4 1].
Example c57_value : coreCalculateFixup 10 c57_heap true (fun _ => Err Other) (mkRelo (RPtr 0) [1] reloEnumvalValue 0) (RPtr 1) = Some (Ok (mkFixup 11 7 9 false false)).
Proof. reflexivity. Qed.
Example c57_missing : coreCalculateFixup 10 c57_heap true (fun _ => Err Other) (mkRelo (RPtr 0) [0] reloEnumvalExists 0) (RPtr 1) = Some (Ok (mkFixup 10 1 0 false false)).
Proof. reflexivity. Qed.
Example c57_incompatible : coreCalculateFixup 10 c57_heap true (fun _ => Err Other) (mkRelo (RPtr 0) [0] reloTypeSize 0) (RPtr 3) = Some (Ok (mkFixup 9 0 0 true false)).
Proof. reflexivity. Qed.
Example c57_size : coreCalculateFixup 10 c57_heap true (fun _ => Err Other) (mkRelo (RPtr 0) [0] reloTypeSize 0) (RPtr 2) = Some (Ok (mkFixup 9 4 8 false false)).
Proof. reflexivity. Qed.
