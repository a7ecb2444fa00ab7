(** C90: maps that are pinned by name, created by several processes at once *)
From Verif Require Import Base.GoInt Pin.Pin Pin.PinSpec Pin.PropsPin.
Open Scope Z_scope.

(** ** Compatibility *)
Lemma lor_absorb f : Z.lor f (Z.land f 128) = f.
Proof. apply Z.bits_inj. intros i. rewrite Z.lor_spec, Z.land_spec. destruct (Z.testbit f i), (Z.testbit 128 i); auto. Qed.
Lemma lor_again f : Z.lor f (Z.land (Z.lor f 128) 128) = Z.lor f 128.
Proof. apply Z.bits_inj. intros i. rewrite !Z.lor_spec, Z.land_spec, Z.lor_spec. destruct (Z.testbit f i), (Z.testbit 128 i); auto. Qed.
(** A map that was created from a spec can be used for it. *)
Theorem C90_reusable : forall ro cpus a s, fixupMagicFields cpus a = Ok s -> Compatible cpus a (reported ro s) = None.
Proof.
  intros ro cpus a s F. unfold Compatible. rewrite F. unfold reported. destruct (isDevMap (a_type s)) eqn:D; cbn [andb].
  - destruct ro; cbn [a_type a_key a_value a_max a_flags]; rewrite !Z.eqb_refl; cbn [andb]; unfold RDONLY_PROG; [rewrite lor_again|rewrite lor_absorb]; rewrite Z.eqb_refl; auto.
  - rewrite !Z.eqb_refl. auto.
Qed.
(** What compatible means *)
Theorem C90_compatible : forall cpus a m, Compatible cpus a m = None <->
  exists s, fixupMagicFields cpus a = Ok s /\ a_type m = a_type s /\ a_key m = a_key s /\ a_value m = a_value s /\ a_max m = a_max s /\
    (a_flags m = a_flags s \/ (a_type s = 14 \/ a_type s = 25) /\ a_flags m = Z.lor (a_flags s) 128).
Proof.
  intros cpus a m. unfold Compatible. destruct (fixupMagicFields cpus a) as [s|e].
  2:{ split; [discriminate|]. intros (s & X & _). discriminate. }
  assert (D : isDevMap (a_type s) = true <-> a_type s = 14 \/ a_type s = 25) by (unfold isDevMap; rewrite orb_true_iff, !Z.eqb_eq; tauto).
  assert (L : forall f g, f = Z.lor g (Z.land f 128) <-> f = g \/ f = Z.lor g 128).
  { intros f g. change 128 with (2 ^ 7). split.
    - intros E. destruct (Z.testbit f 7) eqn:B.
      + right. rewrite E. apply Z.bits_inj'. intros i I. rewrite !Z.lor_spec, Z.land_spec, !Z.pow2_bits_eqb by lia. destruct (Z.eqb_spec 7 i) as [<- | N]; [rewrite B; auto|rewrite andb_false_r; auto].
      + left. rewrite E. apply Z.bits_inj'. intros i I. rewrite !Z.lor_spec, Z.land_spec, !Z.pow2_bits_eqb by lia. destruct (Z.eqb_spec 7 i) as [<- | N]; [rewrite B; cbn; apply orb_false_r|rewrite andb_false_r, orb_false_r; auto].
    - intros [-> | ->].
      + symmetry. apply lor_absorb.
      + change (2 ^ 7) with 128. symmetry. apply lor_again. }
  split.
  - destruct (_ && _) eqn:E; [|discriminate]. intros _. rewrite !andb_true_iff, !Z.eqb_eq in E. destruct E as ((((E1 & E2) & E3) & E4) & E5). exists s. repeat split; auto.
    destruct (isDevMap (a_type s)) eqn:DM; auto. unfold RDONLY_PROG in E5. apply L in E5. destruct E5; auto. right. split; auto. apply D; auto.
  - intros (s' & X & E1 & E2 & E3 & E4 & E5). injection X as <-. rewrite E1, E2, E3, E4, !Z.eqb_refl. cbn [andb].
    assert (F : a_flags m = if isDevMap (a_type s) then Z.lor (a_flags s) (Z.land (a_flags m) RDONLY_PROG) else a_flags s).
    { destruct (isDevMap (a_type s)) eqn:DM; [unfold RDONLY_PROG; apply L; tauto|]. destruct E5 as [E5|(E5 & _)]; auto. apply D in E5. discriminate. }
    rewrite <- F, Z.eqb_refl. auto.
Qed.

(** Sizes and entries that are filled in: descriptors take four bytes; events and CPU maps have an entry for each CPU, or fewer if the spec says so. *)
Theorem C90_magic : forall n a,
  match fixupMagicFields (Some n) a with
  | Ok s => a_type s = a_type a /\ a_flags s = a_flags a /\
      a_key s = (if a_type a =? 4 then 4 else a_key a) /\
      a_value s = (if (a_type a =? 4) || (a_type a =? 12) || (a_type a =? 13) then 4 else a_value a) /\
      a_max s = (if (a_type a =? 4) || (a_type a =? 16) then if a_max a =? 0 then n else Z.min n (a_max a) else a_max a)
  | Err _ => (a_type a = 4 /\ a_key a <> 0 /\ a_key a <> 4) \/ ((a_type a = 4 \/ a_type a = 12 \/ a_type a = 13) /\ a_value a <> 0 /\ a_value a <> 4)
  end.
Proof.
  intros n [t k v m f]. unfold fixupMagicFields, canStoreMap, clamp. cbn [a_type a_key a_value a_max a_flags].
  assert (C : (if (m =? 0) || (n <? m) then n else m) = (if m =? 0 then n else Z.min n m)) by (destruct (Z.eqb_spec m 0), (Z.ltb_spec n m); cbn; lia).
  destruct (Z.eqb_spec t 12) as [-> | N12]; [|destruct (Z.eqb_spec t 13) as [-> | N13]].
  1,2: destruct (Z.eqb_spec v 0), (Z.eqb_spec v 4); cbn; auto 8; right; auto.
  cbn [orb]. destruct (Z.eqb_spec t 4) as [-> | N4].
  - destruct (Z.eqb_spec k 0), (Z.eqb_spec k 4), (Z.eqb_spec v 0), (Z.eqb_spec v 4); cbn; auto 8.
  - destruct (Z.eqb_spec t 16) as [-> | N16]; cbn; auto 8.
Qed.

(** ** Threads *)
Section Race.
Variable bpffs : path -> bool.
Variable devmapRO : bool.
Variable n : Z.
Notation cpus := (Some n).
Variable c : list (Z * Z).
Hypothesis keys : NoDup (map fst c).
Notation kstep := (kstep bpffs devmapRO).

Definition keeps (w w' : world) : Prop :=
  (forall p o, fs w p = Some o -> fs w' p = Some o) /\
  (forall o x, nth_error (objs w) o = Some x -> exists x', nth_error (objs w') o = Some x' /\ o_attrs x' = o_attrs x /\ (o_frozen x = true -> o_frozen x' = true) /\
     forall k v, In (k, v) c -> o_data x k = Some v -> o_data x' k = Some v).
Definition rely (t : nat) (w w' : world) : Prop := keeps w w' /\ own t w' = own t w.
Definition guar (t : nat) (w w' : world) : Prop := wf w' /\ keeps w w' /\ forall u, u <> t -> own u w' = own u w.
Fixpoint good {A} (t : nat) (Q : A -> world -> Prop) (m : prog A) (w : world) : Prop :=
  match m with
  | Ret a => Q a w
  | Call k f => forall w1, wf w1 -> rely t w w1 -> forall w2 r, kstep w1 t k w2 r -> guar t w1 w2 /\ good t Q (f r) w2
  end.
Lemma keeps_refl w : keeps w w.
Proof. split; auto. intros o x X. exists x. auto. Qed.
Lemma keeps_trans a b d : keeps a b -> keeps b d -> keeps a d.
Proof.
  intros (A1 & A2) (B1 & B2). split; auto. intros o x X. destruct (A2 _ _ X) as (y & Y & Y1 & Y2 & Y3). destruct (B2 _ _ Y) as (z & Z & Z1 & Z2 & Z3).
  exists z. repeat split; auto. congruence.
Qed.
Lemma rely_refl t w : rely t w w. Proof. split; auto. apply keeps_refl. Qed.
Lemma rely_trans t a b d : rely t a b -> rely t b d -> rely t a d.
Proof. intros (A & A') (B & B'). split; [eapply keeps_trans; eauto|congruence]. Qed.
Lemma guar_refl t w : wf w -> guar t w w.
Proof. intros W. split; auto. split; auto. apply keeps_refl. Qed.
Lemma good_rely {A} t (Q : A -> world -> Prop) m w w' : (forall a w w', rely t w w' -> Q a w -> Q a w') -> good t Q m w -> rely t w w' -> good t Q m w'.
Proof. intros S. destruct m as [a|k f]; cbn; eauto. intros G R w1 W R1. apply G; auto. eapply rely_trans; eauto. Qed.
Lemma good_bind {A B} t (Q : B -> world -> Prop) (m : prog A) (f : A -> prog B) w : good t (fun a w => good t Q (f a) w) m w -> good t Q (bind m f) w.
Proof. revert w. induction m as [a|k g IH]; cbn; auto. intros w G w1 W R w2 r K. destruct (G w1 W R w2 r K). auto. Qed.
Lemma good_weaken {A} t (P Q : A -> world -> Prop) m w : (forall a w, P a w -> Q a w) -> good t P m w -> good t Q m w.
Proof. intros I. revert w. induction m as [a|k g IH]; cbn; auto. intros w G w1 W R w2 r K. destruct (G w1 W R w2 r K). auto. Qed.
Lemma good_seq {A B} t (P : A -> world -> Prop) (Q : B -> world -> Prop) (m : prog A) (f : A -> prog B) w :
  good t P m w -> (forall a w, P a w -> good t Q (f a) w) -> good t Q (bind m f) w.
Proof. intros G F. apply good_bind. eapply good_weaken; eauto. Qed.

(** The calls *)
Lemma own_cons t u fd l : filter (fun x : nat * nat => Nat.eqb (fst x) u) ((t, fd) :: l) = if Nat.eqb t u then (t, fd) :: filter (fun x => Nat.eqb (fst x) u) l else filter (fun x => Nat.eqb (fst x) u) l.
Proof. cbn. destruct (Nat.eqb t u); auto. Qed.
Lemma wf_open w t os : wf w -> (length (objs w) <= length os)%nat -> wf (World os (fs w) (S (nfd w)) ((t, nfd w) :: fds w)).
Proof.
  intros (W1 & W2 & W3) L. split; [|split]; cbn.
  - constructor; auto. intros I. apply in_map_iff in I. destruct I as (x & E & I). rewrite Forall_forall in W2. specialize (W2 _ I). lia.
  - constructor; cbn; auto. eapply Forall_impl; [|exact W2]. cbn. lia.
  - intros p o X. specialize (W3 _ _ X). lia.
Qed.
Lemma open_guar w t os : wf w -> (length (objs w) <= length os)%nat ->
  (forall o x, nth_error (objs w) o = Some x -> nth_error os o = Some x) ->
  guar t w (World os (fs w) (S (nfd w)) ((t, nfd w) :: fds w)).
Proof.
  intros W L K. split; [apply wf_open; auto|]. split.
  - split; auto. intros o x X. exists x. auto.
  - intros u U. unfold own. cbn [fds]. rewrite own_cons. destruct (Nat.eqb_spec t u); congruence.
Qed.
Lemma own_open w t os : own t (World os (fs w) (S (nfd w)) ((t, nfd w) :: fds w)) = (t, nfd w) :: own t w.
Proof. unfold own. cbn [fds]. rewrite own_cons, Nat.eqb_refl. auto. Qed.
Definition closed (w : world) (fd : nat) : world := World (objs w) (fs w) (nfd w) (filter (fun x => negb (Nat.eqb (snd x) fd)) (fds w)).
Lemma filter_comm {A} (f g : A -> bool) l : filter f (filter g l) = filter g (filter f l).
Proof. induction l as [|x l IH]; auto. cbn. destruct (g x) eqn:G, (f x) eqn:F; cbn; rewrite ?G, ?F, ?IH; auto. Qed.
Lemma NoDup_filter_map {A B} (f : A -> B) (g : A -> bool) l : NoDup (map f l) -> NoDup (map f (filter g l)).
Proof.
  induction l as [|x l IH]; auto. cbn. intros N. inversion N; subst. destruct (g x); cbn; auto. constructor; auto. intros I. apply H1. apply in_map_iff in I. destruct I as (y & E & I). apply filter_In in I.
  apply in_map_iff. exists y. tauto.
Qed.
Lemma filter_same {A} (f : A -> bool) l : (forall x, In x l -> f x = true) -> filter f l = l.
Proof. induction l as [|x l IH]; auto. cbn. intros H. rewrite (H x) by auto. f_equal. auto. Qed.
Lemma own_in t w x : In x (own t w) <-> In x (fds w) /\ fst x = t.
Proof. unfold own. rewrite filter_In, Nat.eqb_eq. tauto. Qed.
Lemma NoDup_snd (l : list (nat * nat)) a b d : NoDup (map snd l) -> In (a, d) l -> In (b, d) l -> a = b.
Proof.
  induction l as [|[x y] l IH]; cbn; [tauto|]. intros N [I|I] [J|J]; inversion N; subst; auto; try congruence.
  - injection I as -> ->. exfalso. apply H1. apply in_map_iff. exists (b, d). auto.
  - injection J as -> ->. exfalso. apply H1. apply in_map_iff. exists (a, d). auto.
Qed.
Lemma close_guar w t fd : wf w -> In (t, fd) (fds w) -> guar t w (closed w fd).
Proof.
  intros (W1 & W2 & W3) I. split; [split; [|split]; cbn; auto|].
  - apply NoDup_filter_map; auto.
  - apply Forall_forall. intros x X. apply filter_In in X. rewrite Forall_forall in W2. apply W2. tauto.
  - split; [split; auto; intros o x X; exists x; auto|]. intros u U. unfold own, closed. cbn [fds]. rewrite filter_comm. apply filter_same.
    intros [a b] X. apply own_in in X. cbn in *. destruct X as (X & ->). destruct (Nat.eqb_spec b fd) as [-> | NE]; auto. elim U. eapply NoDup_snd; eauto.
Qed.
Lemma own_closed w t fd A B : wf w -> own t w = A ++ (t, fd) :: B -> own t (closed w fd) = A ++ B.
Proof.
  intros (W1 & _) E. unfold own, closed in *. cbn [fds]. rewrite filter_comm, E. apply (NoDup_filter_map snd (fun x => Nat.eqb (fst x) t)) in W1. rewrite E, map_app in W1. cbn in W1.
  apply NoDup_remove_2 in W1. rewrite filter_app. cbn. rewrite Nat.eqb_refl. cbn.
  assert (F : forall l, (forall x, In x l -> In x (A ++ B)) -> filter (fun x : nat * nat => negb (Nat.eqb (snd x) fd)) l = l).
  { intros l L. apply filter_same. intros x X. destruct (Nat.eqb_spec (snd x) fd) as [Y|]; auto. elim W1. rewrite <- map_app, <- Y. apply in_map. auto. }
  rewrite !F; auto; intros; apply in_or_app; auto.
Qed.
Definition isMap (w : world) (o : nat) (a : attrs) : Prop := exists x, nth_error (objs w) o = Some x /\ o_attrs x = Some a.
Lemma isMap_keeps w w' o a : keeps w w' -> isMap w o a -> isMap w' o a.
Proof. intros (_ & K) (x & X & E). destruct (K _ _ X) as (y & Y & Y1 & _). exists y. split; auto. congruence. Qed.
Lemma good_close {A} t (Q : A -> world -> Prop) fd k w L M : own t w = L ++ (t, fd) :: M ->
  (forall w', keeps w w' -> own t w' = L ++ M -> good t Q k w') -> good t Q (Call (Close fd) (fun _ => k)) w.
Proof.
  intros E H w1 W (R & O) w2 r K. destruct K as [K|(e & F & _)]; [|destruct F]. cbn in K. injection K as <- <-. change (guar t w1 (closed w1 fd) /\ good t Q k (closed w1 fd)).
  split.
  - apply close_guar; auto. apply (own_in t). rewrite O, E. apply in_or_app. cbn. auto.
  - apply H; [eapply keeps_trans; [exact R|]; split; auto; intros o x X; exists x; auto|]. apply own_closed; auto. congruence.
Qed.
Lemma good_create {A} t (Q : A -> world -> Prop) a b f w :
  (forall w' fd o, keeps w w' -> own t w' = (t, fd) :: own t w -> isMap w' o (reported devmapRO a) -> good t Q (f (RFd fd o)) w') ->
  (forall w' e, rely t w w' -> good t Q (f (RErr e)) w') -> good t Q (Call (MapCreate a b) f) w.
Proof.
  intros H1 H2 w1 W R w2 r K. destruct K as [K|(e & F & -> & ->)]; [|split; [apply guar_refl; auto|apply H2; auto]].
  cbn in K. injection K as <- <-. set (x := Object _ _ _).
  assert (G : guar t w1 (World (objs w1 ++ [x]) (fs w1) (S (nfd w1)) ((t, nfd w1) :: fds w1))).
  { apply open_guar; auto; [rewrite app_length; lia|]. intros o y Y. rewrite nth_error_app1; auto. apply nth_error_Some. congruence. }
  split; auto. destruct R as (R & O). destruct G as (_ & G & _). apply H1.
  - eapply keeps_trans; eauto.
  - rewrite own_open, O. auto.
  - exists x. cbn. split; auto. rewrite nth_error_app2, Nat.sub_diag; auto.
Qed.
Lemma good_btf {A} t (Q : A -> world -> Prop) f w :
  (forall w' fd o, keeps w w' -> own t w' = (t, fd) :: own t w -> good t Q (f (RFd fd o)) w') ->
  (forall w' e, rely t w w' -> good t Q (f (RErr e)) w') -> good t Q (Call BtfLoad f) w.
Proof.
  intros H1 H2 w1 W R w2 r K. destruct K as [K|(e & F & -> & ->)]; [|split; [apply guar_refl; auto|apply H2; auto]].
  cbn in K. injection K as <- <-. assert (G : guar t w1 (World (objs w1) (fs w1) (S (nfd w1)) ((t, nfd w1) :: fds w1))) by (apply open_guar; auto).
  split; auto. destruct R as (R & O). destruct G as (_ & G & _). apply H1; [eapply keeps_trans; eauto|rewrite own_open, O; auto].
Qed.
Lemma good_get {A} t (Q : A -> world -> Prop) p f w :
  (forall w' fd o, keeps w w' -> own t w' = (t, fd) :: own t w -> fs w' p = Some o -> good t Q (f (RFd fd o)) w') ->
  (forall w' e, rely t w w' -> good t Q (f (RErr e)) w') -> good t Q (Call (ObjGet p) f) w.
Proof.
  intros H1 H2 w1 W R w2 r K. destruct K as [K|(e & F & -> & ->)]; [|split; [apply guar_refl; auto|apply H2; auto]].
  cbn in K. destruct (fs w1 p) as [o|] eqn:P; injection K as <- <-; [|split; [apply guar_refl; auto|apply H2; auto]].
  assert (G : guar t w1 (World (objs w1) (fs w1) (S (nfd w1)) ((t, nfd w1) :: fds w1))) by (apply open_guar; auto).
  split; auto. destruct R as (R & O). destruct G as (_ & G & _). apply H1; [eapply keeps_trans; eauto|rewrite own_open, O; auto|auto].
Qed.
(** Calls that only look *)
Lemma good_type {A} t (Q : A -> world -> Prop) o f w : (forall w' b, rely t w w' -> good t Q (f (RBool b)) w') -> (forall w' e, rely t w w' -> good t Q (f (RErr e)) w') -> good t Q (Call (ReadType o) f) w.
Proof.
  intros H1 H2 w1 W R w2 r K. destruct K as [K|(e & F & -> & ->)]; [|split; [apply guar_refl; auto|apply H2; auto]]. cbn in K. injection K as <- <-. split; [apply guar_refl; auto|]. auto.
Qed.
Lemma good_statfs {A} t (Q : A -> world -> Prop) p f w : (forall w' b, rely t w w' -> good t Q (f (RBool b)) w') -> (forall w' e, rely t w w' -> good t Q (f (RErr e)) w') -> good t Q (Call (Statfs p) f) w.
Proof.
  intros H1 H2 w1 W R w2 r K. destruct K as [K|(e & F & -> & ->)]; [|split; [apply guar_refl; auto|apply H2; auto]]. cbn in K. injection K as <- <-. split; [apply guar_refl; auto|]. auto.
Qed.
Lemma good_info {A} t (Q : A -> world -> Prop) o f w : (forall w' a, rely t w w' -> isMap w' o a -> good t Q (f (RAttrs a)) w') -> (forall w' e, rely t w w' -> good t Q (f (RErr e)) w') -> good t Q (Call (ObjInfo o) f) w.
Proof.
  intros H1 H2 w1 W R w2 r K. destruct K as [K|(e & F & -> & ->)]; [|split; [apply guar_refl; auto|apply H2; auto]]. cbn in K.
  destruct (nth_error (objs w1) o) as [[[a|] d z]|] eqn:O; injection K as <- <-; (split; [apply guar_refl; auto|]); auto. apply H1; auto. eexists. split; eauto.
Qed.
Lemma good_pin {A} t (Q : A -> world -> Prop) p o a f w : isMap w o a ->
  (forall w', rely t w w' -> fs w' p = Some o -> good t Q (f ROk) w') -> (forall w' e, rely t w w' -> good t Q (f (RErr e)) w') -> good t Q (Call (ObjPin p o) f) w.
Proof.
  intros IM H1 H2 w1 W R w2 r K. destruct K as [K|(e & F & -> & ->)]; [|split; [apply guar_refl; auto|apply H2; auto]]. cbn in K.
  destruct (fs w1 p) as [q|] eqn:P; injection K as <- <-; [split; [apply guar_refl; auto|apply H2; auto]|].
  assert (KP : keeps w1 (withFs w1 (set (fs w1) p (Some o)))).
  { split; [|intros x y X; exists y; auto]. intros q u E. cbn. rewrite set_other; auto. congruence. }
  split.
  - split; [|split; auto]. destruct W as (W1 & W2 & W3). split; [auto|split; auto]. intros q u E. cbn in *. unfold set in E. destruct (path_eqb q p); [|eauto]. injection E as <-.
    destruct R as (R & _). destruct (isMap_keeps _ _ _ _ R IM) as (x & X & _). apply nth_error_Some. congruence.
  - apply H1; [|cbn; apply set_same]. eapply rely_trans; [exact R|]. split; auto.
Qed.
Lemma update_nth {B} (f : B -> B) l : forall i j, nth_error (update i f l) j = if Nat.eqb i j then option_map f (nth_error l j) else nth_error l j.
Proof. induction l as [|x l IH]; intros [|i] [|j]; cbn; auto. destruct (Nat.eqb i j); auto. Qed.
Lemma update_length {B} (f : B -> B) l : forall i, length (update i f l) = length l.
Proof. induction l as [|x l IH]; intros [|i]; cbn; auto. Qed.
Lemma onObj_guar t w o f : wf w -> (forall x, o_attrs (f x) = o_attrs x /\ (o_frozen x = true -> o_frozen (f x) = true) /\ forall k v, In (k, v) c -> o_data x k = Some v -> o_data (f x) k = Some v) -> guar t w (onObj w o f).
Proof.
  intros (W1 & W2 & W3) F. split; [split; [|split]; auto|].
  - cbn. intros p u E. rewrite update_length. eauto.
  - split; [|auto]. split; auto. intros u x X. cbn. rewrite update_nth. destruct (Nat.eqb o u); rewrite X; cbn; [|exists x; auto]. exists (f x). destruct (F x) as (F1 & F2 & F3). auto.
Qed.
Definition has (w : world) (o : nat) (k v : Z) : Prop := exists x, nth_error (objs w) o = Some x /\ o_data x k = Some v.
Lemma has_keeps w w' o k v : keeps w w' -> In (k, v) c -> has w o k v -> has w' o k v.
Proof. intros (_ & K) I (x & X & E). destruct (K _ _ X) as (y & Y & _ & _ & Y1). exists y. auto. Qed.
Lemma functional k v v' : In (k, v) c -> In (k, v') c -> v = v'.
Proof.
  clear - keys. induction c as [|[x y] l IH]; cbn in *; [tauto|]. inversion keys; subst. intros [I|I] [J|J]; auto; try congruence.
  - injection I as -> ->. elim H1. apply in_map_iff. exists (k, v'). auto.
  - injection J as -> ->. elim H1. apply in_map_iff. exists (k, v). auto.
Qed.
Lemma good_put {A} t (Q : A -> world -> Prop) o a k v f w : isMap w o a -> In (k, v) c ->
  (forall w', rely t w w' -> has w' o k v -> good t Q (f ROk) w') -> (forall w' e, rely t w w' -> good t Q (f (RErr e)) w') -> good t Q (Call (Put o k v) f) w.
Proof.
  intros IM IC H1 H2 w1 W R w2 r K. destruct K as [K|(e & F & -> & ->)]; [|split; [apply guar_refl; auto|apply H2; auto]]. cbn in K.
  destruct (isMap_keeps _ _ _ _ (proj1 R) IM) as (x & X & XA). rewrite X in K. destruct x as [xa xd [|]]; injection K as <- <-; [split; [apply guar_refl; auto|apply H2; auto]|].
  set (g := fun x : object => _). assert (G : guar t w1 (onObj w1 o g)).
  { apply onObj_guar; auto. intros y. cbn. split; auto. split; auto. intros k' v' I' E. destruct (Z.eqb_spec k' k) as [-> | NE]; auto. f_equal. eapply functional; eauto. }
  split; auto. apply H1; [eapply rely_trans; [exact R|]; split; auto; apply G|]. eexists. split; [cbn; rewrite update_nth, Nat.eqb_refl, X; reflexivity|]. cbn. rewrite Z.eqb_refl. auto.
Qed.
Definition frozen (w : world) (o : nat) : Prop := exists x, nth_error (objs w) o = Some x /\ o_frozen x = true.
Lemma frozen_keeps w w' o : keeps w w' -> frozen w o -> frozen w' o.
Proof. intros (_ & K) (x & X & E). destruct (K _ _ X) as (y & Y & _ & Y1 & _). exists y. auto. Qed.
Lemma good_freeze {A} t (Q : A -> world -> Prop) o a f w : isMap w o a ->
  (forall w', rely t w w' -> frozen w' o -> good t Q (f ROk) w') -> (forall w' e, rely t w w' -> good t Q (f (RErr e)) w') -> good t Q (Call (Freeze o) f) w.
Proof.
  intros IM H1 H2 w1 W R w2 r K. destruct K as [K|(e & F & -> & ->)]; [|split; [apply guar_refl; auto|apply H2; auto]]. cbn in K. injection K as <- <-.
  destruct (isMap_keeps _ _ _ _ (proj1 R) IM) as (x & X & XA).
  set (g := fun x : object => _). assert (G : guar t w1 (onObj w1 o g)) by (apply onObj_guar; auto).
  split; auto. apply H1; [eapply rely_trans; [exact R|]; split; auto; apply G|]. eexists. split; [cbn; rewrite update_nth, Nat.eqb_refl, X; reflexivity|]. auto.
Qed.

(** The functions *)
Definition created (t : nat) (w : world) (a : attrs) (r : res err handle) (w' : world) : Prop :=
  match r with
  | Ok h => keeps w w' /\ own t w' = (t, h_fd h) :: own t w /\ h_path h = [] /\ exists s, fixupMagicFields cpus a = Ok s /\ isMap w' (h_obj h) (reported devmapRO s)
  | Err _ => rely t w w'
  end.
Lemma createMap_good t a b w : good t (created t w a) (createMap cpus a b) w.
Proof.
  unfold createMap. destruct (fixupMagicFields cpus a) as [s|e] eqn:FX; [|cbn; apply rely_refl].
  assert (TAIL : forall (bt : option nat) w1 r, keeps w w1 ->
    (match r with RFd fd o => isMap w1 o (reported devmapRO s) /\ own t w1 = (t, fd) :: match bt with Some x => [(t, x)] | None => [] end ++ own t w
     | _ => own t w1 = match bt with Some x => [(t, x)] | None => [] end ++ own t w end) ->
    good t (created t w a) (match r with
      | RFd fd o => if hasPerCPUValue (a_type s) && false then _ <~ Close fd; (match bt with Some fd => _ <~ Close fd; Ret (Err ECPU) | None => Ret (Err ECPU) end)
                    else match bt with Some x => _ <~ Close x; Ret (Ok (Handle o fd s [])) | None => Ret (Ok (Handle o fd s [])) end
      | RErr e => match bt with Some fd => _ <~ Close fd; Ret (Err (Errno e)) | None => Ret (Err (Errno e)) end
      | _ => match bt with Some fd => _ <~ Close fd; Ret (Err (Errno EINVAL)) | None => Ret (Err (Errno EINVAL)) end
      end) w1).
  { intros bt w1 r K1 X.
    assert (TE : forall e, own t w1 = match bt with Some x => [(t, x)] | None => [] end ++ own t w -> good t (created t w a) (match bt with Some fd => _ <~ Close fd; Ret (Err e) | None => Ret (Err e) end) w1).
    { intros e E. destruct bt as [x|]; [|split; auto]. apply (good_close t _ _ _ _ [] (own t w) E). intros w2 K2 O2. split; [eapply keeps_trans; eauto|auto]. }
    destruct r; auto. destruct X as (X1 & X2). rewrite andb_false_r. destruct bt as [x|].
    - apply (good_close t _ _ _ _ [(t, fd)] (own t w) X2). intros w2 K2 O2. cbn. split; [eapply keeps_trans; eauto|]. split; auto. split; auto. exists s. split; auto. eapply isMap_keeps; eauto.
    - cbn. split; auto. split; auto. split; auto. exists s. auto. }
  destruct b.
  - apply good_bind. apply good_btf.
    + intros w1 fd o K1 O1. cbn [bind]. cbn [good]. apply good_create.
      * intros w2 fd2 o2 K2 O2 M2. cbn [bind]. apply (TAIL (Some fd) w2 (RFd fd2 o2)); [eapply keeps_trans; eauto|]. split; auto. rewrite O2, O1. auto.
      * intros w2 e (K2 & O2). assert (D : good t (created t w a) (match Some fd with Some x => _ <~ Close x; Ret (Err (Errno e)) | None => Ret (Err (Errno e)) end) w2).
        { apply (TAIL (Some fd) w2 (RErr e)); [eapply keeps_trans; eauto|]. rewrite O2, O1. auto. }
        destruct e; try exact D. clear D. cbn [bind]. apply good_create.
        -- intros w3 fd3 o3 K3 O3 M3. apply (TAIL (Some fd) w3 (RFd fd3 o3)); [eapply keeps_trans; [|eauto]; eapply keeps_trans; eauto|]. split; auto. rewrite O3, O2, O1. auto.
        -- intros w3 e (K3 & O3). apply (TAIL (Some fd) w3 (RErr e)); [eapply keeps_trans; [|eauto]; eapply keeps_trans; eauto|]. rewrite O3, O2, O1. auto.
    + intros w1 e (K1 & O1). assert (D : forall w2, rely t w w2 -> good t (created t w a) (r <~ MapCreate s false; r <- Ret r; match r with
      | RFd fd o => if hasPerCPUValue (a_type s) && false then _ <~ Close fd; Ret (Err ECPU) else Ret (Ok (Handle o fd s []))
      | RErr e => Ret (Err (Errno e))
      | _ => Ret (Err (Errno EINVAL))
      end) w2).
      { intros w2 (K2 & O2). apply good_create.
        - intros w3 fd3 o3 K3 O3 M3. apply (TAIL None w3 (RFd fd3 o3)); [eapply keeps_trans; eauto|]. split; auto. rewrite O3, O2. auto.
        - intros w3 e3 (K3 & O3). apply (TAIL None w3 (RErr e3)); [eapply keeps_trans; eauto|]. rewrite O3, O2. auto. }
      destruct e; cbn [bind good]; try (apply D; split; auto). split; auto.
  - cbn [bind]. apply good_create.
    + intros w3 fd3 o3 K3 O3 M3. apply (TAIL None w3 (RFd fd3 o3)); [auto|]. split; auto.
    + intros w3 e3 (K3 & O3). apply (TAIL None w3 (RErr e3)); auto.
Qed.
Definition loaded (t : nat) (w : world) (p : path) (r : res err handle) (w' : world) : Prop :=
  match r with
  | Ok h => keeps w w' /\ own t w' = (t, h_fd h) :: own t w /\ h_path h = p /\ fs w' p = Some (h_obj h) /\ isMap w' (h_obj h) (h_attrs h)
  | Err _ => rely t w w'
  end.
Lemma LoadPinnedMap_good t p w : good t (loaded t w p) (LoadPinnedMap cpus p) w.
Proof.
  unfold LoadPinnedMap, ObjGetTyped. cbn [bind]. apply good_get; [|intros w1 e R; exact R].
  intros w1 fd o K1 O1 F1.
  assert (CL : forall A (B : A) w2 e (Q : A -> world -> Prop), keeps w w2 -> own t w2 = own t w1 -> (forall w3, rely t w w3 -> Q e w3) -> good t Q (_ <~ Close fd; Ret e) w2).
  { intros A _ w2 e Q K2 O2 H. rewrite O1 in O2. apply (good_close t _ _ _ _ [] (own t w) O2). intros w3 K3 O3. cbn. apply H. split; [eapply keeps_trans; eauto|auto]. }
  cbn [bind]. apply good_type.
  - intros w2 b (K2 & O2). cbn [bind]. destruct b.
    + unfold newMapFromFD. cbn [bind]. apply good_info.
      * intros w3 a (K3 & O3) M3. rewrite andb_false_r. cbn. split; [eapply keeps_trans; [|eauto]; eapply keeps_trans; eauto|]. split; [congruence|]. split; auto. split; auto. apply K3, K2. auto.
      * intros w3 e (K3 & O3). cbn [bind]. apply CL; auto; [exact (Err (Errno e))|eapply keeps_trans; [|eauto]; eapply keeps_trans; eauto|congruence].
    + apply CL; auto; [exact (Err ENotMap)|eapply keeps_trans; eauto].
  - intros w2 e (K2 & O2). cbn [bind]. apply CL; auto; [exact (Err ENotMap)|eapply keeps_trans; eauto].
Qed.
Definition made (t : nat) (w : world) (s : spec) (r : res err handle) (w' : world) : Prop :=
  match r with
  | Ok h => keeps w w' /\ own t w' = (t, h_fd h) :: own t w /\
      (forall p, s_pin s = Some p -> h_path h = p /\ fs w' p = Some (h_obj h)) /\ (s_pin s = None -> h_path h = []) /\
      exists a, isMap w' (h_obj h) a /\ Compatible cpus (s_attrs s) a = None
  | Err _ => rely t w w'
  end.
Lemma MapPin_good t h p a w : h_path h = [] -> isMap w (h_obj h) a ->
  good t (fun r w' => rely t w w' /\ match r with (h', None) => h' = withPath h p /\ fs w' p = Some (h_obj h) | (h', Some _) => h' = h end) (MapPin h p) w.
Proof.
  intros HP M. unfold MapPin, Pin. rewrite HP. destruct p as [|x p]; [cbn; split; [apply rely_refl|auto]|]. cbn [path_eqb].
  replace (path_eqb [] (x :: p)) with false by (unfold path_eqb; destruct (list_eq_dec Z.eq_dec [] (x :: p)); easy).
  cbn [bind]. apply good_statfs; [|intros w1 e R; cbn; auto].
  intros w1 [|] R1; [|cbn; auto]. unfold pinAt. cbn [bind]. apply good_pin with (a := a); [eapply isMap_keeps; [apply R1|auto]| |].
  - intros w2 R2 F2. cbn. split; [eapply rely_trans; eauto|]. auto.
  - intros w2 e R2. cbn. split; [eapply rely_trans; eauto|]. auto.
Qed.
Lemma newMapNew_good t s w : good t (made t w s) (newMapNew cpus s) w.
Proof.
  unfold newMapNew. apply good_seq with (P := fun r w' => match r with Ok tpl => keeps w w' /\ own t w' = match tpl with Some fd => [(t, fd)] | None => [] end ++ own t w | Err _ => rely t w w' end).
  { destruct (s_inner s) as [[ia ib]|].
    - destruct (canStoreMap _); [|cbn; split; auto; apply keeps_refl]. eapply good_seq; [apply createMap_good|]. intros [h|e] w1 C; cbn in *; tauto.
    - destruct (canStoreMap _); cbn; [apply rely_refl|split; auto; apply keeps_refl]. }
  intros [tpl|e] w1 P; [|exact P]. destruct P as (K1 & O1).
  assert (ERR : forall w2 e, keeps w w2 -> own t w2 = match tpl with Some fd => [(t, fd)] | None => [] end ++ own t w ->
    good t (made t w s) (match tpl with Some fd => _ <~ Close fd; Ret (Err e) | None => Ret (Err e) end) w2).
  { intros w2 e K2 O2. destruct tpl as [fd|]; [|split; auto]. apply (good_close t _ _ _ _ [] (own t w) O2). intros w3 K3 O3. cbn. split; [eapply keeps_trans; eauto|auto]. }
  assert (OK : forall w2 h, (forall w3, keeps w2 w3 -> own t w3 = (t, h_fd h) :: own t w -> made t w s (Ok h) w3) -> own t w2 = (t, h_fd h) :: match tpl with Some fd => [(t, fd)] | None => [] end ++ own t w ->
    good t (made t w s) (match tpl with Some fd => _ <~ Close fd; Ret (Ok h) | None => Ret (Ok h) end) w2).
  { intros w2 h H O2. destruct tpl as [fd|]; [|apply H; auto; apply keeps_refl]. apply (good_close t _ _ _ _ [(t, h_fd h)] (own t w) O2). intros w3 K3 O3. cbn [good]. auto. }
  eapply good_seq; [apply createMap_good|]. intros [h|e] w2 C; cbn in C.
  2:{ destruct C as (K2 & O2). assert (G : good t (made t w s) (match tpl with Some fd => _ <~ Close fd; Ret (Err e) | None => Ret (Err e) end) w2) by (apply ERR; [eapply keeps_trans; eauto|congruence]). destruct (s_pin s); exact G. }
  destruct C as (K2 & O2 & HP & sp & FX & M2). rewrite O1 in O2.
  destruct (s_pin s) as [p|] eqn:SP.
  - eapply good_seq; [eapply MapPin_good; eauto|]. intros [h' [e|]] w3 (R3 & X).
    + destruct R3 as (K3 & O3). rewrite O2 in O3. apply (good_close t _ _ _ _ [] _ O3). intros w4 K4 O4. apply ERR; [|exact O4]. repeat (eapply keeps_trans; [|eassumption]). apply keeps_refl.
    + destruct R3 as (K3 & O3). destruct X as (-> & F3). rewrite O2 in O3. apply OK; [|exact O3].
      intros w4 K4 O4. unfold made. cbn [h_fd h_obj h_path withPath]. split; [repeat (eapply keeps_trans; [|eassumption]); apply keeps_refl|]. split; auto. split; [intros q Q; rewrite SP in Q; injection Q as <-; split; auto; apply K4; auto|].
      split; [congruence|]. exists (reported devmapRO sp). split; [|apply C90_reusable; auto]. eapply isMap_keeps; [|eassumption]. eapply keeps_trans; eauto.
  - apply OK; [|exact O2]. intros w4 K4 O4. unfold made. split; [repeat (eapply keeps_trans; [|eassumption]); apply keeps_refl|]. split; auto. split; [congruence|]. split; auto.
    exists (reported devmapRO sp). split; [|apply C90_reusable; auto]. eapply isMap_keeps; eassumption.
Qed.
Lemma made_rely t w w1 s : rely t w w1 -> forall r w2, made t w1 s r w2 -> made t w s r w2.
Proof.
  intros (K & O) [h|e] w2 M; unfold made in *.
  - destruct M as (A & B & D). split; [eapply keeps_trans; eauto|]. split; [congruence|auto].
  - eapply rely_trans; eauto. split; auto.
Qed.
Lemma newMapWithOptions_good t s w : good t (made t w s) (newMapWithOptions cpus s) w.
Proof.
  unfold newMapWithOptions. destruct (s_pin s) as [p|] eqn:SP; [|apply newMapNew_good].
  eapply good_seq; [apply LoadPinnedMap_good|]. intros [h|e] w1 L; cbn in L.
  - destruct L as (K1 & O1 & HP & F1 & M1). destruct (Compatible cpus (s_attrs s) (h_attrs h)) as [e|] eqn:CO.
    + apply (good_close t _ _ _ _ [] _ O1). intros w2 K2 O2. cbn. split; [eapply keeps_trans; eauto|auto].
    + unfold good, made. split; auto. split; auto. split; [intros q Q; rewrite SP in Q; injection Q as <-; auto|]. split; [congruence|]. exists (h_attrs h). auto.
  - assert (G : forall e, good t (made t w s) (Ret (Err e)) w1) by (intros; exact L).
    destruct e as [[]| | | | | |]; auto. eapply good_weaken; [|apply newMapNew_good]. intros r w2. apply made_rely; auto.
Qed.
Lemma putAll_good t o a (Q : option err -> world -> Prop) k : forall l w,
  incl l c -> isMap w o a -> (forall w', rely t w w' -> (forall x v, In (x, v) l -> has w' o x v) -> good t Q k w') ->
  (forall w' e, rely t w w' -> Q (Some e) w') -> good t Q (putAll o l k) w.
Proof.
  induction l as [|[x v] l IH]; intros w IC M H1 H2; cbn [putAll].
  - apply H1; [apply rely_refl|intros ? ? []].
  - apply good_put with (a := a); auto; [apply IC; cbn; auto| |].
    + intros w1 R1 H. apply IH; [intros y Y; apply IC; cbn; auto|eapply isMap_keeps; [apply R1|auto]| |].
      * intros w2 R2 D. apply H1; [eapply rely_trans; eauto|]. intros y u [E|I]; auto. injection E as <- <-. eapply has_keeps; [apply R2| |auto]. apply IC. cbn. auto.
      * intros w2 e R2. apply H2. eapply rely_trans; eauto.
    + intros w1 e R1. cbn. auto.
Qed.
Lemma finalize_good t s o a w : incl (s_contents s) c -> isMap w o a ->
  good t (fun r w' => rely t w w' /\ match r with None => (forall x v, In (x, v) (s_contents s) -> has w' o x v) /\ (s_const s = true -> frozen w' o) | Some _ => True end) (finalize s o) w.
Proof.
  intros IC M. unfold finalize. eapply putAll_good; eauto. intros w1 R1 D. destruct (s_const s).
  - apply good_freeze with (a := a); [eapply isMap_keeps; [apply R1|auto]| |].
    + intros w2 R2 F. cbn. split; [eapply rely_trans; eauto|]. split; auto. intros x v I. eapply has_keeps; [apply R2|apply IC|]; auto.
    + intros w2 e R2. cbn. split; auto. eapply rely_trans; eauto.
  - cbn. split; auto. split; auto. discriminate.
Qed.
(** What a thread that has finished left behind *)
Definition finished (i : nat) (s : spec) (r : res err handle) (w : world) : Prop :=
  match r with
  | Ok h => own i w = [(i, h_fd h)] /\ (forall p, s_pin s = Some p -> h_path h = p /\ fs w p = Some (h_obj h)) /\ usable cpus s w (h_obj h)
  | Err _ => own i w = []
  end.
Lemma finished_rely i s r w w' : incl (s_contents s) c -> rely i w w' -> finished i s r w -> finished i s r w'.
Proof.
  intros IC (K & O) F. destruct r as [h|e]; cbn in *; [|congruence]. destruct F as (F1 & F2 & x & a & X & XA & XC & XD & XF). split; [congruence|]. split.
  - intros p P. destruct (F2 p P). split; auto. apply K; auto.
  - destruct K as (_ & K). destruct (K _ _ X) as (y & Y & Y1 & Y2 & Y3). exists y, a. split; auto. split; [congruence|]. split; auto.
Qed.
Lemma NewMap_good t s w : incl (s_contents s) c -> own t w = [] -> good t (finished t s) (NewMap cpus s) w.
Proof.
  intros IC O. unfold NewMap. eapply good_seq; [apply newMapWithOptions_good|]. intros [h|e] w1 M; cbn in M.
  2:{ cbn. destruct M. congruence. }
  destruct M as (K1 & O1 & P1 & N1 & a & M1 & C1). rewrite O in O1.
  eapply good_seq; [eapply finalize_good; eauto|]. intros [e|] w2 ((K2 & O2) & F).
  - rewrite O1 in O2. apply (good_close t _ _ _ _ [] [] O2). intros w3 K3 O3. exact O3.
  - cbn. split; [congruence|]. split; [intros p P; destruct (P1 p P); split; auto; apply K2; auto|].
    destruct F as (F1 & F2). destruct (isMap_keeps _ _ _ _ K2 M1) as (x & X & XA). exists x, a. split; auto. split; auto. split; auto. split.
    + intros k v I. destruct (F1 k v I) as (y & Y & D). congruence.
    + intros CN. destruct (F2 CN) as (y & Y & D). congruence.
Qed.

(** The system *)
Variable specs : list spec.
Hypothesis contents : forall s, In s specs -> incl (s_contents s) c.
Definition invariant (cf : world * threads (res err handle)) : Prop :=
  let '(w, ts) := cf in wf w /\ length ts = length specs /\
  forall i s, nth_error specs i = Some s -> match nth_error ts i with
    | Some (Some m) => good i (finished i s) m w
    | Some None => own i w = []
    | None => False
    end.
Lemma rely_inv w w' ts i s : rely i w w' -> In s specs -> match nth_error ts i with Some (Some m) => good i (finished i s) m w | Some None => own i w = [] | None => False end ->
  match nth_error ts i with Some (Some m) => good i (finished i s) m w' | Some None => own i w' = [] | None => False end.
Proof.
  intros R I. destruct (nth_error ts i) as [[m|]|]; auto.
  - intros G. eapply good_rely; eauto. intros. eapply finished_rely; eauto.
  - destruct R as (_ & R). congruence.
Qed.
Lemma put_nth {B} (l : list B) i j b : nth_error (put l i b) j = if Nat.eqb i j then option_map (fun _ => b) (nth_error l j) else nth_error l j.
Proof. apply update_nth. Qed.
Lemma step_invariant a b : step bpffs devmapRO a b -> invariant a -> invariant b.
Proof.
  destruct a as (wa & tsa). intros ST (W & L & I). inversion ST as [w ts i k f w' r N K|w ts i m N]; subst.
  - assert (i < length specs)%nat as LT by (rewrite <- L; apply nth_error_Some; congruence).
    destruct (nth_error specs i) as [s|] eqn:SI; [|apply nth_error_None in SI; lia].
    specialize (I i s SI) as G. rewrite N in G. destruct (G _ W (rely_refl _ _) _ _ K) as ((W' & KP & OW) & G').
    split; auto. split; [unfold put; rewrite update_length; auto|]. intros j sj SJ. rewrite put_nth. destruct (Nat.eqb_spec i j) as [<- | NE].
    + rewrite N. cbn. rewrite SI in SJ. injection SJ as <-. auto.
    + eapply rely_inv; [|eapply nth_error_In; eauto|apply I; auto]. split; auto.
  - assert (i < length specs)%nat as LT by (rewrite <- L; apply nth_error_Some; congruence). destruct W as (W1 & W2 & W3).
    split; [|split; [unfold put; rewrite update_length; auto|]].
    + split; [cbn; apply NoDup_filter_map; auto|]. split; auto. cbn. apply Forall_forall. intros x X. apply filter_In in X. rewrite Forall_forall in W2. apply W2. tauto.
    + intros j sj SJ. rewrite put_nth. destruct (Nat.eqb_spec i j) as [<- | NE].
      * rewrite N. cbn. unfold own. cbn. rewrite filter_comm. clear. induction (fds wa) as [|x l IH]; auto. cbn. destruct (Nat.eqb (fst x) i) eqn:E; cbn; rewrite ?E; cbn; auto.
      * eapply rely_inv; [|eapply nth_error_In; eauto|apply I; auto]. split; [split; auto; intros o x X; exists x; auto|].
        unfold own. cbn. rewrite filter_comm. apply filter_same. intros x X. apply filter_In in X. destruct X as (_ & X). apply Nat.eqb_eq in X. destruct (Nat.eqb_spec (fst x) i); auto. congruence.
Qed.
Lemma steps_invariant a b : steps bpffs devmapRO a b -> invariant a -> invariant b.
Proof. induction 1; auto. intros I. eapply step_invariant; eauto. Qed.
Lemma start_invariant w : wf w -> (forall i, (i < length specs)%nat -> own i w = []) -> invariant (w, map (fun s => Some (NewMap cpus s)) specs).
Proof.
  intros W O. split; auto. split; [apply map_length|]. intros i s N. rewrite nth_error_map, N. cbn. apply NewMap_good; [apply contents; eapply nth_error_In; eauto|]. apply O. apply nth_error_Some. congruence.
Qed.
Lemma keeps_guar_step a b : step bpffs devmapRO a b -> invariant a -> keeps (fst a) (fst b).
Proof.
  destruct a as (wa & tsa). intros ST (W & L & I). inversion ST as [w ts i k f w' r N K|w ts i m N]; subst.
  - assert (i < length specs)%nat as LT by (rewrite <- L; apply nth_error_Some; congruence).
    destruct (nth_error specs i) as [s|] eqn:SI; [|apply nth_error_None in SI; lia].
    specialize (I i s SI) as G. rewrite N in G. destruct (G _ W (rely_refl _ _) _ _ K) as ((W' & KP & OW) & G'). auto.
  - split; auto; intros o x X; exists x; auto.
Qed.
Lemma steps_keeps a b : steps bpffs devmapRO a b -> invariant a -> keeps (fst a) (fst b).
Proof. induction 1; intros I; [apply keeps_refl|]. eapply keeps_trans; eauto. eapply keeps_guar_step; eauto. eapply steps_invariant; eauto. Qed.
End Race.

(** Any number of processes call NewMap at once, each with its own spec, which may be pinned by name. Any system call may fail, and any process may be killed at any time. *)
Definition started (cpus : option Z) (specs : list spec) : threads (res err handle) := map (fun s => Some (NewMap cpus s)) specs.
(** The contents agree: no two specs give different values to a key. *)
Definition agree (specs : list spec) : Prop := exists c, NoDup (map fst c) /\ forall s, In s specs -> incl (s_contents s) c.
(** All that succeed with the same path have the same map. *)
Theorem C90_same : forall bpffs ro n specs w w' ts i j s1 s2 p h1 h2,
  agree specs -> wf w -> (forall i, (i < length specs)%nat -> own i w = []) ->
  steps bpffs ro (w, started (Some n) specs) (w', ts) ->
  nth_error specs i = Some s1 -> nth_error specs j = Some s2 -> s_pin s1 = Some p -> s_pin s2 = Some p ->
  nth_error ts i = Some (Some (Ret (Ok h1))) -> nth_error ts j = Some (Some (Ret (Ok h2))) ->
  h_obj h1 = h_obj h2 /\ fs w' p = Some (h_obj h1) /\ h_path h1 = p /\ h_path h2 = p.
Proof.
  intros * (c & NC & IC) W O ST S1 S2 P1 P2 T1 T2. apply (steps_invariant bpffs ro n c specs IC) in ST; [|apply start_invariant; auto].
  destruct ST as (_ & _ & I). pose proof (I i s1 S1) as A. pose proof (I j s2 S2) as B. rewrite T1 in A. rewrite T2 in B. cbn in A, B.
  destruct A as (_ & A & _). destruct B as (_ & B & _). destruct (A p P1), (B p P2). split; [congruence|auto].
Qed.
(** The map is compatible with the spec of everyone who has it, has the contents and is frozen if it is to be. *)
Theorem C90_usable : forall bpffs ro n specs w w' ts i s h,
  agree specs -> wf w -> (forall i, (i < length specs)%nat -> own i w = []) ->
  steps bpffs ro (w, started (Some n) specs) (w', ts) ->
  nth_error specs i = Some s -> nth_error ts i = Some (Some (Ret (Ok h))) -> usable (Some n) s w' (h_obj h).
Proof.
  intros * (c & NC & IC) W O ST S1 T1. apply (steps_invariant bpffs ro n c specs IC) in ST; [|apply start_invariant; auto].
  destruct ST as (_ & _ & I). pose proof (I i s S1) as A. rewrite T1 in A. apply A.
Qed.
(** Who succeeds has one descriptor, that of the map; who fails or is killed has none. *)
Theorem C90_no_leak : forall bpffs ro n specs w w' ts i s,
  agree specs -> wf w -> (forall i, (i < length specs)%nat -> own i w = []) ->
  steps bpffs ro (w, started (Some n) specs) (w', ts) -> nth_error specs i = Some s ->
  match nth_error ts i with
  | Some (Some (Ret (Ok h))) => own i w' = [(i, h_fd h)]
  | Some (Some (Ret (Err _))) | Some None => own i w' = []
  | Some (Some (Call _ _)) => True
  | None => False
  end.
Proof.
  intros * (c & NC & IC) W O ST S1. apply (steps_invariant bpffs ro n c specs IC) in ST; [|apply start_invariant; auto].
  destruct ST as (_ & _ & I). pose proof (I i s S1) as A. destruct (nth_error ts i) as [[[[h|e]|k f]|]|]; auto. apply A.
Qed.
(** Pins and maps stay; values of the contents stay; nothing is thawed. *)
Theorem C90_kept : forall bpffs ro n specs w w' ts,
  agree specs -> wf w -> (forall i, (i < length specs)%nat -> own i w = []) ->
  steps bpffs ro (w, started (Some n) specs) (w', ts) ->
  (forall p o, fs w p = Some o -> fs w' p = Some o) /\
  (forall o x, nth_error (objs w) o = Some x -> exists x', nth_error (objs w') o = Some x' /\ o_attrs x' = o_attrs x /\ (o_frozen x = true -> o_frozen x' = true)).
Proof.
  intros * (c & NC & IC) W O ST. apply (steps_keeps bpffs ro n c specs IC) in ST; [|apply start_invariant; auto].
  destruct ST as (A & B). split; auto. intros o x X. destruct (B _ _ X) as (y & Y & Y1 & Y2 & _). exists y. auto.
Qed.
(** A pinned map that is compatible is reused: no map is created. *)
Lemma exec_bind {A B} bpffs ro t (m : prog A) (f : A -> prog B) : forall w, exec bpffs ro t (bind m f) w = let '(w1, a) := exec bpffs ro t m w in exec bpffs ro t (f a) w1.
Proof. induction m as [a|k g IH]; intros w; cbn; auto. destruct (kexec bpffs ro w t k) as (w1 & r). auto. Qed.
Theorem C90_reopen : forall bpffs ro n t s p w o a d, s_pin s = Some p -> fs w p = Some o -> nth_error (objs w) o = Some (Object (Some a) d false) -> Compatible (Some n) (s_attrs s) a = None ->
  exists w' h, exec bpffs ro t (NewMap (Some n) s) w = (w', Ok h) /\ h_obj h = o /\ fs w' = fs w /\ length (objs w') = length (objs w).
Proof.
  intros * P F O C. unfold NewMap. rewrite exec_bind. unfold newMapWithOptions. rewrite P. unfold LoadPinnedMap, ObjGetTyped. cbn. rewrite F. cbn. rewrite O. cbn. rewrite O. cbn. rewrite andb_false_r. cbn. rewrite C. cbn.
  rewrite exec_bind. unfold finalize. cbn [h_obj withPath].
  set (w1 := World (objs w) (fs w) (S (nfd w)) ((t, nfd w) :: fds w)).
  assert (G : forall l w2 e, nth_error (objs w2) o = Some (Object (Some a) e false) ->
    exists w3, exec bpffs ro t (putAll o l (if s_const s then r <~ Freeze o; Ret (match r with RErr e => Some (Errno e) | _ => None end) else Ret None)) w2 = (w3, None) /\ fs w3 = fs w2 /\ length (objs w3) = length (objs w2)).
  { induction l as [|[k v] l IH]; intros w2 e E.
    - cbn. destruct (s_const s); cbn; eexists; (split; [reflexivity|]); cbn; split; auto. apply update_length.
    - cbn. rewrite E. edestruct (IH (onObj w2 o (fun x => Object (o_attrs x) (fun j => if j =? k then Some v else o_data x j) (o_frozen x)))) as (w3 & X & Y & Z).
      { cbn. rewrite update_nth, Nat.eqb_refl, E. reflexivity. }
      exists w3. split; auto. split; auto. rewrite Z. cbn. apply update_length. }
  destruct (G (s_contents s) w1 d O) as (w3 & X & Y & Z). rewrite X. cbn. do 2 eexists. split; [reflexivity|]. cbn. auto.
Qed.

(** Opening an existing map writes the contents of the spec over its data. *)
Definition pin1 : path := [47; 98; 47; 109].
Definition arr : attrs := Attrs 2 4 4 1 0.
Definition counter (v : Z) (f : bool) : world := World [Object (Some arr) (fun k => if k =? 0 then Some v else None) f] (fun p => if path_eqb p pin1 then Some 0%nat else None) 0 [].
Definition dataSpec (const : bool) : spec := Spec arr false None (Some pin1) [(0, 7)] const.
Theorem C90_overwrite_refuted : exists w h x, exec (fun _ => true) false 0 (NewMap (Some 4) (dataSpec false)) (counter 42 false) = (w, Ok h) /\ h_obj h = 0%nat /\ nth_error (objs w) 0 = Some x /\ o_data x 0 = Some 7.
Proof. do 3 eexists. split; [vm_compute; reflexivity|]. cbn. split; auto. Qed.
(** A constant map that is pinned by name is made once and can't be opened again, not even with the same contents. *)
Theorem C90_const_refuted : let fresh := World [] (fun _ => None) 0 [] in let on := fun _ => true in
  exists w1 h, exec on false 0 (NewMap (Some 4) (dataSpec true)) fresh = (w1, Ok h) /\ exists w2, exec on false 1 (NewMap (Some 4) (dataSpec true)) w1 = (w2, Err (Errno EPERM)).
Proof. do 2 eexists. split; [vm_compute; reflexivity|]. eexists. vm_compute. reflexivity. Qed.
(** If a map can't be filled, its pin stays. *)
Theorem C90_left_refuted : let fresh := World [] (fun _ => None) 0 [] in let on := fun _ => true in
  exists w, runs on false 0 (NewMap (Some 4) (dataSpec false)) fresh (Err (Errno EINVAL)) w /\ fs w pin1 = Some 0%nat /\ own 0 w = [] /\ exists x, nth_error (objs w) 0 = Some x /\ o_data x 0 = None.
Proof.
  eexists. split.
  - eapply RunCall; [left; reflexivity|]. eapply RunCall; [left; reflexivity|]. cbn. eapply RunCall; [left; reflexivity|]. cbn. eapply RunCall; [left; reflexivity|]. cbn.
    eapply RunCall; [right; exists EINVAL; cbn; auto|]. cbn. eapply RunCall; [left; reflexivity|]. apply RunRet.
  - vm_compute. split; auto. split; auto. eexists. split; [reflexivity|]. reflexivity.
Qed.
(** Example: two processes race; the second can't pin its map and fails; the third reuses that of the first. *)
Fixpoint sched (l : list nat) (cf : world * threads (res err handle)) : world * threads (res err handle) :=
  match l with
  | [] => cf
  | i :: l => match nth_error (snd cf) i with
              | Some (Some (Call k f)) => let '(w, r) := kexec (fun _ => true) false (fst cf) i k in sched l (w, put (snd cf) i (Some (f r)))
              | _ => sched l cf
              end
  end.
Lemma sched_steps a : forall l b, steps (fun _ => true) false a b -> steps (fun _ => true) false a (sched l b).
Proof.
  induction l as [|i l IH]; intros [w ts] S1; auto. cbn [sched fst snd]. destruct (nth_error ts i) as [[[x|k f]|]|] eqn:N; auto.
  destruct (kexec (fun _ => true) false w i k) as (w1 & r) eqn:K. apply IH. eapply StepsCons; [eassumption|]. eapply StepCall; eauto. left. auto.
Qed.
Definition fresh : world := World [] (fun _ => None) 0 [].
Definition three : list spec := [dataSpec false; dataSpec false; dataSpec false].
Example C90_example : exists w ts h1 h3, agree three /\ wf fresh /\ (forall i, own i fresh = []) /\ steps (fun _ => true) false (fresh, started (Some 4) three) (w, ts) /\
  ts = [Some (Ret (Ok h1)); Some (Ret (Err (Errno EEXIST))); Some (Ret (Ok h3))] /\ h_obj h1 = h_obj h3 /\ length (objs w) = 2%nat.
Proof.
  set (cf := sched [0; 1; 0; 1; 0; 1; 0; 1; 0; 1; 2; 2; 2; 0; 1; 2; 2; 2; 2; 2]%nat (fresh, started (Some 4) three)).
  exists (fst cf), (snd cf). do 2 eexists. split; [|split; [|split; [|split; [|split]]]].
  - exists [(0, 7)]. split; [repeat constructor; auto|]. intros s [<- | [<- | [<- | []]]]; apply incl_refl.
  - split; [constructor|]. split; [constructor|]. discriminate.
  - reflexivity.
  - rewrite <- surjective_pairing. apply sched_steps. constructor.
  - vm_compute. reflexivity.
  - vm_compute. auto.
Qed.
Print Assumptions C90_reusable.
Print Assumptions C90_compatible.
Print Assumptions C90_magic.
Print Assumptions C90_same.
Print Assumptions C90_usable.
Print Assumptions C90_no_leak.
Print Assumptions C90_kept.
Print Assumptions C90_reopen.
Print Assumptions C90_overwrite_refuted.
Print Assumptions C90_const_refuted.
Print Assumptions C90_left_refuted.
