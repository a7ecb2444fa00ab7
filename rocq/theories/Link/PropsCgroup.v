(** C98: attaching to cgroups *)
From Coq Require Import List Bool Arith Lia Permutation.
From Verif Require Import Link.Cgroup Link.CgroupSpec.
Import ListNotations.

Definition hkey (h : handle) : key := match h_kind h with KLink l => (true, l) | KLegacy _ => (false, h_prog h) end.
Lemma keyEqb_spec a b : reflect (a = b) (keyEqb a b).
Proof. unfold keyEqb. destruct a as [x n], b as [y m]. cbn. destruct (Bool.eqb x y) eqn:E, (Nat.eqb_spec n m); cbn; constructor; try (apply eqb_prop in E); try congruence. intros [= -> _]. rewrite eqb_reflx in E. discriminate. Qed.
Lemma belongs_key h e : belongs h e = keyEqb (keyOf e) (hkey h).
Proof. unfold belongs, hkey, keyOf, keyEqb. destruct (h_kind h), (e_link e); cbn; auto; apply Nat.eqb_sym. Qed.
Lemma mine_in l e : mine l e = true <-> In (keyOf e) (map hkey l).
Proof.
  unfold mine. rewrite existsb_exists, in_map_iff. split; intros (h & A & B).
  - exists h. rewrite belongs_key in B. destruct (keyEqb_spec (keyOf e) (hkey h)); [auto|discriminate].
  - exists h. split; auto. rewrite belongs_key. destruct (keyEqb_spec (keyOf e) (hkey h)); congruence.
Qed.
Lemma key_entry h : keyOf (entryOf h) = hkey h.
Proof. unfold keyOf, entryOf, hkey. cbn. destruct (h_kind h); reflexivity. Qed.
Lemma has_in k l : has k l = true <-> In k (map keyOf l).
Proof.
  unfold has. rewrite existsb_exists, in_map_iff. split; intros (h & A & B); exists h.
  - destruct (keyEqb_spec (keyOf h) k); [auto|discriminate].
  - split; auto. destruct (keyEqb_spec (keyOf h) k); congruence.
Qed.
Record Inv (s : st) : Prop := {
  v_ents : filter (mine (hs s)) (ents s) = map entryOf (hs s);
  v_keys : NoDup (map hkey (hs s));
  v_ids : NoDup (map h_id (hs s));
  v_mode : hs s <> [] -> md s = Multi;
  v_kind : forall h, In h (hs s) -> h_kind h <> KLegacy Override;
  v_fds : Permutation (fds s) (flat_map h_fds (hs s));
  v_nodup : NoDup (fds s);
  v_next : (forall f, In f (fds s) -> f < next s) /\ (forall h, In h (hs s) -> h_id h < next s) /\ (forall e l, In e (ents s) -> e_link e = Some l -> l < next s) /\ (forall h l, In h (hs s) -> h_kind h = KLink l -> l < next s);
  v_shape : forall h, In h (hs s) -> match h_kind h with KLink _ => exists f, h_fds h = [f] | KLegacy _ => exists k, h_fds h = [h_id h; k] end }.

Lemma mine_filter_keys l es h : filter (mine l) es = map entryOf l -> In h l -> In (hkey h) (map keyOf es).
Proof. intros F I. assert (X : In (entryOf h) (filter (mine l) es)) by (rewrite F; now apply in_map). apply filter_In in X. rewrite <- key_entry. apply in_map. tauto. Qed.
(** An entry with the key of one of our links is its entry. *)
Lemma mine_entry l es e : filter (mine l) es = map entryOf l -> In e es -> mine l e = true -> exists h, In h l /\ e = entryOf h.
Proof. intros F I M. assert (X : In e (filter (mine l) es)) by (apply filter_In; auto). rewrite F in X. apply in_map_iff in X. destruct X as (h & <- & I'). eauto. Qed.
Lemma nodup_inj {A B} (f : A -> B) l x y : NoDup (map f l) -> In x l -> In y l -> f x = f y -> x = y.
Proof.
  induction l as [|z l IH]; cbn; [easy|]. intros N [-> | X] [-> | Y] E; auto; inversion N; subst.
  - exfalso. apply H1. rewrite E. now apply in_map.
  - exfalso. apply H1. rewrite <- E. now apply in_map.
  - apply IH; auto.
Qed.
(** Replacing and removing by key, in a list that has the key once *)
Lemma replace_map k n es : NoDup (map keyOf (filter (fun e => keyEqb (keyOf e) k) es)) -> replaceFirst k n es = map (fun e => if keyEqb (keyOf e) k then n else e) es.
Proof.
  induction es as [|e es IH]; cbn; auto. destruct (keyEqb_spec (keyOf e) k) as [E|E]; cbn; intros N.
  - f_equal. inversion N as [|? ? NI N']; subst. clear - NI. induction es as [|x es IH]; cbn; auto. cbn in NI. destruct (keyEqb_spec (keyOf x) (keyOf e)) as [X|X]; cbn in NI; [exfalso; apply NI; left; congruence|]. f_equal. auto.
  - f_equal. auto.
Qed.
Lemma remove_filter k es : NoDup (map keyOf (filter (fun e => keyEqb (keyOf e) k) es)) -> removeFirst k es = filter (fun e => negb (keyEqb (keyOf e) k)) es.
Proof.
  induction es as [|e es IH]; cbn; auto. destruct (keyEqb_spec (keyOf e) k) as [E|E]; cbn; intros N.
  - inversion N as [|? ? NI N']; subst. clear - NI. induction es as [|x es IH]; cbn; auto. cbn in NI. destruct (keyEqb_spec (keyOf x) (keyOf e)) as [X|X]; cbn in NI; [exfalso; apply NI; left; congruence|]. cbn. f_equal. auto.
  - f_equal. auto.
Qed.
Lemma filter_filter {A} (p q : A -> bool) l : filter p (filter q l) = filter (fun x => q x && p x) l.
Proof. induction l as [|x l IH]; cbn; auto. destruct (q x); cbn; [destruct (p x); congruence|auto]. Qed.
Lemma once s h : Inv s -> In h (hs s) -> NoDup (map keyOf (filter (fun e => keyEqb (keyOf e) (hkey h)) (ents s))).
Proof.
  intros I IH. assert (E : filter (fun e => keyEqb (keyOf e) (hkey h)) (ents s) = filter (fun e => keyEqb (keyOf e) (hkey h)) (filter (mine (hs s)) (ents s))).
  { rewrite filter_filter. apply filter_ext. intros e. destruct (keyEqb_spec (keyOf e) (hkey h)) as [E|E]; [|now rewrite andb_false_r]. rewrite andb_true_r. symmetry. apply mine_in. rewrite E. now apply in_map. }
  rewrite E, (v_ents _ I). clear E. pose proof (v_keys _ I) as N. revert N. generalize (hs s). clear. intros l. intros N.
  assert (G : map keyOf (filter (fun e => keyEqb (keyOf e) (hkey h)) (map entryOf l)) = filter (fun k => keyEqb k (hkey h)) (map hkey l)).
  { induction l as [|x l IH]; cbn; auto. inversion N; subst. rewrite key_entry. destruct (keyEqb (hkey x) (hkey h)); cbn; rewrite IH; auto. now rewrite key_entry. }
  rewrite G. now apply NoDup_filter.
Qed.
Lemma closeAll_st fs s : closeAll fs s = St (ents s) (md s) (hs s) (fold_left (fun l f => List.remove Nat.eq_dec f l) fs (fds s)) (next s).
Proof. unfold closeAll. revert s. induction fs as [|f fs IH]; intros s; cbn; [destruct s; auto|]. now rewrite IH. Qed.
Lemma remove_perm f l r : NoDup l -> Permutation l (f :: r) -> Permutation (List.remove Nat.eq_dec f l) r.
Proof.
  intros N P. assert (NR : NoDup (f :: r)) by (eapply Permutation_NoDup; eauto). apply NoDup_Permutation.
  - clear - N. induction l as [|x l IH]; cbn; auto. inversion N; subst. destruct (Nat.eq_dec f x); auto. constructor; auto. intros H. apply in_remove in H. tauto.
  - now inversion NR.
  - intros x. split.
    + intros I. apply in_remove in I. destruct I as (I & NE). assert (X : In x (f :: r)) by (eapply Permutation_in; eauto). destruct X as [-> | X]; [easy|auto].
    + intros I. apply in_in_remove; [intros ->; inversion NR; easy|]. eapply Permutation_in; [symmetry; exact P|now right].
Qed.
Lemma remove_nodup f l : NoDup l -> NoDup (List.remove Nat.eq_dec f l).
Proof. intros N. induction l as [|x l IH]; cbn; auto. inversion N; subst. destruct (Nat.eq_dec f x); auto. constructor; auto. intros H. apply in_remove in H. tauto. Qed.
Lemma closes fs : forall l r, NoDup l -> Permutation l (fs ++ r) -> Permutation (fold_left (fun l f => List.remove Nat.eq_dec f l) fs l) r /\ NoDup (fold_left (fun l f => List.remove Nat.eq_dec f l) fs l).
Proof. induction fs as [|f fs IH]; intros l r N P; cbn; auto. apply IH; [now apply remove_nodup|]. now apply remove_perm. Qed.

(** A key that nobody uses: attaching *)
Lemma app_ents s h e : Inv s -> ~ In (keyOf e) (map keyOf (ents s)) -> entryOf h = e -> filter (mine (hs s ++ [h])) (ents s ++ [e]) = map entryOf (hs s ++ [h]).
Proof.
  intros I N E. rewrite filter_app, map_app. cbn. f_equal.
  - rewrite <- (v_ents _ I). apply filter_ext_in. intros x X. unfold mine. rewrite existsb_app. cbn. rewrite belongs_key, <- key_entry, E. destruct (keyEqb_spec (keyOf x) (keyOf e)) as [Q|Q]; [|now rewrite !orb_false_r]. elim N. rewrite <- Q. now apply in_map.
  - assert (M : mine (hs s ++ [h]) e = true) by (apply mine_in; rewrite map_app; apply in_or_app; right; left; now rewrite <- key_entry, E). rewrite M, E. reflexivity.
Qed.
Lemma map_nodup {A B} (f : A -> B) l : (forall a b, In a l -> In b l -> f a = f b -> a = b) -> NoDup l -> NoDup (map f l).
Proof.
  induction l as [|x l IH]; cbn; intros I N; [constructor|]. inversion N; subst. constructor; [|apply IH; auto]. intros X. apply in_map_iff in X. destruct X as (y & E & Y). apply I in E; auto. now subst.
Qed.
(** Another program in an entry of ours *)
Definition put (h : handle) (p : nat) (f : list nat) : handle := H (h_id h) p (h_kind h) f.
Lemma replace_ents s h n l : Inv s -> In h (hs s) -> h_kind n = h_kind h -> h_id n = h_id h ->
  (hkey n = hkey h \/ ~ In (hkey n) (map keyOf (ents s))) -> l = replaceFirst (hkey h) (entryOf n) (ents s) ->
  filter (mine (change (h_id h) n (hs s))) l = map entryOf (change (h_id h) n (hs s)) /\ NoDup (map hkey (change (h_id h) n (hs s))) /\
  (forall f, (forall e, In e (ents s) -> keyOf e = hkey h -> f e = false) -> f (entryOf n) = false -> filter f l = filter f (ents s)).
Proof.
  intros I IH EK EI Q ->. rewrite replace_map by now apply once.
  set (g := fun e => if keyEqb (keyOf e) (hkey h) then entryOf n else e).
  assert (SAME : forall x, In x (hs s) -> Nat.eqb (h_id x) (h_id h) = keyEqb (hkey x) (hkey h)).
  { intros x X. destruct (Nat.eqb_spec (h_id x) (h_id h)) as [E|E], (keyEqb_spec (hkey x) (hkey h)) as [F|F]; auto.
    - elim F. f_equal. eapply nodup_inj; [apply (v_ids _ I)|..]; auto.
    - elim E. f_equal. eapply nodup_inj; [apply (v_keys _ I)|..]; auto. }
  assert (KEYS : map hkey (change (h_id h) n (hs s)) = map (fun k => if keyEqb k (hkey h) then hkey n else k) (map hkey (hs s))).
  { unfold change. rewrite !map_map. apply map_ext_in. intros x X. rewrite (SAME x X). destruct (keyEqb _ _); auto. }
  assert (NK : forall x, In x (hs s) -> hkey x = hkey n -> hkey n = hkey h).
  { intros x X E. destruct Q as [Q|Q]; auto. elim Q. rewrite <- E. eapply mine_filter_keys; eauto. apply (v_ents _ I). }
  assert (ND : NoDup (map hkey (change (h_id h) n (hs s)))).
  { rewrite KEYS. apply map_nodup; [|apply (v_keys _ I)]. intros a b A B. apply in_map_iff in A, B. destruct A as (x & <- & X), B as (y & <- & Y).
    destruct (keyEqb_spec (hkey x) (hkey h)) as [E|E], (keyEqb_spec (hkey y) (hkey h)) as [F|F]; intros G; try congruence.
    - symmetry in G. pose proof (NK y Y G). congruence.
    - pose proof (NK x X G). congruence. }
  assert (MINE : forall e, In e (ents s) -> mine (change (h_id h) n (hs s)) (g e) = mine (hs s) e).
  { intros e E. unfold g. apply eq_true_iff_eq. rewrite !mine_in, KEYS. destruct (keyEqb_spec (keyOf e) (hkey h)) as [K|K].
    - rewrite K, key_entry. split; intros _; [now apply in_map|]. apply in_map_iff. exists (hkey h). split; [|now apply in_map]. destruct (keyEqb_spec (hkey h) (hkey h)); congruence.
    - split.
      + intros X. apply in_map_iff in X. destruct X as (k & X & Y). destruct (keyEqb_spec k (hkey h)) as [Z|Z]; [|congruence]. destruct Q as [Q|Q]; [congruence|]. elim Q. rewrite X. now apply in_map.
      + intros X. apply in_map_iff. exists (keyOf e). split; auto. destruct (keyEqb_spec (keyOf e) (hkey h)); congruence. }
  split; [|split; [exact ND|]].
  - assert (F : forall es, incl es (ents s) -> filter (mine (change (h_id h) n (hs s))) (map g es) = map g (filter (mine (hs s)) es)).
    { induction es as [|e es IHe]; intros INC; cbn; auto. rewrite MINE by (apply INC; now left). rewrite IHe by (intros x X; apply INC; now right). destruct (mine (hs s) e); reflexivity. }
    rewrite F by apply incl_refl. rewrite (v_ents _ I). unfold change. rewrite !map_map. apply map_ext_in. intros x X. unfold g. rewrite key_entry, <- (SAME x X). destruct (Nat.eqb _ _); reflexivity.
  - intros f A B. assert (F : forall es, incl es (ents s) -> filter f (map g es) = filter f es).
    { induction es as [|e es IHe]; intros INC; cbn; auto. rewrite IHe by (intros x X; apply INC; now right). unfold g. destruct (keyEqb_spec (keyOf e) (hkey h)) as [K|K]; auto. rewrite B, (A e); auto. apply INC. now left. }
    apply F. apply incl_refl.
Qed.
(** An entry of ours goes away, or is no longer ours. *)
Lemma drop_spec s h : Inv s -> In h (hs s) -> exists l1 l2, hs s = l1 ++ h :: l2 /\ drop (h_id h) (hs s) = l1 ++ l2.
Proof.
  intros I IH. apply in_split in IH. destruct IH as (l1 & l2 & E). exists l1, l2. split; auto. pose proof (v_ids _ I) as N. rewrite E in *. unfold drop. rewrite filter_app. cbn. rewrite Nat.eqb_refl. cbn.
  rewrite map_app in N. cbn in N. apply NoDup_remove in N. destruct N as (_ & N). rewrite in_app_iff in N.
  assert (G : forall l, ~ In (h_id h) (map h_id l) -> filter (fun x => negb (h_id x =? h_id h)) l = l).
  { induction l as [|x l IHl]; cbn; auto. intros X. destruct (Nat.eqb_spec (h_id x) (h_id h)); [tauto|]. cbn. f_equal. tauto. }
  now rewrite !G by tauto.
Qed.
Lemma mine_drop s h e : Inv s -> In h (hs s) -> mine (drop (h_id h) (hs s)) e = mine (hs s) e && negb (keyEqb (keyOf e) (hkey h)).
Proof.
  intros I IH. destruct (drop_spec s h I IH) as (l1 & l2 & E & ->). pose proof (v_keys _ I) as N. rewrite E in *. rewrite map_app in N. cbn in N. apply NoDup_remove in N. destruct N as (_ & N).
  apply eq_true_iff_eq. rewrite andb_true_iff, !mine_in, !map_app, !in_app_iff. cbn. rewrite negb_true_iff. rewrite in_app_iff in N. destruct (keyEqb_spec (keyOf e) (hkey h)) as [K|K]; [rewrite K; intuition congruence|]. intuition congruence.
Qed.
Lemma drop_ents s h l : Inv s -> In h (hs s) -> (l = ents s \/ l = removeFirst (hkey h) (ents s)) ->
  filter (mine (drop (h_id h) (hs s))) l = map entryOf (drop (h_id h) (hs s)) /\ (forall f, (forall e, keyOf e = hkey h -> f e = false) -> filter f l = filter f (ents s)).
Proof.
  intros I IH Q. rewrite remove_filter in Q by now apply once.
  assert (A : filter (mine (drop (h_id h) (hs s))) (ents s) = map entryOf (drop (h_id h) (hs s))).
  { rewrite (filter_ext _ _ (fun e => mine_drop s h e I IH)). rewrite <- filter_filter, (v_ents _ I). destruct (drop_spec s h I IH) as (l1 & l2 & E & ->). pose proof (v_keys _ I) as N. rewrite E in *. rewrite map_app in N. cbn in N. apply NoDup_remove in N. destruct N as (_ & N). rewrite in_app_iff in N.
    rewrite !map_app, filter_app. cbn [map filter]. rewrite key_entry. destruct (keyEqb_spec (hkey h) (hkey h)); [|congruence]. cbn.
    assert (G : forall l, ~ In (hkey h) (map hkey l) -> filter (fun x => negb (keyEqb (keyOf x) (hkey h))) (map entryOf l) = map entryOf l).
    { clear. intros l0. induction l0 as [|x l0 IHl]; [auto|]. cbn [map filter In]. rewrite key_entry. intros X. destruct (keyEqb_spec (hkey x) (hkey h)); [tauto|]. cbn. f_equal. tauto. }
    now rewrite !G by tauto. }
  destruct Q as [-> | ->]; [split; auto|]. split.
  - rewrite filter_filter. rewrite <- A. apply filter_ext. intros e. rewrite (mine_drop s h e I IH). destruct (keyEqb (keyOf e) (hkey h)), (mine (hs s) e); reflexivity.
  - intros f F. rewrite filter_filter. apply filter_ext. intros e. destruct (keyEqb_spec (keyOf e) (hkey h)) as [K|K]; cbn; auto. now rewrite F.
Qed.

Lemma kattach_new m p lk l cur es : kAttach m (Ent p lk) None l cur = Some es -> m = Multi -> es = l ++ [Ent p lk] /\ ~ In (keyOf (Ent p lk)) (map keyOf l) /\ (l <> [] -> cur = Multi).
Proof.
  unfold kAttach. intros H ->. destruct (match l with [] => false | _ => negb (modeEqb cur Multi) end) eqn:M; [discriminate|]. destruct (maxProgs <=? length l); [discriminate|]. rewrite andb_true_r in H. destruct (has (keyOf (Ent p lk)) l) eqn:HK; [discriminate|]. injection H as <-.
  split; auto. split; [rewrite <- has_in; congruence|]. intros N. destruct l; [easy|]. destruct cur; [discriminate|auto].
Qed.
Section Kernel.
Variable hasLink hasReplace : bool.
Hypothesis modern : hasLink || hasReplace = true.
Notation does := (does hasLink hasReplace).
Lemma inv_more s h e fs n : Inv s -> entryOf h = e -> ~ In (keyOf e) (map keyOf (ents s)) -> next s <= h_id h -> h_id h < n -> h_kind h <> KLegacy Override -> (forall l, h_kind h = KLink l -> l < n) ->
  Permutation fs (h_fds h ++ fds s) -> NoDup fs -> (forall f, In f fs -> f < n) -> match h_kind h with KLink _ => exists f, h_fds h = [f] | KLegacy _ => exists k, h_fds h = [h_id h; k] end ->
  Inv (St (ents s ++ [e]) Multi (hs s ++ [h]) fs n).
Proof.
  intros I E NK B1 B2 K KL P ND FB SH. pose proof (v_next _ I) as (N1 & N2 & N3 & N4). split; cbn [ents md hs fds next].
  - apply app_ents; auto.
  - rewrite map_app. cbn. apply (Permutation_NoDup (Permutation_cons_append _ _)). constructor; [|apply (v_keys _ I)]. intros X. apply NK. rewrite <- E, key_entry. apply in_map_iff in X. destruct X as (x & X & Y). rewrite <- X. eapply mine_filter_keys; [apply (v_ents _ I)|auto].
  - rewrite map_app. cbn. apply (Permutation_NoDup (Permutation_cons_append _ _)). constructor; [|apply (v_ids _ I)]. intros X. apply in_map_iff in X. destruct X as (x & X & Y). apply N2 in Y. lia.
  - auto.
  - intros x X. apply in_app_or in X. destruct X as [X|[<-|[]]]; auto. apply (v_kind _ I); auto.
  - rewrite flat_map_app. cbn. rewrite app_nil_r. rewrite P, (v_fds _ I). apply Permutation_app_comm.
  - auto.
  - split; auto. split; [|split].
    + intros x X. apply in_app_or in X. destruct X as [X|[<-|[]]]; auto. apply N2 in X. lia.
    + intros x l X Y. apply in_app_or in X. destruct X as [X|[<-|[]]]; [specialize (N3 _ _ X Y); lia|]. apply KL. rewrite <- E in Y. unfold entryOf in Y. cbn in Y. destruct (h_kind h); congruence.
    + intros x l X Y. apply in_app_or in X. destruct X as [X|[<-|[]]]; auto. specialize (N4 _ _ X Y). lia.
  - intros x X. apply in_app_or in X. destruct X as [X|[<-|[]]]; auto. apply (v_shape _ I); auto.
Qed.
(** Numbers that were used up don't matter. *)
Lemma inv_next s n : Inv s -> next s <= n -> Inv (St (ents s) (md s) (hs s) (fds s) n).
Proof.
  intros I L. destruct I as [A B C D E F G (N1 & N2 & N3 & N4) S1]. split; cbn [ents md hs fds next]; auto. split; [|split; [|split]]; intros.
  - specialize (N1 f H). lia.
  - specialize (N2 h H). lia.
  - specialize (N3 _ _ H H0). lia.
  - specialize (N4 _ _ H H0). lia.
Qed.
Lemma notin_fds s n : Inv s -> next s <= n -> ~ In n (fds s).
Proof. intros I L X. apply (v_next _ I) in X. lia. Qed.
Lemma remove_notin (f : nat) l : ~ In f l -> List.remove Nat.eq_dec f l = l.
Proof. intros N. now apply notin_remove. Qed.
Lemma remove_cons (f : nat) l : ~ In f l -> List.remove Nat.eq_dec f (f :: l) = l.
Proof. intros N. cbn. destruct (Nat.eq_dec f f); [|easy]. now apply notin_remove. Qed.
Lemma attach_ok ch p s : Inv s -> let s' := fst (does (Attach p) ch s) in Inv s' /\
  if snd (does (Attach p) ch s) then exists h, hs s' = hs s ++ [h] /\ h_prog h = p /\ ents s' = ents s ++ [entryOf h]
  else hs s' = hs s /\ ents s' = ents s /\ fds s' = fds s.
Proof.
  intros I. cbn [CgroupSpec.does]. unfold attach. destruct (ch_open ch); [|cbn; auto]. unfold open_. set (c := next s). set (s1 := St (ents s) (md s) (hs s) (c :: fds s) (S c)).
  pose proof (notin_fds s c I (le_n _)) as NC. pose proof (notin_fds s (S c) I ltac:(unfold c; lia)) as NK. pose proof (v_next _ I) as (N1 & _ & N3 & _).
  destruct hasLink eqn:HL.
  - unfold newLink, open_, s1. cbn [next ents md hs fds]. destruct (if ch_sys ch then _ else None) as [es|] eqn:KA.
    + destruct (ch_sys ch); [|discriminate]. destruct (kattach_new _ _ _ _ _ _ KA eq_refl) as (-> & NI & _). unfold close_, setHs, setEnts. cbn [fst snd h_kind hs ents md fds next]. set (h := H c p (KLink (S c)) [S c]).
      split; [|exists h; auto].
      assert (F : List.remove Nat.eq_dec c (S c :: c :: fds s) = S c :: fds s). { cbn [List.remove]. destruct (Nat.eq_dec c (S c)); [lia|]. destruct (Nat.eq_dec c c); [|easy]. now rewrite notin_remove. }
      rewrite F. apply inv_more; cbn; auto; try (unfold c; lia); try discriminate.
      * intros l [= <-]. lia.
      * constructor; auto. apply (v_nodup _ I).
      * intros f [<-|X]; [lia|]. apply N1 in X. unfold c. lia.
      * eauto.
    + unfold close_. cbn [fst snd ents md hs fds next]. rewrite remove_cons by auto. split; [apply inv_next; auto; lia|auto].
  - unfold newProgAttach, open_, s1. cbn in modern. rewrite modern. destruct (ch_dup ch).
    + cbn [next ents md hs fds]. destruct (if ch_sys ch then _ else None) as [es|] eqn:KA.
      * destruct (ch_sys ch); [|discriminate]. destruct (kattach_new _ _ _ _ _ _ KA eq_refl) as (-> & NI & _). unfold setHs, setEnts. cbn [fst snd h_kind hs ents md fds next]. set (h := H c p (KLegacy Multi) [c; S c]).
        split; [|exists h; auto]. apply inv_more; cbn; auto; try (unfold c; lia); try discriminate.
        -- apply perm_swap.
        -- constructor; [cbn; intros [X|X]; [lia|tauto]|]. constructor; auto. apply (v_nodup _ I).
        -- intros f [<-|[<-|X]]; [lia|lia|]. apply N1 in X. unfold c. lia.
        -- eauto.
      * unfold close_. cbn [fst snd ents md hs fds next]. rewrite (remove_cons (S c)) by (cbn; intros [X|X]; [lia|tauto]). rewrite remove_cons by auto. split; [apply inv_next; auto; lia|auto].
    + unfold close_. cbn [fst snd ents md hs fds next]. rewrite remove_cons by auto. split; [apply inv_next; auto; lia|auto].
Qed.
Lemma change_fds l h n : NoDup (map h_id l) -> In h l -> exists r, Permutation (flat_map h_fds l) (h_fds h ++ r) /\ Permutation (flat_map h_fds (change (h_id h) n l)) (h_fds n ++ r) /\ Permutation (flat_map h_fds (drop (h_id h) l)) r.
Proof.
  intros N I. apply in_split in I. destruct I as (l1 & l2 & ->). exists (flat_map h_fds l1 ++ flat_map h_fds l2).
  rewrite map_app in N. cbn in N. apply NoDup_remove in N. destruct N as (_ & N). rewrite in_app_iff in N.
  assert (G : forall l, ~ In (h_id h) (map h_id l) -> change (h_id h) n l = l /\ drop (h_id h) l = l).
  { clear. intros l0. induction l0 as [|x l0 IHl]; [auto|]. cbn. intros X. destruct (Nat.eqb_spec (h_id x) (h_id h)); [tauto|]. destruct IHl as (A & B); [tauto|]. unfold change, drop in *. split; [f_equal; auto|cbn; f_equal; auto]. }
  destruct (G l1) as (A1 & B1); [tauto|]. destruct (G l2) as (A2 & B2); [tauto|]. unfold change, drop in *. rewrite map_app, filter_app. cbn. rewrite Nat.eqb_refl. cbn. rewrite A1, A2, B1, B2. rewrite !flat_map_app. cbn.
  split; [|split; auto].
  - rewrite !app_assoc. apply Permutation_app_tail. apply Permutation_app_comm.
  - rewrite !app_assoc. apply Permutation_app_tail. apply Permutation_app_comm.
Qed.
Lemma change_in i n l x : In x (change i n l) -> x = n \/ In x l.
Proof. unfold change. intros X. apply in_map_iff in X. destruct X as (y & E & Y). destruct (Nat.eqb (h_id y) i); subst; auto. Qed.
Lemma inv_change s h p f fs l n : Inv s -> In h (hs s) -> next s <= n -> (hkey (put h p f) = hkey h \/ ~ In (hkey (put h p f)) (map keyOf (ents s))) -> l = replaceFirst (hkey h) (entryOf (put h p f)) (ents s) ->
  (forall r, Permutation (fds s) (h_fds h ++ r) -> Permutation fs (f ++ r)) -> NoDup fs -> (forall x, In x fs -> x < n) -> match h_kind h with KLink _ => exists x, f = [x] | KLegacy _ => exists k, f = [h_id h; k] end ->
  Inv (St l (md s) (change (h_id h) (put h p f) (hs s)) fs n).
Proof.
  intros I IH L Q EL FP ND FB SH. pose proof (v_next _ I) as (N1 & N2 & N3 & N4). destruct (replace_ents s h (put h p f) l I IH eq_refl eq_refl Q EL) as (R1 & R2 & _).
  assert (CI : map h_id (change (h_id h) (put h p f) (hs s)) = map h_id (hs s)). { unfold change. rewrite map_map. apply map_ext. intros x. destruct (Nat.eqb_spec (h_id x) (h_id h)); auto. }
  split; cbn [ents md hs fds next]; auto.
  - rewrite CI. apply (v_ids _ I).
  - intros X. apply (v_mode _ I). intros E. rewrite E in X. easy.
  - intros x X. apply change_in in X. destruct X as [-> | X]; [cbn|]; apply (v_kind _ I); auto.
  - destruct (change_fds (hs s) h (put h p f) (v_ids _ I) IH) as (r & P1 & P2 & _). rewrite P2. cbn. apply FP. rewrite (v_fds _ I). exact P1.
  - split; auto. split; [|split].
    + intros x X. apply change_in in X. destruct X as [-> | X]; [cbn; apply N2 in IH; lia|apply N2 in X; lia].
    + intros e k X Y. subst l. rewrite replace_map in X by now apply once. apply in_map_iff in X. destruct X as (e0 & <- & X). destruct (keyEqb _ _) in Y; [|specialize (N3 _ _ X Y); lia]. unfold entryOf in Y. cbn in Y. destruct (h_kind h) eqn:K; [|discriminate]. injection Y as <-. specialize (N4 _ _ IH K). lia.
    + intros x k X Y. apply change_in in X. destruct X as [-> | X]; [cbn in Y; specialize (N4 _ _ IH Y); lia|specialize (N4 _ _ X Y); lia].
  - intros x X. apply change_in in X. destruct X as [-> | X]; [exact SH|apply (v_shape _ I); auto].
Qed.
Lemma update_ok ch h p s : Inv s -> In h (hs s) -> let s' := fst (does (Update h p) ch s) in Inv s' /\
  if snd (does (Update h p) ch s) then exists f, hs s' = change (h_id h) (put h p f) (hs s) /\ ents s' = replaceFirst (hkey h) (entryOf (put h p f)) (ents s) /\ (hkey (put h p f) = hkey h \/ ~ In (hkey (put h p f)) (map keyOf (ents s)))
  else hs s' = hs s /\ ents s' = ents s /\ fds s' = fds s.
Proof.
  intros I IH. cbn [CgroupSpec.does]. unfold update. pose proof (v_shape _ I h IH) as SH. pose proof (v_next _ I) as (N1 & N2 & N3 & N4). destruct (h_kind h) as [l|m] eqn:K.
  - destruct (ch_sys ch && has (true, l) (ents s)) eqn:E; [|cbn; auto]. unfold setHs, setEnts. cbn [fst snd ents md hs fds next].
    assert (P : H (h_id h) p (KLink l) (h_fds h) = put h p (h_fds h)) by (unfold put; now rewrite K). rewrite P.
    assert (HK : hkey h = (true, l) /\ hkey (put h p (h_fds h)) = (true, l) /\ entryOf (put h p (h_fds h)) = Ent p (Some l)) by (unfold hkey, entryOf, put; cbn; rewrite K; auto). destruct HK as (K1 & K2 & K3).
    split; [|exists (h_fds h); rewrite K1, K2, K3; auto].
    apply (inv_change s h p (h_fds h)); auto; [left; congruence|now rewrite K1, K3|apply (v_nodup _ I)|now rewrite K].
  - destruct SH as (k0 & SH). assert (M : m = Multi). { destruct m; auto. elim (v_kind _ I h IH K). } subst m.
    destruct (ch_dup ch); [|cbn; auto]. unfold open_. cbn [ents md hs fds next]. set (k := next s). pose proof (notin_fds s k I (le_n _)) as NK.
    destruct (if ch_sys ch then _ else None) as [l|] eqn:KA.
    + destruct (ch_sys ch); [|discriminate]. unfold kAttach in KA. destruct (match ents s with [] => false | _ => negb (modeEqb (md s) Multi) end); [discriminate|]. destruct (maxProgs <=? length (ents s)); [discriminate|].
      destruct (has (keyOf (Ent p None)) (ents s) && _) eqn:HK; [discriminate|]. destruct (has (false, h_prog h) (ents s)); [|discriminate]. injection KA as <-.
      rewrite closeAll_st. rewrite SH. unfold setHs, setEnts. cbn [fst snd ents md hs fds next tl firstn fold_left app].
      assert (K1 : hkey h = (false, h_prog h)) by (unfold hkey; now rewrite K). set (f := [h_id h; k]).
      assert (P : H (h_id h) p (KLegacy Multi) f = put h p f) by (unfold put; now rewrite K). rewrite P.
      assert (K2 : hkey (put h p f) = (false, p) /\ entryOf (put h p f) = Ent p None) by (unfold hkey, entryOf, put; cbn; rewrite K; auto). destruct K2 as (K2 & K3).
      assert (Q : hkey (put h p f) = hkey h \/ ~ In (hkey (put h p f)) (map keyOf (ents s))).
      { rewrite K1, K2. apply andb_false_iff in HK. destruct HK as [HK|HK]; [right; rewrite <- has_in; cbn in HK; congruence|left]. apply negb_false_iff in HK. destruct (keyEqb_spec (keyOf (Ent p None)) (false, h_prog h)) as [X|]; [exact X|discriminate]. }
      assert (MM : md s = Multi) by (apply (v_mode _ I); intros X; rewrite X in IH; easy). rewrite <- MM at 1.
      split; [|exists f; rewrite K3; rewrite K1 in Q |- *; auto].
      assert (FD : In k0 (fds s)). { eapply Permutation_in; [symmetry; apply (v_fds _ I)|]. apply in_flat_map. exists h. split; auto. rewrite SH. right. now left. }
      assert (NE : k0 <> k) by (intros ->; easy). 
      apply (inv_change s h p f); auto; try (unfold k; lia); try (now rewrite K1, K3).
      * intros r R. rewrite SH in R. cbn in R. assert (X : List.remove Nat.eq_dec k0 (k :: fds s) = k :: List.remove Nat.eq_dec k0 (fds s)) by (cbn; destruct (Nat.eq_dec k0 k); [easy|auto]). rewrite X. unfold f. cbn.
        assert (Y : Permutation (List.remove Nat.eq_dec k0 (fds s)) (h_id h :: r)) by (apply remove_perm; [apply (v_nodup _ I)|rewrite R; apply perm_swap]). rewrite Y. apply perm_swap.
      * apply remove_nodup. constructor; auto. apply (v_nodup _ I).
      * intros x X. apply in_remove in X. destruct X as ([<-|X] & _); [unfold k; lia|]. apply N1 in X. lia.
      * rewrite K. unfold f. eauto.
    + unfold close_. cbn [fst snd ents md hs fds next]. rewrite remove_cons by auto. split; [apply inv_next; auto; unfold k; lia|auto].
Qed.
Lemma close_ok ch h s : Inv s -> In h (hs s) -> let s' := fst (does (Close h) ch s) in Inv s' /\ hs s' = drop (h_id h) (hs s) /\
  ents s' = if snd (does (Close h) ch s) then removeFirst (hkey h) (ents s) else ents s.
Proof.
  intros I IH. cbn [CgroupSpec.does]. unfold close. set (q := match h_kind h with KLink l => _ | KLegacy _ => _ end).
  assert (Q : exists l, fst q = setEnts s (md s) l /\ l = if snd q then removeFirst (hkey h) (ents s) else ents s).
  { unfold q, hkey. destruct (h_kind h) as [l|m] eqn:K; [eexists; cbn; split; reflexivity|]. assert (MM : md s = Multi) by (apply (v_mode _ I); intros X; rewrite X in IH; easy).
    destruct (if ch_sys ch then _ else None) as [l|] eqn:KD; cbn; [|exists (ents s); destruct s; auto]. exists l. split; auto. destruct (ch_sys ch); [|discriminate]. unfold kDetach in KD. rewrite MM in KD. destruct (ents s) as [|x r] eqn:E; [discriminate|]. rewrite <- E in *. destruct (has _ _); [|discriminate]. now injection KD as <-. }
  destruct Q as (l & Q1 & Q2). destruct q as [s1 ok] eqn:EQ. cbn [fst snd] in *. subst s1. rewrite closeAll_st. unfold setHs, setEnts. cbn [ents md hs fds next]. split; [|split; [reflexivity|exact Q2]].
  assert (Q3 : l = ents s \/ l = removeFirst (hkey h) (ents s)) by (destruct ok; auto).
  pose proof (v_next _ I) as (N1 & N2 & N3 & N4). destruct (drop_ents s h l I IH Q3) as (D1 & _). destruct (drop_spec s h I IH) as (l1 & l2 & E & E2).
  assert (SUB : forall x, In x (drop (h_id h) (hs s)) -> In x (hs s)) by (intros x X; apply filter_In in X; tauto).
  destruct (change_fds (hs s) h h (v_ids _ I) IH) as (r & P1 & _ & P3).
  destruct (closes (h_fds h) (fds s) r (v_nodup _ I)) as (F1 & F2); [rewrite (v_fds _ I); exact P1|].
  split; cbn [ents md hs fds next]; auto.
  - rewrite E2. pose proof (v_keys _ I) as N. rewrite E in N. rewrite map_app in *. cbn in N. now apply NoDup_remove in N.
  - rewrite E2. pose proof (v_ids _ I) as N. rewrite E in N. rewrite map_app in *. cbn in N. now apply NoDup_remove in N.
  - intros _. apply (v_mode _ I). intros X. rewrite X in IH. easy.
  - intros x X. apply (v_kind _ I). auto.
  - rewrite F1. now symmetry.
  - split; [|split; [|split]].
    + intros f X. apply N1. eapply Permutation_in in X; [|exact F1]. eapply Permutation_in; [symmetry; apply (v_fds _ I)|]. eapply Permutation_in; [symmetry; exact P1|]. apply in_or_app. now right.
    + intros x X. auto.
    + intros e k X Y. assert (X' : In e (ents s)) by (destruct Q3 as [-> | ->]; auto; rewrite remove_filter in X by (now apply once); apply filter_In in X; tauto). eauto.
    + intros x k X Y. eauto.
  - intros x X. apply (v_shape _ I). auto.
Qed.
Lemma inv_reachable s : reachable hasLink hasReplace s -> Inv s.
Proof.
  induction 1 as [|s s' R I ST]; [split; cbn; auto; try constructor; try easy|]. destruct ST as [o ch s V|s l m n F M L B].
  - destruct o as [p|h p|h]; [apply (attach_ok ch p s I)|apply (update_ok ch h p s I V)|apply (close_ok ch h s I V)].
  - destruct I as [A1 A2 A3 A4 A5 A6 A7 (N1 & N2 & N3 & N4) A8]. split; cbn [ents md hs fds next]; auto.
    + rewrite F. exact A1.
    + intros X. rewrite M; auto.
    + split; [|split; [|split]]; auto; intros.
      * specialize (N1 _ H). lia.
      * specialize (N2 _ H). lia.
      * specialize (N4 _ _ H H0). lia.
Qed.
End Kernel.

Lemma belongs_iff h e : belongs h e = keyEqb (keyOf e) (hkey h). Proof. apply belongs_key. Qed.
(** Every open link is attached, with its program, in the order in which they were attached; open descriptors are those of open links. *)
Theorem C98_attached : forall hasLink hasReplace s, hasLink || hasReplace = true -> reachable hasLink hasReplace s ->
  filter (mine (hs s)) (ents s) = map entryOf (hs s) /\ Permutation (fds s) (flat_map h_fds (hs s)).
Proof. intros a b s M R. destruct (inv_reachable a b M s R). auto. Qed.
(** AttachCgroup adds the program after those that are there, or changes nothing. *)
Theorem C98_attach : forall hasLink hasReplace s p ch s' b, hasLink || hasReplace = true -> reachable hasLink hasReplace s -> does hasLink hasReplace (Attach p) ch s = (s', b) ->
  if b then exists h, hs s' = hs s ++ [h] /\ h_prog h = p /\ ents s' = ents s ++ [entryOf h] else hs s' = hs s /\ ents s' = ents s /\ fds s' = fds s.
Proof. intros x y s p ch s' b M R E. pose proof (attach_ok x y M ch p s (inv_reachable x y M s R)) as (_ & A). rewrite E in A. exact A. Qed.
(** Update puts the new program in the place of the old one, or changes nothing. *)
Theorem C98_update : forall hasLink hasReplace s h p ch s' b, hasLink || hasReplace = true -> reachable hasLink hasReplace s -> In h (hs s) -> does hasLink hasReplace (Update h p) ch s = (s', b) ->
  if b then (exists h', h_id h' = h_id h /\ h_prog h' = p /\ h_kind h' = h_kind h /\ hs s' = map (fun x => if Nat.eqb (h_id x) (h_id h) then h' else x) (hs s)) /\
            (exists l1 l2, ents s = l1 ++ entryOf h :: l2 /\ ents s' = l1 ++ Ent p (e_link (entryOf h)) :: l2)
  else hs s' = hs s /\ ents s' = ents s /\ fds s' = fds s.
Proof.
  intros x y s h p ch s' b M R V E. pose proof (inv_reachable x y M s R) as I. pose proof (update_ok x y ch h p s I V) as (_ & A). rewrite E in A. cbn [fst snd] in A. destruct b; [|exact A].
  destruct A as (f & A1 & A2 & _). split; [exists (put h p f); cbn; auto|]. rewrite A2. assert (EN : entryOf (put h p f) = Ent p (e_link (entryOf h))) by reflexivity. rewrite EN.
  assert (IN : exists e, In e (ents s) /\ keyOf e = hkey h). { pose proof (mine_filter_keys _ _ _ (v_ents _ I) V) as X. apply in_map_iff in X. destruct X as (e & X & Y). eauto. }
  assert (EQ : forall e, In e (ents s) -> keyOf e = hkey h -> e = entryOf h).
  { intros e X Y. destruct (mine_entry (hs s) (ents s) e (v_ents _ I) X) as (h2 & H2 & ->); [apply mine_in; rewrite Y; now apply in_map|]. f_equal. rewrite key_entry in Y. eapply nodup_inj; [apply (v_keys _ I)|..]; auto. }
  clear - IN EQ. destruct IN as (e & X & Y). induction (ents s) as [|z l IH]; [easy|]. cbn [replaceFirst]. destruct (keyEqb_spec (keyOf z) (hkey h)) as [K|K].
  - exists [], l. rewrite (EQ z (or_introl eq_refl) K). auto.
  - destruct X as [-> | X]; [congruence|]. destruct IH as (l1 & l2 & P1 & P2); [first [exact X|intros q Q; apply EQ; now right]..|]. exists (z :: l1), l2. rewrite P1 at 1. rewrite P2. auto.
Qed.
(** Close detaches the program, unless there is an error; its descriptors are closed in any case. *)
Theorem C98_close : forall hasLink hasReplace s h ch s' b, hasLink || hasReplace = true -> reachable hasLink hasReplace s -> In h (hs s) -> does hasLink hasReplace (Close h) ch s = (s', b) ->
  hs s' = filter (fun x => negb (Nat.eqb (h_id x) (h_id h))) (hs s) /\ (if b then ents s' = filter (fun e => negb (belongs h e)) (ents s) else ents s' = ents s) /\ forall f, In f (h_fds h) -> ~ In f (fds s').
Proof.
  intros x y s h ch s' b M R V E. pose proof (inv_reachable x y M s R) as I. pose proof (close_ok x y ch h s I V) as (I' & A & B). rewrite E in I', A, B. cbn [fst snd] in *. split; [exact A|]. split.
  - destruct b; auto. rewrite B, remove_filter by now apply once. apply filter_ext. intros e. now rewrite belongs_key.
  - intros f F X. eapply Permutation_in in X; [|apply (v_fds _ I')]. rewrite A in X. pose proof (v_nodup _ I) as N. eapply Permutation_NoDup in N; [|apply (v_fds _ I)].
    destruct (change_fds (hs s) h h (v_ids _ I) V) as (r & P1 & _ & P3). eapply Permutation_in in X; [|exact P3]. eapply Permutation_NoDup in N; [|exact P1]. clear - N F X. induction (h_fds h) as [|z l IH]; [easy|]. inversion N; subst. destruct F as [-> | F]; auto. apply H1. apply in_or_app. now right.
Qed.
(** What others have attached stays as it is. *)
Theorem C98_others : forall hasLink hasReplace s o ch, hasLink || hasReplace = true -> reachable hasLink hasReplace s -> valid o s ->
  let s' := fst (does hasLink hasReplace o ch s) in others s s' (ents s') = others s s' (ents s).
Proof.
  intros x y s o ch M R V. pose proof (inv_reachable x y M s R) as I. destruct o as [p|h p|h]; cbn zeta; unfold others.
  - pose proof (attach_ok x y M ch p s I) as (I' & A). destruct (snd _); [|destruct A as (_ & -> & _); reflexivity]. destruct A as (h & A1 & _ & A2). rewrite A2, filter_app. cbn.
    assert (Q : mine (hs (fst (does x y (Attach p) ch s))) (entryOf h) = true) by (rewrite A1; apply mine_in; rewrite key_entry, map_app; apply in_or_app; right; now left). cbn in Q. rewrite Q, orb_true_r. cbn. apply app_nil_r.
  - pose proof (update_ok x y ch h p s I V) as (I' & A). destruct (snd _); [|destruct A as (_ & -> & _); reflexivity]. destruct A as (f & A1 & A2 & Q). rewrite A1.
    destruct (replace_ents s h (put h p f) (ents (fst (does x y (Update h p) ch s))) I V eq_refl eq_refl Q A2) as (_ & _ & G). apply G.
    + intros e _ K. assert (X : mine (hs s) e = true) by (apply mine_in; rewrite K; now apply in_map). now rewrite X.
    + assert (X : mine (change (h_id h) (put h p f) (hs s)) (entryOf (put h p f)) = true). { apply mine_in. rewrite key_entry. apply in_map. unfold change. apply in_map_iff. exists h. rewrite Nat.eqb_refl. auto. } now rewrite X, orb_true_r.
  - pose proof (close_ok x y ch h s I V) as (I' & A & B). destruct (drop_ents s h (ents (fst (does x y (Close h) ch s))) I V) as (_ & G); [rewrite B; destruct (snd _); auto|]. apply G. intros e K. assert (X : mine (hs s) e = true) by (apply mine_in; rewrite K; now apply in_map). now rewrite X.
Qed.

(** ** Examples *)
Definition fine : choice := Choice true true true.
Definition h1 : handle := H 0 10 (KLegacy Multi) [0; 1].
Definition h2 : handle := H 2 20 (KLegacy Multi) [2; 3].
(** Two programs on a kernel without links; the first is replaced, the second not, since the new one is attached already; then both are closed, one with an error *)
Theorem C98_example : exists s1 s2 s3, reachable false true s1 /\
  does false true (Attach 10) fine init = (St [Ent 10 None] Multi [h1] [1; 0] 2, true) /\ does false true (Attach 20) fine (St [Ent 10 None] Multi [h1] [1; 0] 2) = (s1, true) /\
  ents s1 = [Ent 10 None; Ent 20 None] /\ hs s1 = [h1; h2] /\
  does false true (Update h1 30) fine s1 = (s2, true) /\ ents s2 = [Ent 30 None; Ent 20 None] /\
  does false true (Update h2 30) fine s2 = (s3, false) /\ ents s3 = ents s2 /\ fds s3 = fds s2 /\
  ents (fst (does false true (Close h2) fine s3)) = [Ent 30 None] /\ does false true (Close h2) (Choice true true false) s3 = (St [Ent 30 None; Ent 20 None] Multi [H 0 30 (KLegacy Multi) [0; 4]] [4; 0] 6, false) /\
  does true true (Attach 5) fine init = (St [Ent 5 (Some 1)] Multi [H 0 5 (KLink 1) [1]] [1] 2, true).
Proof.
  do 3 eexists. split.
  - eapply reach_step; [eapply reach_step; [apply reach_init|apply (step_op false true (Attach 10) fine init Logic.I)]|apply (step_op false true (Attach 20) fine _ Logic.I)].
  - repeat split; vm_compute; reflexivity.
Qed.
(** Before Linux 5.5 a program takes the place of whatever is attached: the first link loses its program without noticing, and closing it detaches the program of the second. *)
Theorem C98_override_refuted : exists s a b, reachable false false s /\ hs s = [a; b] /\ h_prog a = 10 /\ h_prog b = 20 /\ ents s = [entryOf b] /\
  exists s', does false false (Close a) fine s = (s', true) /\ hs s' = [b] /\ ents s' = [].
Proof.
  exists (fst (does false false (Attach 20) fine (fst (does false false (Attach 10) fine init)))), (H 0 10 (KLegacy Override) [0; 1]), (H 2 20 (KLegacy Override) [2; 3]). split.
  - apply (reach_step _ _ (fst (does false false (Attach 10) fine init))); [eapply reach_step; [apply reach_init|apply (step_op false false (Attach 10) fine init Logic.I)]|apply (step_op false false (Attach 20) fine _ Logic.I)].
  - repeat split; auto. eexists. repeat split; vm_compute; reflexivity.
Qed.
(** With as many programs as the kernel allows Update fails on kernels without links, although the number doesn't change. *)
Theorem C98_full_refuted : forall s h p, h_kind h = KLegacy Multi -> length (ents s) = 64 -> forall ch, snd (does false true (Update h p) ch s) = false.
Proof.
  intros s h p K L ch. cbn [does]. unfold update. rewrite K. destruct (ch_dup ch); auto. cbn [open_ ents md]. unfold kAttach. destruct (ch_sys ch); auto. destruct (match ents s with [] => false | _ => _ end); auto. rewrite L. reflexivity.
Qed.

Print Assumptions C98_attached.
Print Assumptions C98_attach.
Print Assumptions C98_update.
Print Assumptions C98_close.
Print Assumptions C98_others.
Print Assumptions C98_example.
Print Assumptions C98_override_refuted.
Print Assumptions C98_full_refuted.
