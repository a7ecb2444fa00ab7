(** Proofs about references to kernel symbols (property C73). *)
From Verif.Base Require Import GoInt.
From Verif.Internal Require Import Kallsyms KallsymsSpec KallsymsProof.

Lemma Forall2_map_r_intro : forall A B (P : A -> B -> Prop) (f : A -> B) l, (forall x, In x l -> P x (f x)) -> Forall2 P l (map f l).
Proof. induction l as [|x l IH]; intros H; cbn; constructor; [apply H; now left|apply IH; intros; apply H; now right]. Qed.
Lemma wanted_spec_aux : forall refs m, NoDup (map fst m) -> (forall n a, sget m n = Some a -> a = 0) ->
  let w := fold_left (fun m r => sput m (r_name r) 0) refs m in
  NoDup (map fst w) /\ (forall n, In n (map fst w) <-> In n (map fst m) \/ In n (map r_name refs)) /\ (forall n a, sget w n = Some a -> a = 0).
Proof.
  induction refs as [|r refs IH]; intros m ND Z; cbn [fold_left map]; [split; auto; split; auto; intros n; cbn; intuition|].
  destruct (IH (sput m (r_name r) 0)) as (A & B & C).
  - now apply sput_NoDup.
  - intros n a. rewrite sget_sput. destruct (str_eqb _ _); [congruence|apply Z].
  - repeat split; auto.
    + intros H. apply B in H. destruct H as [H|H]; [apply sput_In in H; destruct H as [->|H]; cbn; auto|cbn; auto].
    + intros H. apply B. rewrite sput_In. cbn in H. intuition.
Qed.
Lemma wanted_spec : forall refs, NoDup (map fst (wanted refs)) /\ (forall n, In n (map fst (wanted refs)) <-> In n (map r_name refs)) /\ (forall n a, sget (wanted refs) n = Some a -> a = 0).
Proof.
  intros refs. destruct (wanted_spec_aux refs []) as (A & B & C); [constructor|discriminate|]. repeat split; auto; intros H; apply B in H || apply B; cbn in *; tauto.
Qed.

Definition addr (m : smap) (n : str) : Z := match sget m n with Some a => a | None => 0 end.
Definition absent (m : smap) (r : kref) : bool := (addr m (r_name r) =? 0) && negb (r_weak r).

Lemma addName_In : forall l n k, In k (addName l n) <-> k = n \/ In k l.
Proof.
  intros l n k. unfold addName. destruct (existsb (str_eqb n) l) eqn:E.
  - apply existsb_exists in E. destruct E as (x & Hx & He). destruct (str_eqb_spec n x); [subst|discriminate]. intuition congruence.
  - rewrite in_app_iff. cbn. intuition.
Qed.
Lemma addName_NoDup : forall l n, NoDup l -> NoDup (addName l n).
Proof.
  intros l n H. unfold addName. destruct (existsb (str_eqb n) l) eqn:E; auto. 
  assert (Hn : ~ In n l). { intros Hi. assert (existsb (str_eqb n) l = true); [|congruence]. apply existsb_exists. exists n. split; auto. apply str_eqb_refl. }
  clear E. induction H; cbn; [repeat constructor; auto|]. constructor; [|apply IHNoDup; intros Hi; apply Hn; now right]. rewrite in_app_iff. intros [Hi|[Hi|[]]]; auto. subst. apply Hn. now left.
Qed.
Lemma missing_aux : forall m refs l, NoDup l ->
  let ms := fold_left (fun l r => if absent m r then addName l (r_name r) else l) refs l in
  NoDup ms /\ forall k, In k ms <-> In k l \/ exists r, In r refs /\ absent m r = true /\ r_name r = k.
Proof.
  induction refs as [|r refs IH]; intros l ND; cbn [fold_left]; [split; auto; intros k; split; auto; intros [?|(r & [] & _)]; auto|].
  destruct (IH (if absent m r then addName l (r_name r) else l)) as [A B]; [destruct (absent m r); auto; now apply addName_NoDup|]. split; auto.
  intros k. rewrite B. destruct (absent m r) eqn:Ha.
  - rewrite addName_In. split.
    + intros [[->|H]|(r' & H & H1 & H2)]; auto; right; [exists r|exists r']; repeat split; auto; [now left|now right].
    + intros [H|(r' & [<-|H] & H1 & H2)]; auto. right. exists r'. auto.
  - split.
    + intros [H|(r' & H & H1 & H2)]; auto. right. exists r'. split; auto. now right.
    + intros [H|(r' & [<-|H] & H1 & H2)]; auto; [congruence|]. right. exists r'. auto.
Qed.
Lemma missing_spec : forall m refs, NoDup (missing m refs) /\ forall k, In k (missing m refs) <-> exists r, In r refs /\ absent m r = true /\ r_name r = k.
Proof. intros m refs. destruct (missing_aux m refs []) as [A B]; [constructor|]. split; [exact A|]. intros k. rewrite (B k). cbn. intuition. Qed.
Lemma constants_spec : forall m refs, constants m refs = map (fun r => if absent m r then None else Some (i64 (addr m (r_name r)))) refs.
Proof. reflexivity. Qed.

Lemma u64_i64 : forall a, in_u 64 a -> u64 (i64 a) = a.
Proof. intros a H. unfold u64, i64. rewrite wrapu_sext by lia. now apply wrapu_id. Qed.
Lemma addresses_u64 : forall ks n a, Forall wf ks -> In a (addresses ks n) -> in_u 64 a.
Proof.
  intros ks n a Hw H. unfold addresses in H. apply in_map_iff in H. destruct H as (s & <- & Hs). apply filter_In in Hs. destruct Hs as [Hs _].
  rewrite Forall_forall in Hw. destruct (Hw s Hs). auto.
Qed.
Lemma resolves_u64 : forall ks n a, Forall wf ks -> resolves ks n a -> in_u 64 a.
Proof. intros ks n a Hw [[_ ->]|[H _]]; [unfold in_u; lia|]. eapply addresses_u64; eauto. rewrite H. now left. Qed.
Lemma reference_intro : forall ks r a, Forall wf ks -> resolves ks (r_name r) a -> (a <> 0 \/ r_weak r = true) -> reference_ok ks r (Some (i64 a)).
Proof.
  intros ks r a Hw Hr Hz. exists a, (i64 a). split; auto. split; auto. split; auto. split; [apply u64_i64; eapply resolves_u64; eauto|]. unfold i64. apply sext_range. lia.
Qed.

(** a program's references, one kernel *)
Lemma applyUntyped_spec : forall ks cache refs, Forall wf ks -> agrees ks cache ->
  match applyUntyped cache (Some (file ks, false)) refs with
  | (cache', r) =>
      agrees ks cache' /\ (forall n, sget cache n <> None -> sget cache' n <> None) /\
      match r with
      | Ok cs => Forall2 (reference_ok ks) refs cs
                 \/ (exists r, In r refs /\ restricted ks (r_name r)) /\ Forall2 (fun r c => reference_ok ks r c \/ r_weak r = true /\ c = Some 0) refs cs
      | Err (RLookup e) => exists r, In r refs /\ e = KAmbiguous (r_name r) /\ ambiguous ks (r_name r)
      | Err (RMissing ns) => ns <> [] /\ NoDup ns /\ forall n, In n ns <-> exists r, In r refs /\ r_name r = n /\ r_weak r = false /\ addresses ks n = []
      | Err (RRequired ns e) => ns <> [] /\ NoDup ns /\ (forall n, In n ns -> exists r, In r refs /\ r_name r = n /\ r_weak r = false) /\ exists r, In r refs /\ e = KRestricted (r_name r) /\ restricted ks (r_name r)
      end
  end.
Proof.
  intros ks cache refs Hw Hag. unfold applyUntyped. destruct refs as [|r0 refs0]; [split; auto; split; auto; left; constructor|]. set (refs := r0 :: refs0) in *.
  destruct (wanted_spec refs) as (W1 & W2 & W3).
  assert (Win : forall r, In r refs -> In (r_name r) (map fst (wanted refs))) by (intros r Hr; apply W2; now apply List.in_map).
  pose proof (assign_agrees ks cache (wanted refs) Hw W1 Hag) as A. destruct (AssignAddresses cache (Some (file ks, false)) (wanted refs)) as [[cache' m] [e|]].
  - destruct A as (-> & (n & Hn & He) & A2). apply W2, in_map_iff in Hn. destruct Hn as (r & <- & Hr).
    destruct He as [[-> He]|[-> He]]; cbn [isRestricted negb]; [split; auto; split; auto; exists r; auto|].
    destruct (missing_spec m refs) as [M1 M2]. rewrite constants_spec. destruct (missing m refs) as [|x ms] eqn:Em.
    + split; auto. split; auto. right. split; [exists r; auto|].
      assert (Hnone : forall r, In r refs -> absent m r = false). { intros r' Hr'. destruct (absent m r') eqn:E; auto. exfalso. apply (M2 (r_name r')). exists r'. auto. }
      apply Forall2_map_r_intro. intros r' Hr'. rewrite (Hnone r' Hr'). destruct (A2 (r_name r')) as (a & Ha & Hx); auto. pose proof (Hnone r' Hr') as Ho. unfold absent in Ho. unfold addr in *. rewrite Ha in *.
      destruct Hx as [Hx|Hx].
      * left. apply reference_intro; auto. destruct (Z.eqb_spec a 0); auto. right. cbn in Ho. destruct (r_weak r'); auto.
      * apply W3 in Hx. subst a. right. cbn in Ho. destruct (r_weak r'); [auto|discriminate].
    + split; auto. split; auto. split; [discriminate|]. split; auto. split; [|exists r; auto]. intros n Hn. apply M2 in Hn. destruct Hn as (r' & Hr' & Ha & Hn). exists r'. repeat split; auto. unfold absent in Ha. destruct (r_weak r'); auto. rewrite andb_false_r in Ha. discriminate.
  - destruct A as (A1 & A2 & A3). 
    destruct (missing_spec m refs) as [M1 M2]. rewrite constants_spec. destruct (missing m refs) as [|x ms] eqn:Em.
    + split; auto. split; auto. left.
      assert (Hnone : forall r, In r refs -> absent m r = false). { intros r' Hr'. destruct (absent m r') eqn:E; auto. exfalso. apply (M2 (r_name r')). exists r'. auto. }
      apply Forall2_map_r_intro. intros r' Hr'. rewrite (Hnone r' Hr'). destruct (A2 (r_name r')) as (a & Ha & Hx & _); auto. pose proof (Hnone r' Hr') as Ho. unfold absent, addr in *. rewrite Ha in *.
      apply reference_intro; auto. destruct (Z.eqb_spec a 0); auto. cbn in Ho. destruct (r_weak r'); auto; right; destruct (r_weak r'); auto.
    + split; auto. split; auto. split; [discriminate|]. split; auto. intros n. rewrite M2. split; intros (r' & Hr' & H1 & H2).
      * exists r'. unfold absent, addr in H1. destruct (A2 (r_name r')) as (a & Ha & Hx & _); auto. rewrite Ha in H1. destruct (Z.eqb_spec a 0) as [Hz|]; [|discriminate]. destruct (r_weak r'); [discriminate|]. split; auto. split; auto. split; auto. rewrite <- H2. destruct Hx as [[Hx _]|[_ Hx]]; auto. congruence.
      * destruct H2 as [H2 H3]. exists r'. split; auto. split; auto. unfold absent, addr. destruct (A2 (r_name r')) as (a & Ha & Hx & _); auto. rewrite Ha, H2. rewrite H1 in Hx. destruct Hx as [[_ Hx]|[Hx _]]; [now rewrite Hx|congruence].
Qed.

(** the file isn't read if everything is cached *)
Lemma request_none : forall cache m, (forall n, In n (map fst m) -> sget cache n <> None) -> request cache m = [].
Proof.
  intros cache m H. destruct (request cache m) as [|[k v] l] eqn:E; auto. exfalso. pose proof (request_In cache m k) as R. rewrite E in R. destruct R as [R _]. destruct R as [R1 R2]; [now left|]. exact (H k R1 R2).
Qed.
Lemma assign_cached : forall cache f g m, (forall n, In n (map fst m) -> sget cache n <> None) -> AssignAddresses cache f m = AssignAddresses cache g m /\ fst (fst (AssignAddresses cache f m)) = cache.
Proof. intros cache f g m H. unfold AssignAddresses. destruct m as [|kv m]; auto. rewrite request_none by auto. auto. Qed.
Lemma applyUntyped_cached : forall cache f g refs, (forall r, In r refs -> sget cache (r_name r) <> None) -> applyUntyped cache f refs = applyUntyped cache g refs /\ fst (applyUntyped cache f refs) = cache.
Proof.
  intros cache f g refs H. unfold applyUntyped. destruct refs as [|r0 refs0]; auto. set (refs := r0 :: refs0) in *. destruct (wanted_spec refs) as (W1 & W2 & W3).
  destruct (assign_cached cache f g (wanted refs)) as [A1 A2]. { intros n Hn. apply W2, in_map_iff in Hn. destruct Hn as (r & <- & Hr). auto. }
  rewrite <- A1. split; auto. destruct (AssignAddresses cache f (wanted refs)) as [[c m] e]. cbn in A2. subst c. destruct e as [e|]; [destruct (negb (isRestricted e)); auto|]; destruct (missing m refs); auto.
Qed.
Lemma resolvePrograms_cached : forall progs cache f g, (forall p r, In p progs -> In r p -> sget cache (r_name r) <> None) -> resolvePrograms cache f progs = resolvePrograms cache g progs.
Proof.
  induction progs as [|p ps IH]; intros cache f g H; cbn [resolvePrograms]; auto. unfold resolveProgram.
  destruct (applyUntyped_cached cache f g (filter r_untyped p)) as [A1 A2]. { intros r Hr. apply filter_In in Hr. destruct Hr. eapply H; [now left|auto]. }
  rewrite <- A1. destruct (applyUntyped cache f (filter r_untyped p)) as [c [cs|e]]; auto. cbn in A2. subst c. rewrite (IH cache f g); auto. intros p' r Hp Hr. eapply H; eauto. now right.
Qed.

Lemma populate_spec : forall ks cache progs, Forall wf ks -> agrees ks cache ->
  match populateKallsyms cache (Some (file ks, false)) progs with
  | (cache', None) => agrees ks cache' /\ forall p r, In p progs -> In r p -> exists a, sget cache' (r_name r) = Some a /\ resolves ks (r_name r) a
  | (cache', Some e) => cache' = cache /\ exists p r, In p progs /\ In r p /\ (e = KAmbiguous (r_name r) /\ ambiguous ks (r_name r) \/ e = KRestricted (r_name r) /\ restricted ks (r_name r))
  end.
Proof.
  intros ks cache progs Hw Hag. unfold populateKallsyms. destruct (wanted_spec (concat progs)) as (W1 & W2 & W3).
  assert (Win : forall p r, In p progs -> In r p -> In (r_name r) (map fst (wanted (concat progs)))) by (intros p r Hp Hr; apply W2, List.in_map, in_concat; exists p; auto).
  assert (Wout : forall n, In n (map fst (wanted (concat progs))) -> exists p r, In p progs /\ In r p /\ r_name r = n).
  { intros n Hn. apply W2, in_map_iff in Hn. destruct Hn as (r & <- & Hr). apply in_concat in Hr. destruct Hr as (p & Hp & Hr). exists p, r. auto. }
  pose proof (assign_agrees ks cache (wanted (concat progs)) Hw W1 Hag) as A. destruct (wanted (concat progs)) as [|kv w].
  - split; auto. intros p r Hp Hr. destruct (Win p r Hp Hr).
  - destruct (AssignAddresses cache (Some (file ks, false)) (kv :: w)) as [[cache' m] [e|]].
    + destruct A as (-> & (n & Hn & He) & _). split; auto. destruct (Wout n Hn) as (p & r & Hp & Hr & <-). exists p, r. auto.
    + destruct A as (A1 & A2 & A3). split; auto. intros p r Hp Hr. destruct (A2 (r_name r)) as (a & _ & Hr' & Hc); [eauto|]. exists a. auto.
Qed.

Definition absent_required (ks : list symbol) (progs : list (list kref)) : Prop := exists p r, In p progs /\ In r p /\ r_untyped r = true /\ r_weak r = false /\ addresses ks (r_name r) = [].

Lemma resolvePrograms_spec : forall ks progs cache, Forall wf ks -> agrees ks cache -> (forall p r, In p progs -> In r p -> exists a, resolves ks (r_name r) a) ->
  match snd (resolvePrograms cache (Some (file ks, false)) progs) with
  | Ok css => Forall2 (fun p cs => Forall2 (reference_ok ks) (filter r_untyped p) cs) progs css
  | Err e => (exists ns, e = RMissing ns) /\ absent_required ks progs
  end.
Proof.
  intros ks progs. induction progs as [|p ps IH]; intros cache Hw Hag Hall; cbn [resolvePrograms]; [constructor|]. unfold resolveProgram.
  assert (Hp : forall r, In r (filter r_untyped p) -> In r p /\ r_untyped r = true) by (intros r Hr; now apply filter_In in Hr).
  assert (Hno : forall r, In r (filter r_untyped p) -> ~ ambiguous ks (r_name r) /\ ~ restricted ks (r_name r)).
  { intros r Hr. destruct (Hall p r) as (a & Ha); [now left|now apply Hp|]. eapply resolves_not; eauto. }
  pose proof (applyUntyped_spec ks cache (filter r_untyped p) Hw Hag) as A. destruct (applyUntyped cache (Some (file ks, false)) (filter r_untyped p)) as [cache' [cs|e]].
  - destruct A as (A1 & _ & A2). assert (A3 : Forall2 (reference_ok ks) (filter r_untyped p) cs). { destruct A2 as [?|[(r & Hr & Hx) _]]; auto. destruct (Hno r Hr). contradiction. }
    specialize (IH cache' Hw A1). destruct (resolvePrograms cache' (Some (file ks, false)) ps) as [c [css|e]]; cbn [snd] in *.
    + constructor; auto. apply IH. intros p' r Hp' Hr. apply (Hall p' r); auto. now right.
    + destruct IH as [IH1 (p' & r & Hp' & Hr & Hx)]; [intros p' r Hp' Hr; apply (Hall p' r); auto; now right|]. split; auto. exists p', r. split; [now right|auto].
  - destruct A as (_ & _ & A). cbn [snd]. destruct e as [e|ns|ns e].
    + destruct A as (r & Hr & _ & Hx). destruct (Hno r Hr). contradiction.
    + destruct A as (Hne & _ & Hin). split; eauto. destruct ns as [|n ns]; [contradiction|]. destruct (proj1 (Hin n)) as (r & Hr & <- & Hwk & Ha); [now left|]. exists p, r. split; [now left|]. apply Hp in Hr. tauto.
    + destruct A as (_ & _ & _ & r & Hr & _ & Hx). destruct (Hno r Hr). contradiction.
Qed.
