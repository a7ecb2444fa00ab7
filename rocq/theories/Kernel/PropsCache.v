(** C97: the cache of kernel BTF *)
From Coq Require Import List String Ascii Bool Arith Lia Sorted Permutation NArith.
From Verif Require Import Kernel.Cache Kernel.CacheSpec.
Import ListNotations.
Open Scope string_scope.

Lemma upd_eq {A} f i (v : A) : upd f i v i = v. Proof. unfold upd. now rewrite Nat.eqb_refl. Qed.
Lemma upd_ne {A} f i j (v : A) : j <> i -> upd f i v j = f j. Proof. unfold upd. now destruct (Nat.eqb_spec j i). Qed.
(** ** The lock *)
Definition inR (p : pc) : bool := match p with RHeld _ | RDone _ _ | RMiss _ => true | _ => false end.
Definition inX (p : pc) : bool := match p with WHeld _ | WMake _ | WKern _ | WLoadK _ | WLoadM _ _ | WDir | WDone _ _ | Panicked => true | _ => false end.
Definition inW (p : pc) : bool := match p with WPend _ => true | _ => inX p end.
Record Lock (s : st) : Prop := {
  l_nodup : NoDup (readers s);
  l_read : forall t, In t (readers s) <-> inR (pcs s t) = true;
  l_own : forall t, owner s = Some t <-> inW (pcs s t) = true;
  l_excl : forall t, inX (pcs s t) = true -> readers s = [] }.
Lemma lookup_same s c r s' : lookup s c = Some (r, s') -> readers s' = readers s /\ owner s' = owner s /\ pcs s' = pcs s /\ kern s' = kern s /\ mods s' = mods s /\ lst s' = lst s /\ env s' = env s /\ hist s' = hist s /\ fresh s <= fresh s' /\ (forall a, a < fresh s -> heap s' a = heap s a).
Proof.
  destruct c as [|n|]; cbn; intros H.
  - destruct (kern s) eqn:K; [|discriminate]. injection H as <- <-. rewrite K. repeat split; auto.
  - destruct (find n (mods s)); [|discriminate]. injection H as <- <-. repeat split; auto.
  - destruct (lst s) as [a|] eqn:L; [|discriminate]. injection H as <- <-. cbn. rewrite L. repeat split; auto. intros b B. apply upd_ne. lia.
Qed.
Lemma lock_init e : Lock (init e).
Proof. split; cbn; [constructor|easy|easy|easy]. Qed.
Ltac one u t := let NE := fresh "NE" in destruct (Nat.eq_dec u t) as [-> | NE]; [rewrite ?upd_eq in *|rewrite ?(upd_ne _ _ _ _ NE) in *].
(** Changes of the program counter that change nothing about the lock *)
Lemma lock_pc s s' t p : Lock s -> readers s' = readers s -> owner s' = owner s -> pcs s' = upd (pcs s) t p -> inR p = inR (pcs s t) -> inW p = inW (pcs s t) -> (inX p = true -> inX (pcs s t) = true) -> Lock s'.
Proof.
  intros [L1 L2 L3 L4] E1 E2 E3 A B C. split; rewrite ?E1, ?E2, ?E3; auto.
  - intros u. rewrite L2. one u t; [now rewrite A|easy].
  - intros u. rewrite L3. one u t; [now rewrite B|easy].
  - intros u. one u t; eauto.
Qed.
Lemma lock_unlock s s' t p : Lock s -> readers s' = List.remove Nat.eq_dec t (readers s) -> owner s' = owner s -> pcs s' = upd (pcs s) t p -> inR (pcs s t) = true -> inR p = false -> inW p = false -> Lock s'.
Proof.
  intros [L1 L2 L3 L4] E1 E2 E3 A B C. assert (W : inW (pcs s t) = false) by (destruct (pcs s t); easy). split; rewrite ?E1, ?E2, ?E3.
  - clear - L1. induction (readers s) as [|x l IH]; cbn; auto. inversion L1; subst. destruct (Nat.eq_dec t x); auto. constructor; auto. intros H. apply in_remove in H. tauto.
  - intros u. split.
    + intros H. apply in_remove in H. destruct H as (H & N). rewrite upd_ne by auto. now apply L2.
    + one u t; [congruence|]. intros H. apply in_in_remove; auto. now apply L2.
  - intros u. one u t; [|apply L3]. rewrite C, L3, W. easy.
  - intros u. one u t; [destruct p; cbn in *; congruence|]. intros H. rewrite (L4 u H). auto.
Qed.
Ltac lk s t L PC := eapply (lock_pc s _ t _ L); [ | |cbn; reflexivity| | | ]; cbn; rewrite ?PC; auto.
Lemma lock_step s s' : Lock s -> step s s' -> Lock s'.
Proof.
  intros L ST. destruct ST as [t ch s s' P H| |]; [|destruct L; split; auto..]. pose proof L as [L1 L2 L3 L4]. unfold tstep in H.
  destruct (pcs s t) as [|c|c|c r|c|c|c|c|n|n|c|n b| |c r|] eqn:PC.
  - injection H as <-. lk s t L PC.
  - destruct (owner s) eqn:O; [discriminate|]. injection H as <-. split; cbn.
    + constructor; auto. rewrite L2, PC. discriminate.
    + intros u. one u t; [cbn; tauto|]. rewrite <- L2. firstorder congruence.
    + intros u. one u t; [rewrite L3, PC; easy|apply L3].
    + intros u. one u t; [discriminate|]. intros X. assert (W : inW (pcs s u) = true) by (destruct (pcs s u); auto). apply L3 in W. congruence.
  - destruct (lookup s c) as [[r s1]|] eqn:LK.
    + apply lookup_same in LK. destruct LK as (A & B & C & _). injection H as <-. eapply (lock_pc s _ t _ L); [ | |cbn; rewrite C; reflexivity| | | ]; cbn; rewrite ?PC; auto.
    + injection H as <-. lk s t L PC.
  - injection H as <-. eapply (lock_unlock s _ t _ L); [ | |cbn; reflexivity| | | ]; cbn; rewrite ?PC; auto.
  - injection H as <-. eapply (lock_unlock s _ t _ L); [ | |cbn; reflexivity| | | ]; cbn; rewrite ?PC; auto.
  - destruct (owner s) eqn:O; [discriminate|]. injection H as <-. split; cbn; auto.
    + intros u. rewrite L2. one u t; [rewrite PC; easy|easy].
    + intros u. one u t; [easy|]. rewrite <- L3. split; congruence.
    + intros u. one u t; [discriminate|]. intros X. eauto.
  - destruct (readers s) eqn:RS; [|discriminate]. injection H as <-. split; cbn; rewrite ?RS; auto.
    + intros u. rewrite L2. one u t; [rewrite PC; easy|easy].
    + intros u. rewrite L3. one u t; [rewrite PC; easy|easy].
  - destruct (lookup s c) as [[r s1]|] eqn:LK.
    + apply lookup_same in LK. destruct LK as (A & B & C & _). injection H as <-. eapply (lock_pc s _ t _ L); [ | |cbn; rewrite C; reflexivity| | | ]; cbn; rewrite ?PC; auto.
    + injection H as <-. destruct c; lk s t L PC.
  - injection H as <-. destruct (mods s); lk s t L PC.
  - injection H as <-. destruct (kern s); lk s t L PC.
  - destruct (ch_ok ch); destruct c; injection H as <-; lk s t L PC.
  - destruct (ch_ok ch && _); [destruct (mods s)|]; injection H as <-; lk s t L PC.
  - destruct (ch_ok ch); injection H as <-; lk s t L PC.
  - injection H as <-. assert (O : owner s = Some t) by (apply L3; rewrite PC; auto). split; cbn; auto.
    + intros u. rewrite L2. one u t; [rewrite PC; easy|easy].
    + intros u. one u t; [easy|]. rewrite <- L3. split; congruence.
    + intros u. one u t; [discriminate|]. eauto.
  - discriminate.
Qed.
Lemma lock_reachable e s : reachable e s -> Lock s.
Proof. induction 1; [apply lock_init|eapply lock_step; eauto]. Qed.
(** While someone holds the write lock, everyone else is outside of the critical sections. *)
Lemma alone s t u : Lock s -> inX (pcs s t) = true -> u <> t -> inR (pcs s u) = false /\ inX (pcs s u) = false /\ inW (pcs s u) = false.
Proof.
  intros L X N. assert (W : inW (pcs s t) = true) by (destruct (pcs s t); auto). apply (l_own _ L) in W. pose proof (l_excl _ L t X) as R. 
  assert (Q : inW (pcs s u) = false). { destruct (inW (pcs s u)) eqn:E; auto. apply (l_own _ L) in E. congruence. }
  split; [|split; auto; destruct (pcs s u); auto]. destruct (inR (pcs s u)) eqn:E; auto. apply (l_read _ L) in E. rewrite R in E. easy.
Qed.
(** No two goroutines access a field at the same time, if one of them writes. *)
Theorem C97_race : forall e s, reachable e s -> ~ race s.
Proof.
  intros e s H (t & u & f & w & N & A & B). apply lock_reachable in H.
  assert (X : inX (pcs s t) = true) by (destruct (pcs s t); cbn in *; congruence).
  destruct (alone s t u H X) as (C & D & _); auto. destruct (pcs s u); cbn in *; congruence.
Qed.

(** ** What the cache holds *)
Definition o2l {A} (o : option A) : list A := match o with Some x => [x] | None => [] end.
Definition pcCall (p : pc) : option call :=
  match p with
  | Idle | Panicked => None
  | Start c | RHeld c | RDone c _ | RMiss c | WStart c | WPend c | WHeld c | WLoadK c | WDone c _ => Some c
  | WMake n | WKern n | WLoadM n _ => Some (Module n)
  | WDir => Some Modules
  end.
Definition resAddr (p : pc) : option addr := match p with RDone _ (RList a) | WDone _ (RList a) => Some a | _ => None end.
Definition resOk (s : st) (t : tid) (c : call) (r : result) : Prop :=
  match r, c with
  | RErr, _ => failure t c (lastOf t (hist s))
  | RSpec p, Kernel => kern s = Some p
  | RSpec p, Module n => find n (mods s) = Some p
  | RList a, Modules => a < fresh s /\ ~ In a (returned (hist s)) /\ exists b, lst s = Some b /\ a <> b /\ heap s a = heap s b
  | _, _ => False
  end.
Definition pcOk (s : st) (t : tid) (p : pc) : Prop :=
  match p with
  | RDone c r | WDone c r => resOk s t c r
  | WMake n => find n (mods s) = None
  | WKern n => mods s <> None /\ find n (mods s) = None
  | WLoadK Kernel => kern s = None
  | WLoadK (Module n) => kern s = None /\ mods s <> None /\ find n (mods s) = None
  | WLoadK Modules => False
  | WLoadM n b => kern s = Some b /\ mods s <> None /\ find n (mods s) = None
  | WDir => lst s = None
  | Panicked => False
  | _ => True
  end.
Definition entriesOf (l : list string) : list string := sort (filter notVmlinux l).
Record Inv (e : list string) (s : st) : Prop := {
  i_kern : kloads (hist s) = o2l (kern s);
  i_mods : forall n, mloads n (hist s) = o2l (find n (mods s));
  i_list : match lst s with None => dirs (hist s) = [] | Some a => (exists d, dirs (hist s) = [d] /\ heap s a = entriesOf d) /\ a < fresh s /\ ~ In a (returned (hist s)) end;
  i_env : modulesOf e (hist s) = env s;
  i_call : forall t, callOf t (hist s) = pcCall (pcs s t);
  i_ret : forall a, In a (returned (hist s)) -> a < fresh s;
  i_fk : forall p, kern s = Some p -> p < fresh s;
  i_fm : forall n p, find n (mods s) = Some p -> p < fresh s;
  i_pc : forall t, pcOk s t (pcs s t);
  i_addr : forall t u a, t <> u -> resAddr (pcs s t) = Some a -> resAddr (pcs s u) <> Some a;
  i_hist : forall h1 ev h2, hist s = (h1 ++ ev :: h2)%list -> ok e ev h2 }.

(** Steps that log nothing and change nothing but memory that is not in use, the lock, and where a goroutine is *)
Lemma pcOk_frame s s' u p : kern s' = kern s -> mods s' = mods s -> lst s' = lst s -> fresh s <= fresh s' -> (forall a, a < fresh s -> heap s' a = heap s a) -> (forall b, lst s = Some b -> b < fresh s) ->
  (forall a, resAddr p = Some a -> In a (returned (hist s')) -> In a (returned (hist s))) -> lastOf u (hist s') = lastOf u (hist s) -> pcOk s u p -> pcOk s' u p.
Proof.
  intros A B C D E F G H. 
  assert (RO : forall c r, (forall a, r = RList a -> In a (returned (hist s')) -> In a (returned (hist s))) -> resOk s u c r -> resOk s' u c r).
  { intros c r G'. unfold resOk. destruct r as [p0|a|]; [destruct c; rewrite ?A, ?B; auto| |rewrite H; auto]. destruct c; auto. intros (X & Y & b & Z1 & Z2 & Z3). split; [lia|]. split; [intros I; apply Y, (G' a); auto|].
    exists b. rewrite C. split; auto. split; auto. rewrite !E; eauto. }
  destruct p; cbn [pcOk]; rewrite ?A, ?B, ?C; auto; apply RO; intros a -> ; apply G; reflexivity.
Qed.
Lemma inv_silent e s s' t p : Inv e s -> hist s' = hist s -> kern s' = kern s -> mods s' = mods s -> lst s' = lst s -> env s' = env s -> fresh s <= fresh s' -> (forall a, a < fresh s -> heap s' a = heap s a) ->
  pcs s' = upd (pcs s) t p -> pcCall p = pcCall (pcs s t) -> pcOk s' t p -> (forall a, resAddr p = Some a -> resAddr (pcs s t) = Some a \/ fresh s <= a) -> Inv e s'.
Proof.
  intros [K M L EV C R FK FM P AD H] E1 E2 E3 E4 E5 E6 E7 E8 PC OK RA.
  assert (LF : forall b, lst s = Some b -> b < fresh s) by (intros b LB; rewrite LB in L; tauto).
  assert (AF : forall u a, resAddr (pcs s u) = Some a -> a < fresh s).
  { intros u a X. specialize (P u). destruct (pcs s u); try discriminate; destruct r; try discriminate; injection X as ->; destruct c; cbn in P; tauto. }
  split; rewrite ?E1, ?E2, ?E3, ?E4, ?E5; auto.
  - destruct (lst s) as [a|] eqn:LA; auto. destruct L as ((d & L1 & L2) & L3 & L4). split; [exists d; split; auto; rewrite E7; auto|split; auto; lia].
  - intros u. rewrite E8, C. one u t; auto.
  - intros a I. specialize (R a I). lia.
  - intros q Q. specialize (FK q Q). lia.
  - intros n q Q. specialize (FM n q Q). lia.
  - intros u. rewrite E8. one u t; auto. apply (pcOk_frame s); auto; rewrite E1; auto.
  - rewrite E8. intros u v a N. one u t; [rewrite upd_ne by auto|one v t].
    + intros X Y. destruct (RA a X) as [Z|Z]; [exact (AD _ _ _ N Z Y)|specialize (AF _ _ Y); lia].
    + intros X Y. destruct (RA a Y) as [Z|Z]; [exact (AD _ _ _ N X Z)|specialize (AF _ _ X); lia].
    + apply AD; auto.
Qed.

Lemma by_other t u ev h : by_ t ev = true -> u <> t -> lastOf u (ev :: h) = lastOf u h /\ callOf u (ev :: h) = callOf u h.
Proof.
  intros B N. unfold lastOf. cbn [List.find]. destruct ev as [v c|v r|v n b r|v r|v c r l|a l|l]; cbn [by_ callOf] in *; try discriminate; apply Nat.eqb_eq in B; subst; destruct (Nat.eqb_spec t u); try congruence; auto.
Qed.
Lemma inv_log e s s' t p ev : Inv e s -> by_ t ev = true -> hist s' = ev :: hist s -> env s' = env s -> pcs s' = upd (pcs s) t p ->
  kloads (ev :: hist s) = o2l (kern s') -> (forall n, mloads n (ev :: hist s) = o2l (find n (mods s'))) ->
  match lst s' with None => dirs (ev :: hist s) = [] | Some a => (exists d, dirs (ev :: hist s) = [d] /\ heap s' a = entriesOf d) /\ a < fresh s' /\ ~ In a (returned (ev :: hist s)) end ->
  callOf t (ev :: hist s) = pcCall p -> (forall a, In a (returned (ev :: hist s)) -> a < fresh s') -> (forall q, kern s' = Some q -> q < fresh s') -> (forall n q, find n (mods s') = Some q -> q < fresh s') ->
  (forall u, u <> t -> pcOk s' u (pcs s u)) -> pcOk s' t p -> (forall a, resAddr p = Some a -> forall u, u <> t -> resAddr (pcs s u) <> Some a) -> ok e ev (hist s) -> Inv e s'.
Proof.
  intros [K M L EV C R FK FM P AD H] B E1 E2 E3 A1 A2 A3 A4 A5 A6 A7 A8 A9 A10 A11. split; rewrite ?E1; auto.
  - rewrite E2. rewrite <- EV. destruct ev; try discriminate; reflexivity.
  - intros u. rewrite E3. one u t; auto. destruct (by_other t u ev (hist s) B NE) as (_ & ->). apply C.
  - intros u. rewrite E3. one u t; auto.
  - rewrite E3. intros u v a N. one u t; [rewrite upd_ne by auto; intros X; apply A10; auto|one v t].
    + intros X Y. exact (A10 a Y u NE X).
    + apply AD; auto.
  - intros h1 ev' h2 X. destruct h1 as [|e1 h1]; cbn in X; injection X as -> X; [subst; auto|eauto].
Qed.
Lemma quiet s u p : inR p = false -> inX p = false -> pcOk s u p.
Proof. destruct p; cbn; easy. Qed.
Lemma quiet_addr p : inR p = false -> inX p = false -> resAddr p = None.
Proof. destruct p; cbn; easy. Qed.
Lemma find_cons n n' p m : find n (Some ((n', p) :: m)) = if String.eqb n' n then Some p else find n (Some m).
Proof. unfold find. cbn. destruct (String.eqb n' n); reflexivity. Qed.
Lemma in_entries n l : existsb (String.eqb n) l = true -> In n l.
Proof. intros H. apply existsb_exists in H. destruct H as (x & I & E). apply String.eqb_eq in E. now subst. Qed.
(** Sorting *)
Lemma insert_perm x l : Permutation (insert x l) (x :: l).
Proof. induction l as [|y l IH]; cbn; auto. destruct (String.leb x y); auto. rewrite IH. apply perm_swap. Qed.
Lemma sort_perm l : Permutation (sort l) l.
Proof. induction l as [|x l IH]; cbn; auto. rewrite insert_perm. now apply perm_skip. Qed.
Lemma insert_sorted x l : sorted l -> sorted (insert x l).
Proof.
  unfold sorted. induction l as [|y l IH]; cbn; intros H; [repeat constructor|]. destruct (String.leb x y) eqn:E.
  - constructor; auto.
  - assert (YX : String.leb y x = true) by (destruct (String.leb_total x y); congruence). inversion H as [|? ? S1 S2]; subst. constructor; [auto|]. destruct l as [|z l]; cbn; [auto|]. destruct (String.leb x z); constructor; auto. now inversion S2.
Qed.
Lemma sort_sorted l : sorted (sort l).
Proof. induction l as [|x l IH]; cbn; [constructor|now apply insert_sorted]. Qed.
Lemma mloads_find s e n p : Inv e s -> In p (mloads n (hist s)) -> p < fresh s.
Proof. intros I. rewrite (i_mods _ _ I). intros H. apply (i_fm _ _ I n). destruct (find n (mods s)); cbn in H; [|easy]. destruct H as [-> |[]]. auto. Qed.
Lemma retOk e s t c r : Inv e s -> callOf t (hist s) = Some c -> resOk s t c r -> ok e (EvRet t c r (content s r)) (hist s).
Proof.
  intros I C RK. split; auto. unfold resOk in RK. destruct r as [p|a|]; auto.
  - destruct c; auto; rewrite ?(i_kern _ _ I), ?(i_mods _ _ I), RK; reflexivity.
  - destruct c; auto. destruct RK as (A & B & b & D1 & D2 & D3). split; auto. pose proof (i_list _ _ I) as L. rewrite D1 in L. destruct L as ((d & L1 & L2) & _). exists d. split; auto. cbn [content]. rewrite D3, L2. unfold entriesOf. split; [apply sort_sorted|apply sort_perm].
Qed.

Lemma inv_init e : Inv e (init e).
Proof. split; cbn; auto; try easy. intros [|? ?] ? ?; discriminate. Qed.
Lemma list_fresh e s b : Inv e s -> lst s = Some b -> b < fresh s.
Proof. intros I L. pose proof (i_list _ _ I) as X. rewrite L in X. tauto. Qed.
Lemma addr_fresh e s u a : Inv e s -> resAddr (pcs s u) = Some a -> a < fresh s.
Proof. intros I X. pose proof (i_pc _ _ I u) as P. destruct (pcs s u); try discriminate; destruct r; try discriminate; injection X as ->; destruct c; cbn in P; tauto. Qed.
(** A call looks into the cache. *)
Lemma inv_lookup e s t c r s1 p : Inv e s -> lookup s c = Some (r, s1) -> pcCall (pcs s t) = Some c -> (p = RDone c r \/ p = WDone c r) -> Inv e (setPc s1 t p).
Proof.
  intros I LK C Q. assert (RK : resOk s1 t c r).
  { destruct c as [|n|]; cbn in LK.
    - destruct (kern s) eqn:K; [|discriminate]. injection LK as <- <-. exact K.
    - destruct (find n (mods s)) eqn:K; [|discriminate]. injection LK as <- <-. exact K.
    - destruct (lst s) as [b|] eqn:K; [|discriminate]. injection LK as <- <-. pose proof (list_fresh _ _ _ I K). unfold resOk. cbn [fresh make hist lst heap]. split; [lia|]. split; [intros X; apply (i_ret _ _ I) in X; lia|]. exists b. split; auto. split; [lia|]. rewrite upd_eq, upd_ne by lia. auto. }
  assert (RA : forall a, resAddr p = Some a -> fresh s <= a).
  { intros a. destruct c as [|n|]; cbn in LK; [destruct (kern s)|destruct (find n (mods s))|destruct (lst s)]; try discriminate; injection LK as <- <-; destruct Q as [-> | ->]; cbn; intros X; inversion X; lia. }
  apply lookup_same in LK. destruct LK as (A1 & A2 & A3 & A4 & A5 & A6 & A7 & A8 & A9 & A10).
  eapply (inv_silent e s _ t p I); cbn [hist kern mods lst env fresh heap pcs setPc]; auto.
  - now rewrite A3.
  - rewrite C. destruct Q as [-> | ->]; cbn; auto.
  - destruct Q as [-> | ->]; exact RK.
Qed.
(** A call returns. *)
Lemma inv_return e s t c r o rs : Inv e s -> (pcs s t = RDone c r \/ pcs s t = WDone c r) -> Inv e (log (setPc (setLock s o rs) t Idle) (EvRet t c r (content s r))).
Proof.
  intros I Q. pose proof (i_pc _ _ I t) as RK. pose proof (i_call _ _ I t) as CK. assert (AD := i_addr _ _ I t). 
  assert (RK' : resOk s t c r) by (destruct Q as [-> | ->] in RK; exact RK). assert (CK' : callOf t (hist s) = Some c) by (destruct Q as [-> | ->] in CK; exact CK).
  assert (RT : returned (EvRet t c r (content s r) :: hist s) = (match r with RList a => [a] | _ => [] end ++ returned (hist s))%list) by reflexivity.
  assert (RAt : resAddr (pcs s t) = match r with RList a => Some a | _ => None end) by (destruct Q as [-> | ->]; destruct r; reflexivity).
  assert (NL : forall b, lst s = Some b -> r <> RList b). { intros b LB ->. unfold resOk in RK'. destruct c; auto. destruct RK' as (_ & _ & b' & E & N & _). congruence. }
  eapply (inv_log e s _ t Idle (EvRet t c r (content s r)) I); [cbn; apply Nat.eqb_refl|reflexivity|reflexivity|reflexivity|..]; cbn [kern mods lst heap fresh log setPc setLock]; rewrite ?RT.
  - cbn. apply (i_kern _ _ I).
  - intros n. cbn. apply (i_mods _ _ I).
  - pose proof (i_list _ _ I) as L. destruct (lst s) as [b|] eqn:LB; [|exact L]. destruct L as (L1 & L2 & L3). split; [exact L1|]. split; auto. intros X. apply in_app_or in X. destruct X as [X|X]; auto. destruct r; try easy. destruct X as [-> |[]]. elim (NL b eq_refl eq_refl).
  - cbn. now rewrite Nat.eqb_refl.
  - intros a X. apply in_app_or in X. destruct X as [X|X]; [|apply (i_ret _ _ I); auto]. destruct r; try easy. destruct X as [-> |[]]. eapply addr_fresh; eauto.
  - apply (i_fk _ _ I).
  - apply (i_fm _ _ I).
  - intros u N. eapply pcOk_frame; [..|apply (i_pc _ _ I u)]; cbn [kern mods lst fresh heap hist log setPc setLock]; auto; [intros b; apply list_fresh with e; auto| |]. 
    + intros a X Y0. assert (Y : In a (returned (EvRet t c r (content s r) :: hist s))) by exact Y0. rewrite RT in Y. apply in_app_or in Y. destruct Y as [Y|Y]; auto. destruct r; try easy. destruct Y as [-> |[]]. elim (AD u a (fun E => N (eq_sym E)) RAt X).
    + apply (by_other t u (EvRet t c r (content s r)) (hist s)); auto. apply Nat.eqb_refl.
  - exact Logic.I.
  - discriminate.
  - eapply retOk; eauto.
Qed.
(** Something could not be loaded. *)
Lemma inv_failed e s t c ev : Inv e s -> Lock s -> inX (pcs s t) = true -> pcCall (pcs s t) = Some c -> by_ t ev = true -> (ev = EvLoadK t None /\ kern s = None \/ (exists n b, ev = EvLoadM t n b None) \/ ev = EvDir t None) -> failure t c (Some ev) -> ok e ev (hist s) -> Inv e (log (setPc s t (WDone c RErr)) ev).
Proof.
  intros I L X C B E F O. assert (BT := B). assert (LO : forall h, lastOf t (ev :: h) = Some ev) by (intros; unfold lastOf; cbn [List.find]; now rewrite BT).
  assert (CO : callOf t (ev :: hist s) = callOf t (hist s)) by (destruct E as [(-> & _)|[(n & b & ->)| -> ]]; reflexivity).
  assert (SM : kloads (ev :: hist s) = kloads (hist s) /\ (forall n, mloads n (ev :: hist s) = mloads n (hist s)) /\ dirs (ev :: hist s) = dirs (hist s) /\ returned (ev :: hist s) = returned (hist s)) by (destruct E as [(-> & _)|[(n & b & ->)| -> ]]; auto).
  destruct SM as (S1 & S2 & S3 & S4).
  eapply (inv_log e s _ t _ ev I B); [reflexivity|reflexivity|reflexivity|..]; cbn [kern mods lst heap fresh log setPc]; rewrite ?S1, ?S3, ?S4; auto; try apply I.
  - intros n. rewrite S2. apply I.
  - rewrite CO. rewrite (i_call _ _ I). exact C.
  - intros u N. destruct (alone s t u L X N) as (Q1 & Q2 & _). now apply quiet.
  - unfold pcOk, resOk. cbn [hist log setPc]. rewrite LO. exact F.
  - discriminate.
Qed.
Lemma inv_step e s s' : Inv e s -> Lock s -> step s s' -> Inv e s'.
Proof.
  intros I L ST. destruct ST as [t ch s s' P H|a l s A|l s].
  2:{ destruct I as [K M LI EV C R FK FM PO AD H]. split; cbn; auto.
    - destruct (lst s) as [b|] eqn:LB; auto. destruct LI as ((d & D1 & D2) & D3 & D4). split; [exists d; rewrite upd_ne by congruence; auto|auto].
    - intros t. specialize (PO t). assert (RO : forall c r, resOk s t c r -> resOk (log (St (kern s) (mods s) (lst s) (owner s) (readers s) (upd (heap s) a l) (fresh s) (pcs s) (env s) (hist s)) (EvUser a l)) t c r).
      { intros c r. unfold resOk. cbn. destruct r as [p|x|]; auto. destruct c; auto. intros (A1 & A2 & b & A3 & A4 & A5). split; auto. split; auto. exists b. split; auto. split; auto. rewrite A3 in LI. rewrite !upd_ne; auto; intros ->; tauto. }
      destruct (pcs s t); cbn [pcOk] in *; auto.
    - intros h1 ev h2 X. destruct h1 as [|e1 h1]; cbn in X; injection X as <- X; [subst; exact A|eauto]. }
  2:{ destruct I as [K M LI EV C R FK FM PO AD H]. split; cbn; auto. intros h1 ev h2 X. destruct h1 as [|e1 h1]; cbn in X; injection X as <- X; [subst; exact Logic.I|eauto]. }
  unfold tstep in H. pose proof (i_pc _ _ I t) as PK. pose proof (i_call _ _ I t) as CK.
  destruct (pcs s t) as [|c|c|c r|c|c|c|c|n|n|c|n b| |c r|] eqn:PC; cbn [pcOk pcCall] in PK, CK.
  - injection H as <-. eapply (inv_log e s _ t _ (EvCall t (ch_call ch)) I); [cbn; apply Nat.eqb_refl|reflexivity|reflexivity|reflexivity|..]; cbn [kern mods lst heap fresh log setPc]; try apply I.
    + cbn. now rewrite Nat.eqb_refl.
    + intros u N. eapply pcOk_frame; [..|apply (i_pc _ _ I u)]; cbn [kern mods lst fresh heap hist log setPc setLock]; auto; [intros b; apply list_fresh with e; auto|]. apply (by_other t u (EvCall t (ch_call ch)) (hist s)); auto. apply Nat.eqb_refl.
    + exact Logic.I.
    + discriminate.
    + exact CK.
  - destruct (owner s) eqn:O; [discriminate|]. injection H as <-. eapply (inv_silent e s _ t _ I); cbn; auto; try reflexivity; [rewrite PC; reflexivity|easy].
  - destruct (lookup s c) as [[r s1]|] eqn:LK.
    + injection H as <-. eapply inv_lookup; eauto. rewrite PC. auto.
    + injection H as <-. eapply (inv_silent e s _ t _ I); cbn; auto; try reflexivity; [rewrite PC; reflexivity|easy].
  - injection H as <-. apply inv_return; auto.
  - injection H as <-. eapply (inv_silent e s _ t _ I); cbn; auto; try reflexivity; [rewrite PC; reflexivity|easy].
  - destruct (owner s) eqn:O; [discriminate|]. injection H as <-. eapply (inv_silent e s _ t _ I); cbn; auto; try reflexivity; [rewrite PC; reflexivity|easy].
  - destruct (readers s) eqn:RS; [|discriminate]. injection H as <-. eapply (inv_silent e s _ t _ I); cbn; auto; try reflexivity; [rewrite PC; reflexivity|easy].
  - destruct (lookup s c) as [[r s1]|] eqn:LK.
    + injection H as <-. eapply inv_lookup; eauto. rewrite PC. auto.
    + injection H as <-. eapply (inv_silent e s _ t _ I); [..|cbn; reflexivity| | |]; cbn; auto; try reflexivity.
      * rewrite PC. destruct c; reflexivity.
      * destruct c as [|n|]; cbn in LK |- *; [destruct (kern s)|destruct (find n (mods s))|destruct (lst s)]; auto; discriminate.
      * destruct c; easy.
  - injection H as <-. destruct (mods s) as [m|] eqn:M.
    + eapply (inv_silent e s _ t _ I); cbn; auto; try reflexivity; [rewrite PC; reflexivity| |easy]. cbn. rewrite M. split; [discriminate|exact PK].
    + assert (I' : Inv e (setMods s [])). 
      { assert (X : forall u, u <> t -> inR (pcs s u) = false /\ inX (pcs s u) = false /\ inW (pcs s u) = false) by (intros u N; apply (alone s t u L); auto; rewrite PC; reflexivity).
        destruct I as [K MM LI EV C R FK FM PO AD H]. split; cbn; auto; [rewrite M in MM; exact MM|intros ? ?; discriminate|].
        intros u. destruct (Nat.eq_dec u t) as [-> | N]; [rewrite PC; reflexivity|]. destruct (X u N) as (Q1 & Q2 & _). now apply quiet. }
      eapply (inv_silent e (setMods s []) _ t _ I'); cbn; auto; try reflexivity; [rewrite PC; reflexivity| |easy]. cbn. split; [discriminate|reflexivity].
  - injection H as <-. destruct PK as (PK1 & PK2). eapply (inv_silent e s _ t _ I); [..|cbn; reflexivity| | |]; cbn; auto; try reflexivity.
    + rewrite PC. destruct (kern s); reflexivity.
    + destruct (kern s) eqn:K; cbn; auto.
    + destruct (kern s); easy.
  - assert (KN : kern s = None) by (destruct c; tauto). assert (KL : kloads (hist s) = []) by (rewrite (i_kern _ _ I), KN; reflexivity).
    assert (CO : callOf t (hist s) = Some Kernel \/ exists n, callOf t (hist s) = Some (Module n) /\ mloads n (hist s) = []).
    { rewrite CK. destruct c as [|n|]; auto; [|easy]. right. exists n. split; auto. rewrite (i_mods _ _ I). destruct PK as (_ & _ & ->). reflexivity. }
    destruct (ch_ok ch); injection H as <-.
    + assert (X : forall u, u <> t -> inR (pcs s u) = false /\ inX (pcs s u) = false /\ inW (pcs s u) = false) by (intros u N; apply (alone s t u L); auto; rewrite PC; reflexivity).
      eapply (inv_log e s _ t _ (EvLoadK t (Some (fresh s))) I); [cbn; apply Nat.eqb_refl|reflexivity|reflexivity|reflexivity|..]; cbn [kern mods lst heap fresh log setPc setKern alloc].
      * unfold kloads in *. cbn. now rewrite KL.
      * intros n. apply (i_mods _ _ I).
      * pose proof (i_list _ _ I) as LI. destruct (lst s); [|exact LI]. destruct LI as (A & B & D). split; [exact A|]. split; [lia|exact D].
      * cbn. rewrite CK. destruct c; reflexivity.
      * intros a A. apply (i_ret _ _ I) in A. lia.
      * intros q [= <-]. lia.
      * intros n q Q. apply (i_fm _ _ I) in Q. lia.
      * intros u N. destruct (X u N) as (Q1 & Q2 & _). now apply quiet.
      * destruct c as [|n|]; cbn; auto. split; auto. tauto.
      * intros a A. destruct c; discriminate.
      * split; auto. split; auto. intros q [= <-] n IN. eapply mloads_find in IN; eauto. lia.
    + assert (E : setKern s None = s) by (destruct s; cbn in KN; subst; reflexivity). rewrite E. apply inv_failed; auto; try (rewrite PC; reflexivity); [cbn; apply Nat.eqb_refl| |].
      * destruct c; cbn; auto; easy.
      * split; auto. split; auto. intros; discriminate.
  - destruct PK as (PK1 & PK2 & PK3).
    assert (KL : kloads (hist s) = [b]) by (rewrite (i_kern _ _ I), PK1; reflexivity). assert (ML : mloads n (hist s) = []) by (rewrite (i_mods _ _ I), PK3; reflexivity).
    destruct (ch_ok ch && existsb (String.eqb n) (env s)) eqn:OK.
    + apply andb_true_iff in OK. destruct OK as (_ & EX). apply in_entries in EX. destruct (mods s) as [m|] eqn:M; [|easy]. injection H as <-.
      assert (X : forall u, u <> t -> inR (pcs s u) = false /\ inX (pcs s u) = false /\ inW (pcs s u) = false) by (intros u N; apply (alone s t u L); auto; rewrite PC; reflexivity).
      eapply (inv_log e s _ t _ (EvLoadM t n b (Some (fresh s))) I); [cbn; apply Nat.eqb_refl|reflexivity|reflexivity|reflexivity|..]; cbn [kern mods lst heap fresh log setPc setMods alloc].
      * apply (i_kern _ _ I).
      * intros n'. rewrite find_cons. pose proof (i_mods _ _ I n') as MM. rewrite M in MM. unfold mloads in *. cbn. destruct (String.eqb_spec n n') as [-> | N]; [|exact MM]. now rewrite ML.
      * pose proof (i_list _ _ I) as LI. destruct (lst s); [|exact LI]. destruct LI as (A & B & D). split; [exact A|]. split; [lia|exact D].
      * cbn. exact CK.
      * intros a A. apply (i_ret _ _ I) in A. lia.
      * intros q Q. apply (i_fk _ _ I) in Q. lia.
      * intros n' q. rewrite find_cons. destruct (String.eqb n n'); [intros [= <-]; lia|]. intros Q. rewrite <- M in Q. apply (i_fm _ _ I) in Q. lia.
      * intros u N. destruct (X u N) as (Q1 & Q2 & _). now apply quiet.
      * cbn [pcOk resOk mods log setPc setMods alloc]. rewrite find_cons, String.eqb_refl. reflexivity.
      * discriminate.
      * split; auto. split; auto. split; auto. intros q [= <-]. rewrite (i_env _ _ I). split; auto. split; [apply (i_fk _ _ I) in PK1; lia|]. intros n' IN. eapply mloads_find in IN; eauto. lia.
    + injection H as <-. apply inv_failed; auto; try (rewrite PC; reflexivity); [cbn; apply Nat.eqb_refl|eauto|right; eauto|]. split; auto. split; auto. split; auto. intros; discriminate.
  - assert (DR : dirs (hist s) = []) by (pose proof (i_list _ _ I) as LI; rewrite PK in LI; exact LI). destruct (ch_ok ch); injection H as <-.
    + assert (X : forall u, u <> t -> inR (pcs s u) = false /\ inX (pcs s u) = false /\ inW (pcs s u) = false) by (intros u N; apply (alone s t u L); auto; rewrite PC; reflexivity).
      eapply (inv_log e s _ t _ (EvDir t (Some (ch_entries ch))) I); [cbn; apply Nat.eqb_refl|reflexivity|reflexivity|reflexivity|..]; cbn [kern mods lst heap fresh log setPc setLst make].
      * apply (i_kern _ _ I).
      * apply (i_mods _ _ I).
      * split; [exists (ch_entries ch); split; [unfold dirs in *; cbn; now rewrite DR|rewrite upd_ne by lia; apply upd_eq]|]. split; [lia|]. cbn. intros A. apply (i_ret _ _ I) in A. lia.
      * cbn. exact CK.
      * intros a A. apply (i_ret _ _ I) in A. lia.
      * intros q Q. apply (i_fk _ _ I) in Q. lia.
      * intros n q Q. apply (i_fm _ _ I) in Q. lia.
      * intros u N. destruct (X u N) as (Q1 & Q2 & _). now apply quiet.
      * cbn [pcOk resOk fresh hist lst heap log setPc setLst make]. split; [lia|]. split; [intros A; apply (i_ret _ _ I) in A; lia|]. exists (fresh s). split; auto. split; [lia|]. rewrite upd_eq, upd_ne, upd_eq by lia. reflexivity.
      * intros a A u N. destruct (X u N) as (Q1 & Q2 & _). rewrite quiet_addr; auto. discriminate.
      * split; auto. split; auto. intros l [= <-]. rewrite (i_env _ _ I). exact P.
    + apply inv_failed; auto; try (rewrite PC; reflexivity); [cbn; apply Nat.eqb_refl|reflexivity|]. split; auto. split; auto. intros; discriminate.
  - injection H as <-. apply inv_return; auto.
  - discriminate.
Qed.
Lemma inv_reachable e s : reachable e s -> Inv e s.
Proof. induction 1; [apply inv_init|eapply inv_step; eauto; eapply lock_reachable; eauto]. Qed.

(** Everything that happens is allowed by the specification, given what happened before. *)
Theorem C97_history : forall e s, reachable e s -> forall h1 ev h2, hist s = (h1 ++ ev :: h2)%list -> ok e ev h2.
Proof. intros e s R. apply (i_hist _ _ (inv_reachable _ _ R)). Qed.
(** Nothing panics: the map is never nil when something is added. *)
Theorem C97_panic : forall e s t, reachable e s -> pcs s t <> Panicked.
Proof. intros e s t R H. pose proof (i_pc _ _ (inv_reachable _ _ R) t) as P. rewrite H in P. exact P. Qed.
Lemma kloads_app h1 h2 : kloads (h1 ++ h2)%list = (kloads h1 ++ kloads h2)%list. Proof. apply flat_map_app. Qed.
Lemma mloads_app n h1 h2 : mloads n (h1 ++ h2)%list = (mloads n h1 ++ mloads n h2)%list. Proof. apply flat_map_app. Qed.
Lemma dirs_app h1 h2 : dirs (h1 ++ h2)%list = (dirs h1 ++ dirs h2)%list. Proof. apply flat_map_app. Qed.
Lemma suffix_one {A} (l1 l2 : list A) (o : option A) x : (l1 ++ l2)%list = o2l o -> l2 = [x] -> (l1 ++ l2)%list = [x].
Proof. intros H ->. destruct l1 as [|y l1]; auto. destruct o; cbn in H; [|discriminate]. injection H as _ H. destruct l1; discriminate. Qed.
(** Whoever asks gets the same Spec; it is the one that was loaded, the only one. *)
Theorem C97_kernel : forall e s t p l, reachable e s -> In (EvRet t Kernel (RSpec p) l) (hist s) -> kloads (hist s) = [p].
Proof.
  intros e s t p l R H. apply in_split in H. destruct H as (h1 & h2 & E). pose proof (C97_history e s R _ _ _ E) as (_ & O). cbn in O. pose proof (i_kern _ _ (inv_reachable _ _ R)) as K.
  rewrite E in *. rewrite kloads_app in *. eapply suffix_one; eauto.
Qed.
(** The same for a module. Its base is what Kernel returns. *)
Theorem C97_module : forall e s t n p l, reachable e s -> In (EvRet t (Module n) (RSpec p) l) (hist s) -> mloads n (hist s) = [p] /\
  exists b u, In (EvLoadM u n b (Some p)) (hist s) /\ kloads (hist s) = [b] /\ forall v q l, In (EvRet v Kernel (RSpec q) l) (hist s) -> q = b.
Proof.
  intros e s t n p l R H. apply in_split in H. destruct H as (h1 & h2 & E). pose proof (C97_history e s R _ _ _ E) as (_ & O). cbn in O. pose proof (i_mods _ _ (inv_reachable _ _ R) n) as K.
  assert (M : mloads n (hist s) = [p]) by (rewrite E in *; rewrite mloads_app in *; eapply suffix_one; eauto). split; auto.
  assert (I : In p (mloads n (hist s))) by (rewrite M; now left). apply in_flat_map in I. destruct I as (ev & I & X). destruct ev as [|? ?|u n' b r| | | |]; try easy; destruct r as [p'|]; try easy.
  destruct (String.eqb_spec n' n) as [-> |]; [|easy]. destruct X as [-> |[]]. exists b, u. split; auto.
  apply in_split in I. destruct I as (g1 & g2 & G). pose proof (C97_history e s R _ _ _ G) as (_ & O2 & _). pose proof (i_kern _ _ (inv_reachable _ _ R)) as KK.
  assert (KB : kloads (hist s) = [b]) by (rewrite G in *; rewrite kloads_app in *; eapply suffix_one; eauto). split; auto. intros v q l' J. apply (C97_kernel e s) in J; auto. congruence.
Qed.
(** After something was loaded it isn't loaded again. *)
Theorem C97_once : forall e s h1 ev h2, reachable e s -> hist s = (h1 ++ ev :: h2)%list ->
  match ev with
  | EvLoadK _ (Some _) => forall t r, ~ In (EvLoadK t r) h1
  | EvLoadM _ n _ (Some _) => forall t b r, ~ In (EvLoadM t n b r) h1
  | EvDir _ (Some _) => forall t r, ~ In (EvDir t r) h1
  | _ => True
  end.
Proof.
  intros e s h1 ev h2 R E.
  assert (G : forall ev', In ev' h1 -> exists g2, ok e ev' (g2 ++ ev :: h2)%list).
  { intros ev' I. apply in_split in I. destruct I as (g1 & g2 & ->). exists g2. apply (C97_history e s R g1). rewrite E, <- app_assoc. reflexivity. }
  destruct ev as [|t r|t n b r|t r| | |]; auto; destruct r as [p|]; auto.
  - intros u r I. destruct (G _ I) as (g2 & K & _). change (kloads (g2 ++ [EvLoadK t (Some p)] ++ h2)%list = []) in K. rewrite !kloads_app in K. apply app_eq_nil in K. destruct K as (_ & K). discriminate.
  - intros u b' r I. destruct (G _ I) as (g2 & _ & _ & K & _). change (mloads n (g2 ++ [EvLoadM t n b (Some p)] ++ h2)%list = []) in K. rewrite !mloads_app in K. apply app_eq_nil in K. destruct K as (_ & K). apply app_eq_nil in K. destruct K as (K & _). cbn in K. rewrite String.eqb_refl in K. discriminate.
  - intros u r I. destruct (G _ I) as (g2 & _ & K & _). change (dirs (g2 ++ [EvDir t (Some p)] ++ h2)%list = []) in K. rewrite !dirs_app in K. apply app_eq_nil in K. destruct K as (_ & K). discriminate.
Qed.
(** So calls that begin afterwards succeed. *)
Theorem C97_succeeds : forall e s h1 h2 t p, reachable e s -> hist s = (h1 ++ EvLoadK t (Some p) :: h2)%list ->
  forall g1 g2 u l, h1 = (g1 ++ EvRet u Kernel RErr l :: g2)%list -> ~ In (EvCall u Kernel) g2.
Proof.
  intros e s h1 h2 t p R E g1 g2 u l G I. subst h1. assert (E' : hist s = (g1 ++ EvRet u Kernel RErr l :: (g2 ++ EvLoadK t (Some p) :: h2))%list) by (rewrite E, <- app_assoc; reflexivity).
  pose proof (C97_history e s R _ _ _ E') as (_ & F). cbn in F. 
  assert (NL : ~ In (EvLoadK u None) g2) by (intros X; apply (C97_once e s _ _ _ R E u None); apply in_or_app; right; right; exact X). apply NL.
  clear - F I. induction g2 as [|x g2 IH]; [easy|]. unfold lastOf in F. cbn [List.find app] in F. destruct (by_ u x) eqn:B; [injection F as ->; now left|]. right. apply IH; auto. destruct I as [-> |I]; auto. cbn in B. rewrite Nat.eqb_refl in B. discriminate.
Qed.
(** All lists have the same strings, each has its own memory. *)
Theorem C97_modules : forall e s t a l u b l', reachable e s -> In (EvRet t Modules (RList a) l) (hist s) -> In (EvRet u Modules (RList b) l') (hist s) -> l = l'.
Proof.
  intros e s t a l u b l' R. 
  assert (G : forall t a l, In (EvRet t Modules (RList a) l) (hist s) -> exists d, dirs (hist s) = [d] /\ l = entriesOf d).
  { clear - R. induction R as [|s s' R IH ST]; [easy|]. intros t a l I.
    assert (IS : Inv e s') by (eapply inv_step; eauto; [apply inv_reachable|eapply lock_reachable]; eauto).
    assert (Q : In (EvRet t Modules (RList a) l) (hist s) \/ (lst s' = lst s /\ (pcs s t = RDone Modules (RList a) \/ pcs s t = WDone Modules (RList a)) /\ l = heap s a /\ dirs (hist s') = dirs (hist s))).
    { destruct ST as [v ch s s' P H| |]; [|destruct I as [I|I]; [discriminate|auto]..]. unfold tstep in H. destruct (pcs s v) eqn:PC; try (injection H as <-; cbn in I; destruct I as [I|I]; [discriminate|auto]; fail).
      - destruct (owner s); [discriminate|]. injection H as <-. auto.
      - destruct (lookup s c) as [[r s1]|] eqn:LK; injection H as <-; auto. apply lookup_same in LK. cbn in I. destruct LK as (_ & _ & _ & _ & _ & _ & _ & -> & _) in I. auto.
      - injection H as <-. cbn in I. destruct I as [I|I]; auto. injection I as -> -> -> <-. right. rewrite PC. auto.
      - injection H as <-. auto.
      - destruct (owner s); [discriminate|]. injection H as <-. auto.
      - destruct (readers s); [|discriminate]. injection H as <-. auto.
      - destruct (lookup s c) as [[r s1]|] eqn:LK; injection H as <-; auto. apply lookup_same in LK. cbn in I. destruct LK as (_ & _ & _ & _ & _ & _ & _ & -> & _) in I. auto.
      - injection H as <-. destruct (mods s); auto.
      - injection H as <-. auto.
      - destruct (ch_ok ch); injection H as <-; (destruct I as [I|I]; [discriminate|auto]).
      - destruct (ch_ok ch && _); [destruct (mods s)|]; injection H as <-; auto; (destruct I as [I|I]; [discriminate|auto]).
      - destruct (ch_ok ch); injection H as <-; (destruct I as [I|I]; [discriminate|auto]).
      - injection H as <-. cbn in I. destruct I as [I|I]; auto. injection I as -> -> -> <-. right. rewrite PC. auto.
      - discriminate. }
    assert (MON : exists x, hist s' = (x ++ hist s)%list).
    { destruct ST as [v ch s s' P H|a0 l0|l0]; [|exists [EvUser a0 l0]; reflexivity|exists [EvEnv l0]; reflexivity]. unfold tstep in H. destruct (pcs s v) eqn:PC.
      all: repeat match type of H with context [match ?x with _ => _ end] => match x with lookup _ _ => destruct (lookup s c) as [[r s1]|] eqn:LK | _ => destruct x end end; try discriminate; injection H as <-; try (exists []; reflexivity); try (eexists [_]; reflexivity).
      all: apply lookup_same in LK; destruct LK as (_ & _ & _ & _ & _ & _ & _ & E & _); exists []; exact E. }
    destruct Q as [Q|(Q1 & Q2 & -> & Q3)].
    - destruct (IH _ _ _ Q) as (d & D & ->). exists d. split; auto. destruct MON as (x & X). pose proof (i_list _ _ IS) as L. rewrite X, dirs_app in *. rewrite D in *.
      assert (O : exists o, (dirs x ++ [d])%list = o2l o) by (destruct (lst s'); [destruct L as ((d' & L & _) & _); exists (Some d')|exists None]; exact L). destruct O as (o & O). eapply suffix_one; eauto.
    - pose proof (inv_reachable _ _ R) as I0. pose proof (i_pc _ _ I0 t) as PK. assert (RK : resOk s t Modules (RList a)) by (destruct Q2 as [-> | ->] in PK; exact PK). destruct RK as (_ & _ & b & B1 & B2 & B3). pose proof (i_list _ _ I0) as L. rewrite B1 in L. destruct L as ((d & L1 & L2) & _). exists d. rewrite Q3, B3. auto. }
  intros A B. apply G in A, B. destruct A as (d & D & ->), B as (d' & D' & ->). congruence.
Qed.
(** Unless nobody is in a call, somebody who is in one can go on. *)
Theorem C97_deadlock : forall e s t, reachable e s -> pcs s t <> Idle -> exists u, pcs s u <> Idle /\ forall ch, tstep u ch s <> None.
Proof.
  intros e s t H0 NI. pose proof H0 as H. apply lock_reachable in H. pose proof (fun t => C97_panic e s t H0) as NP.
  assert (RD : forall u, In u (readers s) -> pcs s u <> Idle /\ forall ch, tstep u ch s <> None).
  { intros u I. apply (l_read _ H) in I. split; [destruct (pcs s u); easy|]. intros ch. unfold tstep. destruct (pcs s u); try discriminate. destruct (lookup s c) as [[? ?]|]; discriminate. }
  assert (OW : forall u, owner s = Some u -> exists u, pcs s u <> Idle /\ forall ch, tstep u ch s <> None).
  { intros u O. pose proof (proj1 (l_own _ H u) O) as I. destruct (pcs s u) eqn:PC; try discriminate.
    - destruct (readers s) as [|v r] eqn:RS.
      + exists u. rewrite PC. split; [discriminate|]. intros ch. unfold tstep. rewrite PC, RS. discriminate.
      + exists v. apply RD. now left.
    - exists u. rewrite PC. split; [discriminate|]. intros ch. unfold tstep. rewrite PC. destruct (lookup s c) as [[? ?]|]; discriminate.
    - exists u. rewrite PC. split; [discriminate|]. intros ch. unfold tstep. rewrite PC. discriminate.
    - exists u. rewrite PC. split; [discriminate|]. intros ch. unfold tstep. rewrite PC. discriminate.
    - exists u. rewrite PC. split; [discriminate|]. intros ch. unfold tstep. rewrite PC. destruct (ch_ok ch); discriminate.
    - exists u. rewrite PC. split; [discriminate|]. intros ch. unfold tstep. rewrite PC. destruct (_ && _); [destruct (mods s)|]; discriminate.
    - exists u. rewrite PC. split; [discriminate|]. intros ch. unfold tstep. rewrite PC. destruct (ch_ok ch); discriminate.
    - exists u. rewrite PC. split; [discriminate|]. intros ch. unfold tstep. rewrite PC. discriminate.
    - elim (NP u PC). }
  destruct (owner s) as [u|] eqn:O; [apply (OW u eq_refl)|]. exists t. split; auto. intros ch. unfold tstep. destruct (pcs s t) eqn:PC; try discriminate; rewrite ?O; try discriminate.
  - destruct (lookup s c) as [[? ?]|]; discriminate.
  - exfalso. pose proof (proj2 (l_own _ H t)) as X. rewrite PC in X. specialize (X eq_refl). congruence.
  - destruct (lookup s c) as [[? ?]|]; discriminate.
  - destruct (ch_ok ch); discriminate.
  - destruct (_ && _); [destruct (mods s)|]; discriminate.
  - destruct (ch_ok ch); discriminate.
  - elim (NP t PC).
Qed.
(** Steps that a goroutine takes in one call *)
Inductive exec (t : tid) : nat -> st -> st -> Prop :=
| exec_refl s : exec t 0 s s
| exec_own n s s1 s2 ch : exec t n s s1 -> pcs s1 t <> Idle -> tstep t ch s1 = Some s2 -> exec t (S n) s s2
| exec_other n s s1 s2 : exec t n s s1 -> step s1 s2 -> pcs s2 t = pcs s1 t -> exec t n s s2.
Definition steps (p : pc) : nat :=
  match p with Idle | Panicked => 0 | RDone _ _ | WDone _ _ => 1 | WDir => 2 | WLoadM _ _ => 2 | WLoadK _ => 3 | WKern _ => 4 | WMake _ => 5 | WHeld _ => 6 | WPend _ => 7 | WStart _ => 8 | RMiss _ => 9 | RHeld _ => 10 | Start _ => 11 end.
(** A call takes at most 11 steps. *)
Theorem C97_steps : forall t n s s', exec t n s s' -> n <= 11.
Proof.
  intros t n s s' H. enough (G : n + steps (pcs s' t) <= steps (pcs s t) /\ steps (pcs s t) <= 11) by lia. induction H as [s|n s s1 s2 ch H IH NI ST|n s s1 s2 H IH _ E]; [split; [lia|destruct (pcs s t); cbn; lia]| |rewrite E; auto].
  destruct IH as (A & B). split; auto. enough (steps (pcs s2 t) < steps (pcs s1 t)) by lia. clear - NI ST. unfold tstep in ST. destruct (pcs s1 t) eqn:PC; try easy.
  all: repeat match type of ST with context [match ?x with _ => _ end] => destruct x eqn:? end; try discriminate; injection ST as <-.
  all: repeat match goal with H : lookup _ _ = Some _ |- _ => apply lookup_same in H; destruct H as (? & ? & ? & _) end; cbn; rewrite ?upd_eq; cbn; lia.
Qed.


(** ** Examples *)
Fixpoint run (acts : list (tid * choice)) (s : st) : option st := match acts with [] => Some s | (t, ch) :: r => match tstep t ch s with Some s => run r s | None => None end end.
Lemma env_tstep t ch s s' : tstep t ch s = Some s' -> env s' = env s.
Proof.
  unfold tstep. intros H. destruct (pcs s t) eqn:PC; try easy.
  all: repeat match type of H with context [match ?x with _ => _ end] => destruct x eqn:? end; try discriminate; injection H as <-; auto.
  all: match goal with H : lookup _ _ = Some _ |- _ => apply lookup_same in H end; cbn; intuition congruence.
Qed.
Lemma run_reachable e acts s s' : reachable e s -> Forall (fun a => Permutation (ch_entries (snd a)) ("vmlinux" :: env s)) acts -> run acts s = Some s' -> reachable e s'.
Proof.
  revert s. induction acts as [|[t ch] r IH]; cbn; intros s R F H; [injection H as <-; auto|]. destruct (tstep t ch s) as [s1|] eqn:T; [|discriminate]. inversion F; subst. apply (IH s1); [eapply reach_step; [exact R|eapply step_thread; eauto]|rewrite (env_tstep _ _ _ _ T); auto|exact H].
Qed.
Definition world : list string := ["ext4"; "bbr"].
Definition does (c : call) (ok : bool) (t : tid) : tid * choice := (t, Choice c ok ["ext4"; "vmlinux"; "bbr"]).
Lemma does_perm c ok t : Permutation (ch_entries (snd (does c ok t))) ("vmlinux" :: world).
Proof. cbn. apply perm_swap. Qed.
(** Two goroutines ask for the kernel's types at once: one fails, the other loads them. Then one asks for a module, and twice for the list, overwriting the first. *)
Definition both : list (tid * choice) :=
  (map (does Kernel true) [1; 2; 1; 2; 1; 2; 1; 2; 1; 1; 1] ++ [does Kernel false 1] ++ map (does Kernel true) [1; 2; 2; 2; 2; 2] ++
   map (does (Module "bbr") true) [1; 1; 1; 1; 1; 1; 1; 1; 1; 1; 1] ++ map (does Modules true) [2; 2; 2; 2; 2; 2; 2; 2; 2] ++ map (does Kernel true) [1; 1; 1; 1])%list.
Definition view (s : option st) : list event := match s with Some s => rev (hist s) | None => [] end.
Theorem C97_example :
  view (run both (init world)) = [EvCall 1 Kernel; EvCall 2 Kernel; EvLoadK 1 None; EvRet 1 Kernel RErr []; EvLoadK 2 (Some 0); EvRet 2 Kernel (RSpec 0) [];
    EvCall 1 (Module "bbr"); EvLoadM 1 "bbr" 0 (Some 1); EvRet 1 (Module "bbr") (RSpec 1) [];
    EvCall 2 Modules; EvDir 2 (Some ["ext4"; "vmlinux"; "bbr"]); EvRet 2 Modules (RList 3) ["bbr"; "ext4"]; EvCall 1 Kernel; EvRet 1 Kernel (RSpec 0) []] /\
  Forall (fun a => Permutation (ch_entries (snd a)) ("vmlinux" :: env (init world))) both.
Proof. split; [vm_compute; reflexivity|]. apply Forall_forall. intros [t ch] I. unfold both in I. repeat (apply in_app_or in I; destruct I as [I|I]); try (apply in_map_iff in I; destruct I as (x & E & _); rewrite <- E; apply does_perm); destruct I as [E|[]]; rewrite <- E; apply does_perm. Qed.
(** The cache outlives what is in it: after a module is loaded or unloaded, Modules gives the old list and Module the types of what is gone. *)
Theorem C97_stale_refuted : exists s h1 h2, reachable world s /\ hist s = (h1 ++ EvEnv ["new"] :: h2)%list /\
  In (EvCall 1 Modules) h1 /\ In (EvRet 1 Modules (RList 4) ["bbr"; "ext4"]) h1 /\ In (EvCall 1 (Module "bbr")) h1 /\ In (EvRet 1 (Module "bbr") (RSpec 1) []) h1 /\ modulesOf world (hist s) = ["new"].
Proof.
  destruct (run both (init world)) as [s1|] eqn:R1; [|vm_compute in R1; discriminate].
  assert (Re1 : reachable world s1) by (eapply run_reachable; [apply reach_init|apply C97_example|exact R1]).
  pose (s2 := log (St (kern s1) (mods s1) (lst s1) (owner s1) (readers s1) (heap s1) (fresh s1) (pcs s1) ["new"] (hist s1)) (EvEnv ["new"])).
  assert (Re2 : reachable world s2) by (eapply reach_step; [exact Re1|apply step_env]).
  pose (acts := map (fun c => (1, Choice c true ["vmlinux"; "new"])) [Modules; Modules; Modules; Modules; Module "bbr"; Module "bbr"; Module "bbr"; Module "bbr"]).
  destruct (run acts s2) as [s3|] eqn:R3; [|vm_compute in R1; injection R1 as <-; vm_compute in R3; discriminate].
  assert (Re3 : reachable world s3) by (eapply run_reachable; [exact Re2| |exact R3]; repeat constructor).
  exists s3, [EvRet 1 (Module "bbr") (RSpec 1) []; EvCall 1 (Module "bbr"); EvRet 1 Modules (RList 4) ["bbr"; "ext4"]; EvCall 1 Modules], (hist s1). split; auto.
  assert (H : hist s3 = (EvRet 1 (Module "bbr") (RSpec 1) [] :: EvCall 1 (Module "bbr") :: EvRet 1 Modules (RList 4) ["bbr"; "ext4"] :: EvCall 1 Modules :: EvEnv ["new"] :: hist s1)) by (vm_compute in R1; injection R1 as <-; vm_compute in R3; injection R3 as <-; vm_compute; reflexivity).
  split; [exact H|]. cbn [In]. split; [tauto|]. split; [tauto|]. split; [tauto|]. split; [tauto|]. rewrite H. reflexivity.
Qed.

Print Assumptions C97_history.
Print Assumptions C97_race.
Print Assumptions C97_deadlock.
Print Assumptions C97_steps.
Print Assumptions C97_panic.
Print Assumptions C97_kernel.
Print Assumptions C97_module.
Print Assumptions C97_once.
Print Assumptions C97_succeeds.
Print Assumptions C97_modules.
Print Assumptions C97_example.
Print Assumptions C97_stale_refuted.
