(** C92: descriptors are closed once, and only by their owner *)
From Coq Require Import Permutation.
From Verif Require Import Base.GoInt Fd.Fd Fd.FdSpec.
Open Scope nat_scope.

Lemma upd_same {A} (f : nat -> A) k a : upd f k a k = a. Proof. unfold upd. rewrite Nat.eqb_refl. auto. Qed.
Lemma upd_other {A} (f : nat -> A) k a j : j <> k -> upd f k a j = f j. Proof. unfold upd. intros N. destruct (Nat.eqb_spec j k); easy. Qed.
Lemma in_remove i j l : In j (remove i l) <-> In j l /\ j <> i.
Proof. unfold remove. rewrite filter_In. destruct (Nat.eqb_spec j i); cbn; intuition discriminate. Qed.

Definition owner (x : fd) : Prop := cl x = Armed \/ cl x = Queued \/ exists v, busy x = Some (Sys v).
Definition okFD (s : state) (x : fd) : Prop :=
  ident x < next s /\
  (owner x -> tab s (num x) = Some (ident x) /\ ~ In (ident x) (others s)) /\
  (busy x <> None -> held x = true) /\
  match cl x with
  | Armed => match busy x with
             | Some (Stop _ v) => raw x = None /\ v = num x
             | Some (Sys _) => False
             | Some (Use v) | Some (Dup v) => raw x = Some (num x) /\ v = num x
             | _ => raw x = Some (num x)
             end
  | Queued | Done => busy x = None /\ held x = false /\ raw x = Some (num x)
  | Stopped => raw x = None /\ match busy x with
             | Some (Sys v) => v = num x
             | Some (Stop _ _) | Some (Use _) | Some (Dup _) => False
             | _ => True
             end
  end.
Definition inv (s : state) : Prop :=
  (forall k x, objs s k = Some x -> okFD s x /\ k < nobj s) /\
  (forall k j x y, objs s k = Some x -> objs s j = Some y -> owner x -> owner y -> ident x = ident y -> k = j) /\
  (forall n m i, tab s n = Some i -> tab s m = Some i -> n = m) /\
  (forall n i, tab s n = Some i -> i < next s) /\
  (forall i, In i (others s) -> i < next s /\ isOpen s i) /\
  (** what is open belongs to somebody *)
  (forall n i, tab s n = Some i -> In i (others s) \/ exists k x, objs s k = Some x /\ owner x /\ ident x = i).

(** Replacing one object by another that owns as much, with the rest unchanged *)
Lemma inv_obj s k x y : inv s -> objs s k = Some x -> ident y = ident x -> okFD s y -> (owner y <-> owner x) -> inv (setObj s k y).
Proof.
  intros (I1 & I2 & I3 & I4 & I5 & I6) O E OK OW. split; [|split; [|split; [|split; [|split]]]]; auto; cbn.
  - intros j z Z. unfold upd in Z. destruct (Nat.eqb_spec j k) as [-> | N]; [|apply I1; auto]. injection Z as <-. split; auto. apply (I1 k x O).
  - intros j1 j2 a b A B OA OB EI. unfold upd in A, B. destruct (Nat.eqb_spec j1 k) as [-> | N1], (Nat.eqb_spec j2 k) as [-> | N2]; auto.
    + injection A as <-. apply (I2 k j2 x b); auto; [apply OW; auto|congruence].
    + injection B as <-. apply (I2 j1 k a x); auto; [apply OW; auto|congruence].
    + apply (I2 j1 j2 a b); auto.
  - intros n i T. destruct (I6 n i T) as [L|(j & z & Z & OZ & EZ)]; auto. right. destruct (Nat.eqb_spec j k) as [-> | N].
    + exists k, y. rewrite upd_same. split; auto. rewrite O in Z. injection Z as <-. split; [apply OW; auto|congruence].
    + exists j, z. rewrite upd_other by auto. auto.
Qed.
(** The owner closes its descriptor. *)
Lemma inv_close s k x y : inv s -> objs s k = Some x -> ident y = ident x -> owner x -> ~ owner y -> okFD (withTab s (upd (tab s) (num x) None)) y -> inv (withTab (setObj s k y) (upd (tab s) (num x) None)).
Proof.
  intros (I1 & I2 & I3 & I4 & I5 & I6) O E OX NY OK. destruct (I1 k x O) as ((F1 & F2 & _) & _). destruct (F2 OX) as (T & NO).
  assert (TT : forall n i, upd (tab s) (num x) None n = Some i -> tab s n = Some i /\ i <> ident x).
  { intros n i H. unfold upd in H. destruct (Nat.eqb_spec n (num x)); [discriminate|]. split; auto. intros ->. apply n0. eauto. }
  split; [|split; [|split; [|split; [|split]]]]; cbn.
  - intros j z Z. unfold upd in Z at 1. destruct (Nat.eqb_spec j k) as [-> | N]; [injection Z as <-; split; auto; apply (I1 k x O)|].
    destruct (I1 j z Z) as ((Z1 & Z2 & Z3 & Z4) & Z5). split; auto. split; auto. split; auto. intros OZ. destruct (Z2 OZ) as (A & B). split; auto. cbn. unfold upd. destruct (Nat.eqb_spec (num z) (num x)) as [EN|]; auto.
    exfalso. apply N. apply (I2 j k z x); auto. rewrite EN, T in A. congruence.
  - intros j1 j2 a b A B OA OB EI. unfold upd in A, B. destruct (Nat.eqb_spec j1 k) as [-> | N1], (Nat.eqb_spec j2 k) as [-> | N2]; auto.
    + injection A as <-. easy.
    + injection B as <-. easy.
    + apply (I2 j1 j2 a b); auto.
  - intros n m i A B. apply TT in A, B. apply (I3 n m i); tauto.
  - intros n i A. apply TT in A. apply (I4 n i); tauto.
  - intros i J. destruct (I5 i J) as (A & n & B). split; auto. exists n. cbn. unfold upd. destruct (Nat.eqb_spec n (num x)) as [-> |]; auto. rewrite T in B. injection B as B. subst i. contradiction.
  - intros n i A. apply TT in A. destruct A as (A & NI). destruct (I6 n i A) as [L|(j & z & Z & OZ & EZ)]; auto. right. destruct (Nat.eqb_spec j k) as [-> | N].
    + rewrite O in Z. injection Z as <-. congruence.
    + exists j, z. rewrite upd_other by auto. auto.
Qed.
(** A new FD for a descriptor nobody else owns *)
Lemma okFD_next s x t n l : okFD s x -> next s <= n -> (owner x -> t (num x) = Some (ident x) /\ ~ In (ident x) l) -> forall o m, okFD (St t n l o m) x.
Proof. intros (A & B & C & D) L H o m. split; [cbn; lia|]. split; auto. Qed.
Lemma inv_new s n i : inv s -> tab s n = Some i -> ~ In i (others s) -> (forall k x, objs s k = Some x -> owner x -> ident x <> i) ->
  inv (newFD s n i).
Proof.
  intros (I1 & I2 & I3 & I4 & I5 & I6) T NO NW.
  split; [|split; [|split; [|split; [|split]]]]; cbn; auto.
  - intros j z Z. unfold upd in Z. destruct (Nat.eqb_spec j (nobj s)) as [-> | N].
    + injection Z as <-. split; [|lia]. split; [cbn; eauto|]. split; [cbn; auto|]. cbn. auto.
    + destruct (I1 j z Z) as (A & B). split; [|lia]. exact A.
  - intros j1 j2 a b A B OA OB EI. unfold upd in A, B. destruct (Nat.eqb_spec j1 (nobj s)) as [-> | N1], (Nat.eqb_spec j2 (nobj s)) as [-> | N2]; auto.
    + injection A as <-. cbn in EI. elim (NW j2 b B OB). auto.
    + injection B as <-. cbn in EI. elim (NW j1 a A OA). auto.
    + apply (I2 j1 j2 a b); auto.
  - intros m j A. destruct (I6 m j A) as [L|(k & z & Z & OZ & EZ)]; auto. right. exists k, z. destruct (I1 k z Z). rewrite upd_other by lia. auto.
Qed.
Lemma step_inv s e s' : step s e s' -> careful s s' -> inv s -> inv s' /\
  match e with
  | EClose k n hit | EUse k n hit => exists x, objs s k = Some x /\ hit = Some (ident x) /\ ~ In (ident x) (others s)
  | ENone => True
  end.
Proof.
  intros ST CF I. pose proof I as I0. destruct I as (I1 & I2 & I3 & I4 & I5 & I6).
  destruct ST as [s n T|s n i T J|s n i T J|s k x p O H B P|s k x O|s k x O C R|s k x O C|s k x r O B R|s k x r v O B R|s k x v O B|s k x r v O B R|s k x v O B|s k x p O B P R|s k x v O B R|s k x v O B|s k x v O B R|s k x v O B|s k x v i n O B T N L].
  - (* OtherOpen *) split; auto.
    assert (FR : forall i m, tab s m = Some i -> m <> n) by (intros i m X ->; congruence).
    split; [|split; [|split; [|split; [|split]]]]; cbn.
    + intros j z Z. destruct (I1 j z Z) as (A & B). split; auto. eapply okFD_next; eauto. intros OZ. destruct A as (A1 & A2 & _). destruct (A2 OZ) as (A3 & A4). split; [rewrite upd_other; eauto|]. intros [X | X]; [lia|auto].
    + auto.
    + intros a b i A B. unfold upd in A, B. destruct (Nat.eqb_spec a n) as [-> |], (Nat.eqb_spec b n) as [-> |]; auto; [injection A as <-; apply I4 in B; lia|injection B as <-; apply I4 in A; lia|eauto].
    + intros a i A. unfold upd in A. destruct (Nat.eqb_spec a n); [injection A as <-; lia|]. apply I4 in A. lia.
    + intros i [<- | X]; [split; [lia|]; exists n; cbn; apply upd_same|]. destruct (I5 i X) as (A & m & B). split; [lia|]. exists m. cbn. rewrite upd_other; eauto.
    + intros a i A. unfold upd in A. destruct (Nat.eqb_spec a n); [injection A as <-; auto|]. destruct (I6 a i A); auto.
  - (* OtherClose *) split; auto.
    assert (TT : forall m j, upd (tab s) n None m = Some j -> tab s m = Some j /\ j <> i).
    { intros m j H. unfold upd in H. destruct (Nat.eqb_spec m n); [discriminate|]. split; auto. intros ->. eauto. }
    assert (FW : forall m j, tab s m = Some j -> j <> i -> upd (tab s) n None m = Some j).
    { intros m j H N. unfold upd. destruct (Nat.eqb_spec m n); auto. congruence. }
    split; [|split; [|split; [|split; [|split]]]]; cbn.
    + intros j z Z. destruct (I1 j z Z) as (A & B). split; auto. destruct A as (A1 & A2 & A3). split; auto. split; auto. intros OZ. destruct (A2 OZ) as (A4 & A5). cbn. split; [apply FW; auto; congruence|]. rewrite in_remove. tauto.
    + auto.
    + intros a b j A B. apply TT in A, B. apply (I3 a b j); tauto.
    + intros a j A. apply TT in A. apply (I4 a j); tauto.
    + intros j X. apply in_remove in X. destruct X as (X & N). destruct (I5 j X) as (A & m & B). split; auto. exists m. cbn. auto.
    + intros a j A. apply TT in A. destruct A as (A & N). destruct (I6 a j A); auto. left. apply in_remove. auto.
  - (* New *) split; auto. 
    assert (IV : inv (withOthers s (remove i (others s))) \/ True) by auto. clear IV.
    split; [|split; [|split; [|split; [|split]]]]; cbn.
    + intros j z Z. unfold upd in Z. destruct (Nat.eqb_spec j (nobj s)) as [-> | N].
      * injection Z as <-. split; [|lia]. split; [cbn; eauto|]. split; [cbn; split; auto; rewrite in_remove; tauto|]. cbn. auto.
      * destruct (I1 j z Z) as (A & B). split; [|lia]. destruct A as (A1 & A2 & A3). split; auto. split; auto. intros OZ. destruct (A2 OZ) as (A4 & A5). cbn. split; auto. rewrite in_remove. tauto.
    + assert (NW : forall k x, objs s k = Some x -> owner x -> ident x <> i) by (intros k x O OX E; destruct (I1 k x O) as ((_ & A2 & _) & _); destruct (A2 OX); congruence).
      intros j1 j2 a b A B OA OB EI. unfold upd in A, B. destruct (Nat.eqb_spec j1 (nobj s)) as [-> | N1], (Nat.eqb_spec j2 (nobj s)) as [-> | N2]; auto.
      * injection A as <-. cbn in EI. elim (NW j2 b B OB). auto.
      * injection B as <-. cbn in EI. elim (NW j1 a A OA). auto.
      * apply (I2 j1 j2 a b); auto.
    + auto.
    + auto.
    + intros j X. apply in_remove in X. destruct X. apply I5; auto.
    + intros m j A. destruct (Nat.eqb_spec j i) as [-> | N].
      * right. exists (nobj s). eexists. rewrite upd_same. split; [reflexivity|]. cbn. split; auto. left. auto.
      * destruct (I6 m j A) as [X|(k & z & Z & OZ & EZ)]; [left; apply in_remove; auto|]. right. exists k, z. destruct (I1 k z Z). rewrite upd_other by lia. auto.
  - (* Begin *) split; auto. destruct (I1 k x O) as ((A1 & A2 & A3 & A4) & A5). apply (inv_obj s k x); auto; unfold okFD, owner in *; cbn; rewrite B in *.
    + split; auto. split; [intros OX; apply A2; destruct OX as [?|[?|(v & X)]]; auto; exfalso; destruct P as [-> | [-> |(r & ->)]]; discriminate|]. split; auto.
      destruct (cl x); auto; destruct P as [-> | [-> |(r & ->)]]; auto; destruct A4 as (? & ? & ?); congruence.
    + split; intros [?|[?|(v & X)]]; auto; try discriminate. exfalso; destruct P as [-> | [-> |(r & ->)]]; discriminate.
  - (* Drop *) split; auto. destruct (I1 k x O) as ((A1 & A2 & A3 & A4) & A5).
    assert (HB : held x = true -> busy x = None) by (intros H; eapply CF; eauto; cbn; [apply upd_same|reflexivity]).
    assert (BN : busy x = None) by (destruct (held x) eqn:H; auto; destruct (busy x) eqn:BB; auto; exfalso; assert (false = true) by (apply A3; discriminate); discriminate).
    apply (inv_obj s k x); auto; unfold okFD, owner in *; cbn; [|tauto]. split; auto. split; auto. rewrite BN in *. split; [congruence|]. destruct (cl x); auto; tauto.
  - (* Collect *) split; auto. destruct (I1 k x O) as ((A1 & A2 & A3 & A4) & A5). unfold reachable in R. apply orb_false_iff in R. destruct R as (R1 & R2).
    assert (BN : busy x = None) by (destruct (busy x) eqn:BB; auto; exfalso; assert (held x = true) by (apply A3; discriminate); congruence).
    apply (inv_obj s k x); auto; unfold okFD, owner in *; cbn; rewrite ?C, ?BN in *; [|intuition]. split; auto.
  - (* Cleanup *) destruct (I1 k x O) as ((A1 & A2 & A3 & A4) & A5). rewrite C in A4. destruct A4 as (BN & HF & RW). destruct A2 as (T & NO); [right; auto|]. split; [|exists x; auto].
    apply (inv_close s k x); auto; unfold okFD, owner in *; cbn; rewrite ?BN.
    + auto.
    + intros [?|[?|(v & ?)]]; discriminate.
    + split; auto. split; [intros [?|[?|(v & ?)]]; discriminate|]. split; [congruence|]. auto.
  - (* Released *) split; auto. destruct (I1 k x O) as ((A1 & A2 & A3 & A4) & A5). apply (inv_obj s k x); auto; unfold okFD, owner in *; cbn; rewrite B in *.
    + split; auto. split; [intros [?|[?|(v & ?)]]; try discriminate; apply A2; auto|]. split; [congruence|]. destruct (cl x); auto; try congruence; tauto.
    + split; intros [?|[?|(v & ?)]]; auto; discriminate.
  - (* Take *) split; auto. destruct (I1 k x O) as ((A1 & A2 & A3 & A4) & A5). apply (inv_obj s k x); auto; unfold okFD, owner in *; cbn; rewrite B in *.
    + split; auto. split; [intros [?|[?|(w & ?)]]; try discriminate; apply A2; auto|]. split; [intros _; apply A3; discriminate|]. destruct (cl x); try (destruct A4; congruence). split; auto. congruence.
    + split; intros [?|[?|(w & ?)]]; auto; discriminate.
  - (* StopClose *) split; auto. destruct (I1 k x O) as ((A1 & A2 & A3 & A4) & A5). rewrite B in A4. destruct (cl x) eqn:C; try (exfalso; tauto); [|destruct A4; discriminate|destruct A4; discriminate].
    apply (inv_obj s k x); auto; unfold okFD, owner in *; cbn; rewrite ?B, ?C in *.
    + split; auto. split; [intros _; apply A2; auto|]. split; [intros _; apply A3; discriminate|]. auto.
    + split; auto. intros _. right. right. eauto.
  - (* StopDisown *) split; auto. destruct (I1 k x O) as ((A1 & A2 & A3 & A4) & A5). rewrite B in A4. destruct (cl x) eqn:C; try (exfalso; tauto); [|destruct A4; discriminate|destruct A4; discriminate].
    destruct A2 as (T & NO); [left; auto|].
    assert (OT : forall j z, objs s j = Some z -> j <> k -> owner z -> ident z <> ident x) by (intros j z Z N OZ E; apply N; apply (I2 j k z x); auto; left; auto).
    split; [|split; [|split; [|split; [|split]]]]; cbn; auto.
    + intros j z Z. unfold upd in Z. destruct (Nat.eqb_spec j k) as [-> | N].
      * injection Z as <-. split; auto. split; auto. split; [intros [?|[?|(w & ?)]]; discriminate|]. split; [cbn; congruence|]. cbn. tauto.
      * destruct (I1 j z Z) as ((Z1 & Z2 & Z3) & Z4). split; auto. split; auto. split; auto. intros OZ. cbn. destruct (Z2 OZ). split; auto. intros [E|X]; auto. apply (OT j z); auto.
    + intros j1 j2 a b A B' OA OB EI. unfold upd in A, B'. destruct (Nat.eqb_spec j1 k) as [-> | N1], (Nat.eqb_spec j2 k) as [-> | N2]; auto.
      * injection A as <-. destruct OA as [?|[?|(w & ?)]]; discriminate.
      * injection B' as <-. destruct OB as [?|[?|(w & ?)]]; discriminate.
      * apply (I2 j1 j2 a b); auto.
    + intros i [<- | X]; [split; auto; exists (num x); auto|]. destruct (I5 i X). auto.
    + intros n i A. destruct (I6 n i A) as [X|(j & z & Z & OZ & EZ)]; auto. destruct (Nat.eqb_spec j k) as [-> | N].
      * left. left. rewrite O in Z. injection Z as <-. auto.
      * right. exists j, z. rewrite upd_other by auto. auto.
  - (* SysClose *) destruct (I1 k x O) as ((A1 & A2 & A3 & A4) & A5). destruct A2 as (T & NO); [right; right; eauto|]. rewrite B in *.
    assert (V : v = num x /\ cl x = Stopped) by (destruct (cl x) eqn:C; try tauto; destruct A4; auto; discriminate). destruct V as (-> & C). split; [|exists x; auto].
    apply (inv_close s k x); auto; unfold okFD, owner in *; cbn; rewrite ?C in *.
    + right. right. eauto.
    + intros [?|[?|(w & ?)]]; discriminate.
    + split; auto. split; [intros [?|[?|(w & ?)]]; discriminate|]. split; [congruence|]. tauto.
  - (* NoUse *) split; auto. destruct (I1 k x O) as ((A1 & A2 & A3 & A4) & A5). apply (inv_obj s k x); auto; unfold okFD, owner in *; cbn; rewrite B in *.
    + split; auto. split; [intros [?|[?|(v & ?)]]; try discriminate; apply A2; auto|]. split; [congruence|]. destruct (cl x); auto; try (destruct P as [-> | ->]; congruence); tauto.
    + destruct P as [-> | ->]; split; intros [?|[?|(v & ?)]]; auto; discriminate.
  - (* ReadUse *) split; auto. destruct (I1 k x O) as ((A1 & A2 & A3 & A4) & A5). apply (inv_obj s k x); auto; unfold okFD, owner in *; cbn; rewrite B in *.
    + split; auto. split; [intros [?|[?|(w & ?)]]; try discriminate; apply A2; auto|]. split; [intros _; apply A3; discriminate|]. destruct (cl x); try (destruct A4; congruence). split; auto. congruence.
    + split; intros [?|[?|(w & ?)]]; auto; discriminate.
  - (* CallUse *) destruct (I1 k x O) as ((A1 & A2 & A3 & A4) & A5). rewrite B in *. destruct (cl x) eqn:C; try (exfalso; tauto); [|destruct A4; discriminate|destruct A4; discriminate]. destruct A4 as (R & ->). destruct A2 as (T & NO); [left; auto|].
    split; [|exists x; auto]. apply (inv_obj s k x); auto; unfold okFD, owner in *; cbn; rewrite ?C, ?B in *.
    + split; auto.
    + split; intros [?|[?|(w & ?)]]; auto; discriminate.
  - (* ReadDup *) split; auto. destruct (I1 k x O) as ((A1 & A2 & A3 & A4) & A5). apply (inv_obj s k x); auto; unfold okFD, owner in *; cbn; rewrite B in *.
    + split; auto. split; [intros [?|[?|(w & ?)]]; try discriminate; apply A2; auto|]. split; [intros _; apply A3; discriminate|]. destruct (cl x); try (destruct A4; congruence). split; auto. congruence.
    + split; intros [?|[?|(w & ?)]]; auto; discriminate.
  - (* FailDup *) destruct (I1 k x O) as ((A1 & A2 & A3 & A4) & A5). rewrite B in *. destruct (cl x) eqn:C; try (exfalso; tauto); [|destruct A4; discriminate|destruct A4; discriminate]. destruct A4 as (R & ->). destruct A2 as (T & NO); [left; auto|].
    split; [|exists x; auto]. apply (inv_obj s k x); auto; unfold okFD, owner in *; cbn; rewrite ?C, ?B in *.
    + split; auto.
    + split; intros [?|[?|(w & ?)]]; auto; discriminate.
  - (* CallDup *) destruct (I1 k x O) as ((A1 & A2 & A3 & A4) & A5). rewrite B in *. destruct (cl x) eqn:C; try (exfalso; tauto); [|destruct A4; discriminate|destruct A4; discriminate]. destruct A4 as (R & ->). destruct A2 as (T' & NO); [left; auto|].
    split; [|exists x; auto].
    assert (IV : inv (setObj s k (at_ x None))).
    { apply (inv_obj s k x); auto; unfold okFD, owner in *; cbn; rewrite ?C, ?B in *.
      + split; auto.
      + split; intros [?|[?|(w & ?)]]; auto; discriminate. }
    set (s1 := setObj s k (at_ x None)) in *. assert (N1 : tab s1 n = None) by auto. change (next s) with (next s1). clearbody s1. clear - IV N1.
    destruct IV as (I1 & I2 & I3 & I4 & I5 & I6). assert (FR : forall i m, tab s1 m = Some i -> m <> n) by (intros i m X ->; congruence).
    split; [|split; [|split; [|split; [|split]]]]; cbn.
    + intros j z Z. unfold upd in Z at 1. destruct (Nat.eqb_spec j (nobj s1)) as [-> | N].
      * injection Z as <-. split; [|lia]. split; [cbn; lia|]. split; [cbn; split; [apply upd_same|]; intros X; apply I5 in X; lia|]. cbn. auto.
      * destruct (I1 j z Z) as (A & B). split; [|lia]. eapply okFD_next; [exact A|cbn; lia|]. intros OZ. destruct A as (A1 & A2 & _). destruct (A2 OZ) as (A3 & A4). cbn. split; [rewrite upd_other; eauto|auto].
    + assert (NW : forall k x, objs s1 k = Some x -> ident x <> next s1) by (intros k x O E; destruct (I1 k x O) as ((A1 & _) & _); lia).
      intros j1 j2 a b A B OA OB EI. unfold upd in A, B. destruct (Nat.eqb_spec j1 (nobj s1)) as [-> | N1'], (Nat.eqb_spec j2 (nobj s1)) as [-> | N2]; auto.
      * injection A as <-. cbn in EI. elim (NW j2 b B). auto.
      * injection B as <-. cbn in EI. elim (NW j1 a A). auto.
      * apply (I2 j1 j2 a b); auto.
    + intros a b i A B. unfold upd in A, B. destruct (Nat.eqb_spec a n) as [-> |], (Nat.eqb_spec b n) as [-> |]; auto; [injection A as <-; apply I4 in B; lia|injection B as <-; apply I4 in A; lia|eauto].
    + intros a i A. unfold upd in A. destruct (Nat.eqb_spec a n); [injection A as <-; lia|]. apply I4 in A. lia.
    + intros i X. destruct (I5 i X) as (A & m & B). split; [lia|]. exists m. cbn. rewrite upd_other; eauto.
    + intros a i A. unfold upd in A. destruct (Nat.eqb_spec a n) as [-> |].
      * injection A as <-. right. exists (nobj s1). eexists. rewrite upd_same. split; [reflexivity|]. cbn. split; auto. left. auto.
      * destruct (I6 a i A) as [X|(j & z & Z & OZ & EZ)]; auto. right. exists j, z. destruct (I1 j z Z). rewrite upd_other by lia. auto.
Qed.
Lemma initial_inv s : initial s -> inv s.
Proof.
  intros (O & N & ND & IO & INJ & LT). split; [intros k x X; rewrite O in X; discriminate|]. split; [intros k j x y X; rewrite O in X; discriminate|]. split; auto. split; auto. split.
  - intros i X. apply IO in X. destruct X as (n & X). split; eauto. exists n. auto.
  - intros n i T. left. apply IO. eauto.
Qed.
Lemma runs_inv s es s' : runs true s es s' -> initial s -> inv s'.
Proof. intros R. remember true as c eqn:E. induction R as [c s|c s es s1 e s2 R IH ST CF]; intros I; [apply initial_inv; auto|]. eapply step_inv; eauto. Qed.

(** ** Theorems *)
(** An FD closes the descriptor it was made for, which no one else owns at that time. *)
Theorem C92_close : forall s es s1 k n hit s2, initial s -> runs true s es s1 -> step s1 (EClose k n hit) s2 -> careful s1 s2 ->
  exists i, hit = Some i /\ made s1 k i /\ ~ In i (others s1) /\ ~ isOpen s2 i.
Proof.
  intros s es s1 k n hit s2 I R ST CF. pose proof (runs_inv _ _ _ R I) as IV. destruct (step_inv _ _ _ ST CF IV) as (IV2 & x & O & -> & NO). exists (ident x). split; auto. split; [exists x; auto|]. split; auto.
  destruct IV as (_ & _ & I3 & _). intros (m & M).
  remember (EClose k n (Some (ident x))) as e eqn:E. destruct ST; try discriminate; injection E as <- <- E; cbn in M; unfold upd in M.
  - destruct (Nat.eqb_spec m (num x0)); [discriminate|eauto].
  - destruct (Nat.eqb_spec m v); [discriminate|eauto].
Qed.
(** Numbers passed to system calls stand for the descriptor the FD was made for. *)
Theorem C92_use : forall s es s1 k n hit s2, initial s -> runs true s es s1 -> step s1 (EUse k n hit) s2 -> careful s1 s2 ->
  exists i, hit = Some i /\ made s1 k i /\ ~ In i (others s1).
Proof.
  intros s es s1 k n hit s2 I R ST CF. pose proof (runs_inv _ _ _ R I) as IV. destruct (step_inv _ _ _ ST CF IV) as (IV2 & x & O & -> & NO). exists (ident x). split; auto. split; auto. exists x; auto.
Qed.
(** FDs stand for the same descriptor all the time. *)
Lemma step_made s e s' k i : step s e s' -> inv s -> made s k i -> made s' k i.
Proof.
  intros ST IV (x & O & E). destruct IV as (I1 & _). pose proof (proj2 (I1 k x O)) as L.
  assert (SO : forall s0 k0 y z, objs s0 k0 = Some y -> ident z = ident y -> made s0 k i -> made (setObj s0 k0 z) k i).
  { intros s0 k0 y z Y EI (a & A & B). unfold made. cbn. unfold upd. destruct (Nat.eqb_spec k k0) as [-> |]; [exists z; split; auto; congruence|eauto]. }
  assert (M : made s k i) by (exists x; auto).
  destruct ST; auto; try (eapply SO; eauto; reflexivity); try (exists x; cbn; rewrite ?upd_other by lia; auto; fail).
  - destruct (SO s k0 x0 (at_ x0 None) H eq_refl M) as (y & Y & EY). exists y. cbn in *. rewrite (upd_other _ (nobj s)) by lia. auto.
Qed.
Lemma closed_hist s es s' : runs true s es s' -> initial s -> NoDup (map snd (closes es)) /\ NoDup (map fst (closes es)) /\
  forall k h, In (k, h) (closes es) -> exists i, h = Some i /\ made s' k i /\ ~ isOpen s' i /\ i < next s'.
Proof.
  intros R. remember true as c eqn:E. induction R as [c s|c s es s1 e s2 R IH ST CF]; intros I; [cbn; split; [constructor|split; [constructor|easy]]|]. subst c. specialize (CF eq_refl). specialize (IH eq_refl I). destruct IH as (N1 & N2 & H).
  pose proof (runs_inv _ _ _ R I) as IV.
  assert (NX : next s1 <= next s2) by (destruct ST; cbn; lia).
  assert (OP : forall i, i < next s1 -> ~ isOpen s1 i -> ~ isOpen s2 i).
  { intros i L NO (n & T). destruct ST; cbn in T; try (apply NO; exists n; exact T).
    - unfold upd in T. destruct (Nat.eqb_spec n n0); [injection T as <-; lia|apply NO; exists n; auto].
    - unfold upd in T. destruct (Nat.eqb_spec n n0); [discriminate|apply NO; exists n; auto].
    - unfold upd in T. destruct (Nat.eqb_spec n (num x)); [discriminate|apply NO; exists n; auto].
    - unfold upd in T. destruct (Nat.eqb_spec n v); [discriminate|apply NO; exists n; auto].
    - unfold upd in T. destruct (Nat.eqb_spec n n0); [injection T as <-; lia|apply NO; exists n; auto]. }
  assert (OLD : forall k h, In (k, h) (closes es) -> exists i, h = Some i /\ made s2 k i /\ ~ isOpen s2 i /\ i < next s2).
  { intros k h J. destruct (H k h J) as (i & -> & A & B & C). exists i. split; auto. split; [eapply step_made; eauto|]. split; auto. lia. }
  assert (CA : closes (es ++ [e]) = closes es ++ closes [e]).
  { clear. induction es as [|[] es IH]; cbn; auto. f_equal. auto. }
  rewrite CA. destruct e as [k n hit|k n hit|]; cbn [closes]; rewrite ?app_nil_r; auto.
  destruct (C92_close s es s1 k n hit s2 I R ST CF) as (i & -> & MK & NO & CL).
  assert (OI : isOpen s1 i).
  { destruct (step_inv _ _ _ ST CF IV) as (_ & x & O & EH & _). injection EH as ->. remember (EClose k n (Some (ident x))) as e eqn:E. destruct ST; try discriminate; injection E as <- <- E; eexists; eauto. }
  rewrite !map_app. cbn. split; [|split].
  - apply (Permutation_NoDup (Permutation_cons_append _ _)). constructor; auto. intros J. apply in_map_iff in J. destruct J as ((k', h) & EH & J). cbn in EH. subst h. destruct (H _ _ J) as (j & [= <-] & _ & X & _). auto.
  - apply (Permutation_NoDup (Permutation_cons_append _ _)). constructor; auto. intros J. apply in_map_iff in J. destruct J as ((k', h) & EH & J). cbn in EH. subst k'. destruct (H _ _ J) as (j & -> & (y & Y & EY) & X & _). destruct MK as (z & Z & EZ). congruence.
  - intros k' h J. apply in_app_iff in J. destruct J as [J|[[= <- <-]|[]]]; [apply OLD; auto|]. exists i. split; auto. split; [eapply step_made; eauto|]. split; auto. destruct OI as (m & OI). destruct IV as (_ & _ & _ & I4 & _). apply I4 in OI. lia.
Qed.
(** No descriptor is closed twice, no FD closes twice, and close never fails because of a bad descriptor. *)
Theorem C92_once : forall s es s', initial s -> runs true s es s' -> NoDup (map snd (closes es)) /\ NoDup (map fst (closes es)) /\ ~ In None (map snd (closes es)).
Proof.
  intros s es s' I R. destruct (closed_hist s es s' R I) as (A & B & C). split; auto. split; auto. intros J. apply in_map_iff in J. destruct J as ((k, h) & E & J). cbn in E. destruct (C k h J) as (i & X & _). congruence.
Qed.
(** Whatever is open belongs to others or to exactly one FD, which will close it. *)
Theorem C92_no_leak : forall s es s' i, initial s -> runs true s es s' -> isOpen s' i ->
  In i (others s') \/ exists k x, objs s' k = Some x /\ ident x = i /\ ~ In i (others s') /\ (held x = true \/ exists es2 s2, runs true s' es2 s2 /\ ~ isOpen s2 i /\ others s2 = others s').
Proof.
  intros s es s' i I R (n & T). pose proof (runs_inv _ _ _ R I) as IV. destruct IV as (I1 & I2 & I3 & I4 & I5 & I6). destruct (I6 n i T) as [L|(k & x & O & OW & E)]; auto. right. exists k, x. split; auto. split; auto.
  destruct (I1 k x O) as ((A1 & A2 & A3 & A4) & A5). destruct (A2 OW) as (TN & NO). split; [congruence|]. destruct (held x) eqn:HX; auto. right.
  assert (BN : busy x = None) by (destruct (busy x) eqn:BB; auto; exfalso; assert (false = true) by (apply A3; discriminate); discriminate).
  assert (CG : forall t, ~ isOpen (withTab t (upd (tab s') (num x) None)) i).
  { intros t (m & M). cbn in M. unfold upd in M. destruct (Nat.eqb_spec m (num x)); [discriminate|]. apply n0. apply (I3 m (num x) i); auto. congruence. }
  assert (CR : forall t y, objs t k = Some y -> forall z, held z = held y -> forall t', (forall j, objs t' j = upd (objs t) k (Some z) j) -> careful t t').
  { intros t y Y z EZ t' OT j a b A B HA HB. rewrite OT in B. unfold upd in B. destruct (Nat.eqb_spec j k) as [-> |]; [|congruence]. rewrite Y in A. injection A as <-. injection B as <-. congruence. }
  destruct (cl x) eqn:C.
  - set (q := FD (raw x) (num x) (ident x) Queued (held x) (busy x)).
    assert (S1 : step s' ENone (setObj s' k q)) by (apply Collect; auto; unfold reachable; rewrite HX, BN; auto).
    assert (S2 : step (setObj s' k q) (EClose k (num q) (tab (setObj s' k q) (num q))) (withTab (setObj (setObj s' k q) k (FD (raw q) (num q) (ident q) Done (held q) (busy q))) (upd (tab (setObj s' k q)) (num q) None))).
    { apply Cleanup; auto. cbn. apply upd_same. }
    eexists ([] ++ [ENone] ++ [_]), _. split; [eapply (RunStep true s' ([] ++ [ENone]) (setObj s' k q) _ _); [eapply RunStep; [apply RunNil|exact S1|]|exact S2|]|].
    + intros _. apply (CR _ x O q); auto.
    + intros _. apply (CR (setObj s' k q) q (upd_same _ _ _) (FD (raw q) (num q) (ident q) Done (held q) (busy q)) eq_refl). auto.
    + split; [apply CG|auto].
  - exfalso. destruct OW as [?|[?|(v & ?)]]; congruence.
  - eexists ([] ++ [_]), _. split; [eapply RunStep; [apply RunNil|apply (Cleanup s' k x); auto|]|].
    + intros _. apply (CR s' x O (FD (raw x) (num x) (ident x) Done (held x) (busy x)) eq_refl). auto.
    + split; [apply CG|auto].
  - exfalso. destruct OW as [?|[?|(v & ?)]]; congruence.
Qed.
(** Once Close, Disown or File has returned, the descriptor is not open, or it was handed over. *)
Theorem C92_closed : forall s es s' k x, initial s -> runs true s es s' -> objs s' k = Some x -> raw x = None -> busy x = None ->
  (isOpen s' (ident x) -> In (ident x) (others s') \/ exists j, j <> k /\ made s' j (ident x)) /\ forall n hit s2, careful s' s2 -> ~ step s' (EClose k n hit) s2.
Proof.
  intros s es s' k x I R O RN BN. pose proof (runs_inv _ _ _ R I) as IV. pose proof IV as (I1 & I2 & I3 & I4 & I5 & I6). destruct (I1 k x O) as ((A1 & A2 & A3 & A4) & A5).
  assert (NW : cl x <> Armed /\ cl x <> Queued).
  { rewrite BN in A4. destruct (cl x) eqn:C; split; try discriminate; try congruence. destruct A4 as (_ & _ & ?). congruence. }
  destruct NW as (N1 & N2). split.
  - intros (n & T). destruct (I6 n (ident x) T) as [L|(j & z & Z & OZ & EZ)]; auto. right. exists j. split; [|exists z; auto]. intros ->. rewrite O in Z. injection Z as <-. destruct OZ as [?|[?|(v & ?)]]; congruence.
  - intros n hit s2 CF ST. remember (EClose k n hit) as e eqn:E. destruct ST; try discriminate; injection E as <- <- <-; congruence.
Qed.

(** ** What can happen if the program doesn't keep the FD *)
Definition s0 : state := St (fun n => if n =? 5 then Some 0 else None) 1 [0] (fun _ => None) 0.
Lemma s0_initial : initial s0.
Proof.
  split; auto. split; auto. split; [repeat constructor; easy|]. cbn. split; [|split].
  - intros i. split; [intros [<- | []]; exists 5; auto|]. intros (n & T). destruct (n =? 5); [injection T as <-; auto|discriminate].
  - intros n m i A B. destruct (Nat.eqb_spec n 5), (Nat.eqb_spec m 5); congruence.
  - intros n i A. destruct (n =? 5); [injection A as <-; auto|discriminate].
Qed.
Lemma one c s es s1 e s2 : runs c s es s1 -> step s1 e s2 -> (c = true -> careful s1 s2) -> runs c s (es ++ [e]) s2.
Proof. intros. eapply RunStep; eauto. Qed.
Ltac careful_ := intros _ k a b A B HA HB; destruct k as [|[|k]]; cbn in A, B; try (injection A as <-); try (injection B as <-); cbn in HA, HB; first [congruence|reflexivity].
Tactic Notation "go" hyp(R) uconstr(st) := let R' := fresh "R" in match type of R with runs ?c ?s ?es ?s1 => eassert (R' : runs c s (es ++ [_]) _) by (eapply one; [exact R|eapply st; cbn; eauto; lia|first [discriminate|careful_]]) end; cbn in R'; clear R; rename R' into R.
(** Disown stops the cleanup after its last use of the FD: Stop comes too late. Close then closes the descriptor that others have opened in the meantime. *)
Theorem C92_close_refuted : exists s es s1 k n i s2, initial s /\ runs false s es s1 /\ step s1 (EClose k n (Some i)) s2 /\ In i (others s1) /\ ~ made s1 k i /\ isOpen s1 i /\ ~ isOpen s2 i.
Proof.
  pose proof (RunNil false s0) as R.
  go R (New s0 5 0). go R (Begin _ 0 _ (Start RClose)). go R (Drop _ 0). go R (Take _ 0 _ RClose 5). go R (Collect _ 0). go R (StopClose _ 0 _ 5). go R (SysClose _ 0 _ 5). go R (OtherOpen _ 5).
  do 3 eexists. exists 0, 5, 1. eexists. split; [apply s0_initial|]. split; [exact R|]. split; [match type of R with runs _ _ _ ?t => exact (Cleanup t 0 _ eq_refl eq_refl) end|]. cbn. split; auto. split; [intros (x & [= <-] & E); discriminate|].
  split; [exists 5; auto|]. intros (m & M). cbn in M. unfold upd in M. destruct (Nat.eqb_spec m 5); [discriminate|]. destruct (m =? 5) eqn:E; [apply Nat.eqb_eq in E; easy|discriminate].
Qed.
(** A descriptor that was disowned is closed by the cleanup. *)
Theorem C92_disown_refuted : exists s es s1 k n i s2, initial s /\ runs false s es s1 /\ step s1 (EClose k n (Some i)) s2 /\ In i (others s1) /\ made s1 k i.
Proof.
  pose proof (RunNil false s0) as R.
  go R (New s0 5 0). go R (Begin _ 0 _ (Start RDisown)). go R (Drop _ 0). go R (Take _ 0 _ RDisown 5). go R (Collect _ 0).
  eassert (R' : runs false s0 (_ ++ [_]) _) by (eapply one; [exact R|eapply (StopDisown _ 0 _ RDisown 5); cbn; eauto; discriminate|discriminate]). cbn in R'.
  do 3 eexists. exists 0, 5, 0. eexists. split; [apply s0_initial|]. split; [exact R'|]. split; [match type of R' with runs _ _ _ ?t => exact (Cleanup t 0 _ eq_refl eq_refl) end|]. cbn. split; auto. eexists. split; reflexivity.
Qed.
(** Methods that pass the number to a system call don't keep the FD either. *)
Theorem C92_use_refuted : exists s es s1 k n i s2, initial s /\ runs false s es s1 /\ step s1 (EUse k n (Some i)) s2 /\ In i (others s1) /\ ~ made s1 k i.
Proof.
  pose proof (RunNil false s0) as R.
  go R (New s0 5 0). go R (Begin _ 0 _ StartUse). go R (Drop _ 0). go R (ReadUse _ 0 _ 5). go R (Collect _ 0). go R (Cleanup _ 0). go R (OtherOpen _ 5).
  do 3 eexists. exists 0, 5, 1. eexists. split; [apply s0_initial|]. split; [exact R|]. split; [match type of R with runs _ _ _ ?t => exact (CallUse t 0 _ 5 eq_refl eq_refl) end|]. cbn. split; auto. intros (x & [= <-] & E); discriminate.
Qed.
(** Example: a descriptor is used, duplicated and closed; the duplicate is dropped and collected. *)
Theorem C92_example : exists es s', initial s0 /\ runs true s0 es s' /\ closes es = [(0, Some 0); (1, Some 1)] /\ ~ isOpen s' 0 /\ ~ isOpen s' 1.
Proof.
  pose proof (RunNil true s0) as R.
  go R (New s0 5 0). go R (Begin _ 0 _ StartUse). go R (ReadUse _ 0 _ 5). go R (CallUse _ 0 _ 5). go R (Begin _ 0 _ StartDup). go R (ReadDup _ 0 _ 5).
  go R (CallDup _ 0 _ 5 0 7). go R (Begin _ 0 _ (Start RClose)). go R (Take _ 0 _ RClose 5). go R (Drop _ 1). go R (StopClose _ 0 _ 5). go R (Collect _ 1). go R (SysClose _ 0 _ 5). go R (Cleanup _ 1).
  do 2 eexists. split; [apply s0_initial|]. split; [exact R|]. split; [reflexivity|].
  split; intros (m & M); cbn in M; unfold upd in M; destruct (Nat.eqb_spec m 7), (Nat.eqb_spec m 5); try discriminate; lia.
Qed.
Print Assumptions C92_close.
Print Assumptions C92_use.
Print Assumptions C92_once.
Print Assumptions C92_no_leak.
Print Assumptions C92_closed.
Print Assumptions C92_close_refuted.
Print Assumptions C92_disown_refuted.
Print Assumptions C92_use_refuted.
