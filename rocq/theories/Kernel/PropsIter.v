(** C99: iterating over links and BTF *)
From Coq Require Import List Bool Arith Lia Permutation.
From Verif Require Import Kernel.Iter Kernel.IterSpec.
Import ListNotations.

Lemma nextId_cons id x l : nextId id (x :: l) = if id <? x then match nextId id l with Some m => Some (Nat.min x m) | None => Some x end else nextId id l.
Proof. reflexivity. Qed.
Lemma nextId_spec id l : match nextId id l with Some n => In n l /\ id < n /\ forall m, In m l -> id < m -> n <= m | None => forall m, In m l -> m <= id end.
Proof.
  induction l as [|x l IH]; [now cbn|]. rewrite nextId_cons. destruct (Nat.ltb_spec id x) as [L|L].
  - destruct (nextId id l) as [n|].
    + destruct IH as (A & B & C). split; [|split].
      * destruct (Nat.min_spec x n) as [(_ & ->)|(_ & ->)]; [now left|now right].
      * lia.
      * intros m [<-|M] Q; [lia|]. specialize (C m M Q). lia.
    + split; [now left|]. split; auto. intros m [<-|M] Q; [lia|]. specialize (IH m M). lia.
  - destruct (nextId id l) as [n|].
    + destruct IH as (A & B & C). split; [now right|]. split; auto. intros m [<-|M] Q; [lia|auto].
    + intros m [<-|M]; auto.
Qed.
Lemma exists_in n l : exists_ n l = true <-> In n l.
Proof. unfold exists_. rewrite existsb_exists. split; [intros (x & A & B); apply Nat.eqb_eq in B; now subst|intros A; exists n; split; auto; apply Nat.eqb_refl]. Qed.
Lemma remove_cons (f : nat) l : ~ In f l -> List.remove Nat.eq_dec f (f :: l) = l.
Proof. intros N. cbn. destruct (Nat.eq_dec f f); [|easy]. now apply notin_remove. Qed.
Section World.
Variable world : nat -> list nat.
Variable fails : nat -> bool.
Notation search := (search world fails). Notation next := (next world fails). Notation always := (always world).
Lemma search_spec fuel : forall t id fds r t' fs, (forall f, In f fds -> f < t) -> search fuel t id fds = Some (r, t', fs) ->
  t < t' /\ match r with
  | Found n f => id < n /\ fs = f :: fds /\ t <= f < t' /\ In n (world f) /\ (forall m, id < m -> always m t' -> n <= m)
  | End => fs = fds /\ (forall m, always m t' -> m <= id)
  | Failed => fs = fds /\ exists u, t <= u < t' /\ fails u = true
  end.
Proof.
  induction fuel as [|fuel IH]; cbn [Iter.search]; intros t id fds r t' fs B H; [discriminate|].
  destruct (fails t) eqn:F1; [injection H as <- <- <-; split; [lia|]; split; auto; exists t; split; [lia|auto]|].
  pose proof (nextId_spec id (world t)) as N. destruct (nextId id (world t)) as [n|].
  2:{ injection H as <- <- <-. split; [lia|]. split; auto. intros m (_ & M). apply N, M. lia. }
  destruct N as (N1 & N2 & N3). destruct (fails (S t)) eqn:F2; [injection H as <- <- <-; split; [lia|]; split; auto; exists (S t); split; [lia|auto]|].
  destruct (exists_ n (world (S t))) eqn:E.
  - apply exists_in in E. cbv zeta in H. destruct (fails (S (S t))) eqn:F3; injection H as <- <- <-; (split; [lia|]).
    + split; [apply remove_cons; intros X; apply B in X; lia|]. exists (S (S t)). split; [lia|auto].
    + split; auto. split; auto. split; [lia|]. split; auto. intros m M (_ & A). apply N3; auto.
  - assert (NE : forall m t2, S t < t2 -> always m t2 -> m <> n). { intros m t2 L (_ & A) ->. specialize (A (S t) L). apply exists_in in A. congruence. }
    destruct (IH _ _ _ _ _ _ (fun f X => Nat.lt_trans _ _ _ (Nat.lt_trans _ _ _ (B f X) (Nat.lt_succ_diag_r t)) (Nat.lt_succ_diag_r (S t))) H) as (L & R). split; [lia|]. destruct r as [k f| |].
    + destruct R as (R1 & R2 & R3 & R4 & R5). split; [lia|]. split; auto. split; [lia|]. split; auto. intros m M A. apply R5; auto. assert (n <= m). { apply N3; auto. apply (proj2 A). lia. } specialize (NE m t' ltac:(lia) A). lia.
    + destruct R as (R1 & R2). split; auto. intros m A. specialize (R2 m A). destruct (Nat.le_gt_cases m id) as [Q|Q]; auto. assert (n <= m). { apply N3; auto. apply (proj2 A). lia. } specialize (NE m t' ltac:(lia) A). lia.
    + destruct R as (R1 & u & R2 & R3). split; auto. exists u. split; auto. lia.
Qed.
Record Inv (s : st) : Prop := {
  i_fds : Permutation (fds s) (match held (it s) with Some f => f :: taken s | None => taken s end);
  i_nodup : NoDup (fds s);
  i_time : forall f, In f (fds s) -> f < time s;
  i_seen : increasing (rev (seen s)) /\ (forall n, In n (seen s) -> 0 < n <= cur (it s));
  i_all : forall n, always n (time s) -> n <= cur (it s) -> In n (seen s) }.
Lemma always_less n t u : always n t -> u <= t -> always n u.
Proof. intros (A & B) L. split; auto. intros v V. apply B. lia. Qed.
Lemma increasing_app l n : increasing l -> (forall m, In m l -> m < n) -> increasing (l ++ [n]).
Proof. induction l as [|x l IH]; cbn; [easy|]. intros (A & B) C. split; [intros m M; apply in_app_or in M; destruct M as [M|[<-|[]]]; auto|apply IH; auto]. Qed.
Lemma remove_nodup (f : nat) l : NoDup l -> NoDup (List.remove Nat.eq_dec f l).
Proof. intros N. induction l as [|x l IH]; cbn; auto. inversion N; subst. destruct (Nat.eq_dec f x); auto. constructor; auto. intros H. apply in_remove in H. tauto. Qed.
Lemma remove_perm (f : nat) l r : NoDup l -> Permutation l (f :: r) -> Permutation (List.remove Nat.eq_dec f l) r.
Proof.
  intros N P. assert (NR : NoDup (f :: r)) by (eapply Permutation_NoDup; eauto). apply NoDup_Permutation; [now apply remove_nodup|now inversion NR|].
  intros x. split.
  - intros I. apply in_remove in I. destruct I as (I & NE). assert (X : In x (f :: r)) by (eapply Permutation_in; eauto). destruct X as [-> | X]; [easy|auto].
  - intros I. apply in_in_remove; [intros ->; inversion NR; easy|]. eapply Permutation_in; [symmetry; exact P|now right].
Qed.
Lemma held_closed s : Inv s -> Permutation (closeHeld (held (it s)) (fds s)) (taken s) /\ NoDup (closeHeld (held (it s)) (fds s)) /\ (forall f, In f (closeHeld (held (it s)) (fds s)) -> f < time s).
Proof.
  intros [A B C _ _]. unfold closeHeld. destruct (held (it s)) as [f|]; [|auto]. split; [now apply remove_perm|]. split; [now apply remove_nodup|]. intros g G. apply in_remove in G. apply C. tauto.
Qed.
Lemma next_ok fuel s s' b : Inv s -> next fuel s = Some (s', b) -> Inv s' /\ time s < time s' /\ taken s' = taken s /\
  (if b then exists n f, seen s' = n :: seen s /\ cur (it s) < n /\ cur (it s') = n /\ held (it s') = Some f /\ time s <= f < time s' /\ In n (world f)
   else held (it s') = None /\ seen s' = seen s /\ ((exists u, time s <= u < time s' /\ fails u = true) /\ err (it s') = true \/ err (it s') = err (it s) /\ forall n, always n (time s') -> In n (seen s'))).
Proof.
  intros I H. pose proof I as [A B C (D1 & D2) E]. unfold Iter.next in H. destruct (search fuel (time s) (cur (it s)) (fds s)) as [[[r t] fs]|] eqn:SE; [|discriminate].
  destruct (search_spec _ _ _ _ _ _ _ C SE) as (L & R). destruct (held_closed s I) as (H1 & H2 & H3).
  destruct r as [n f| |]; injection H as <- <-; cbn [it fds taken seen time cur held err].
  - destruct R as (R1 & -> & R3 & R4 & R5).
    assert (CH : closeHeld (held (it s)) (f :: fds s) = f :: closeHeld (held (it s)) (fds s)). { unfold closeHeld. destruct (held (it s)) as [g|] eqn:HG; auto. cbn. destruct (Nat.eq_dec g f) as [-> |]; auto. exfalso. assert (In f (fds s)) by (eapply Permutation_in; [symmetry; exact A|now left]). apply C in H. lia. }
    rewrite CH. assert (NF : ~ In f (closeHeld (held (it s)) (fds s))) by (intros X; apply H3 in X; lia).
    split; [|split; [exact L|split; [reflexivity|exists n, f; auto 8]]]. split; cbn [it fds taken seen time cur held err].
    + now apply perm_skip.
    + constructor; auto.
    + intros g [<-|G]; [lia|]. apply H3 in G. lia.
    + cbn [rev]. split; [apply increasing_app; auto; intros m M; apply in_rev in M; apply D2 in M; lia|]. intros m [<-|M]; [lia|]. apply D2 in M. lia.
    + intros m M Q. destruct (Nat.le_gt_cases m (cur (it s))) as [X|X].
      * right. apply E; auto. eapply always_less; eauto. lia.
      * left. specialize (R5 m X M). lia.
  - destruct R as (-> & R). split; [|split; [exact L|split; [reflexivity|]]].
    + split; cbn [it fds taken seen time cur held err]; auto.
      * intros g G. apply H3 in G. lia.
      * intros m M Q. apply E; auto. eapply always_less; eauto. lia.
    + split; auto. split; auto. right. split; auto. intros m M. apply E; auto. eapply always_less; eauto. lia.
  - destruct R as (-> & R). split; [|split; [exact L|split; [reflexivity|split; [auto|split; [auto|left; split; auto]]]]].
    split; cbn [it fds taken seen time cur held err]; auto.
    + intros g G. apply H3 in G. lia.
    + intros m M Q. apply E; auto. eapply always_less; eauto. lia.
Qed.
Lemma inv_reachable s : reachable world fails s -> Inv s.
Proof.
  induction 1 as [|s s' R I ST].
  - split; cbn; auto; try constructor; try easy. intros n (A & _) B. lia.
  - destruct ST as [fuel s s' b H|s|s n|s l1 f l2 H].
    + eapply next_ok; eauto.
    + destruct I as [A B C D E]. split; cbn; auto. 
    + destruct I as [A B C D E]. split; cbn; auto.
      * intros f F. apply C in F. lia.
      * intros m M. apply E. eapply always_less; eauto. lia.
    + destruct I as [A B C D E]. split; cbn; auto.
      * rewrite H in A. apply remove_perm; auto. rewrite A. destruct (held (it s)); [|symmetry; apply Permutation_middle]. rewrite <- Permutation_middle. apply perm_swap.
      * now apply remove_nodup.
      * intros g G. apply in_remove in G. apply C. tauto.
Qed.
(** No object is returned twice; ids grow. The descriptors that are open are those the caller took and, at most, that of the current object. *)
Theorem C99_state : forall s, reachable world fails s -> increasing (rev (seen s)) /\ NoDup (fds s) /\ Permutation (fds s) (match held (it s) with Some f => f :: taken s | None => taken s end).
Proof. intros s R. destruct (inv_reachable s R) as [A B C (D & _) E]. auto. Qed.
(** Next returns an object that was there when it was opened. If there is no other, all that existed throughout were returned, and nothing stays open but what the caller took. *)
Theorem C99_next : forall fuel s s' b, reachable world fails s -> next fuel s = Some (s', b) ->
  if b then exists n f, seen s' = n :: seen s /\ (forall m, In m (seen s) -> m < n) /\ cur (it s') = n /\ held (it s') = Some f /\ time s <= f < time s' /\ In n (world f)
  else seen s' = seen s /\ held (it s') = None /\ Permutation (fds s') (taken s) /\
    ((exists u, time s <= u < time s' /\ fails u = true) /\ err (it s') = true \/ err (it s') = err (it s) /\ forall n, always n (time s') -> In n (seen s')).
Proof.
  intros fuel s s' b R H. pose proof (inv_reachable s R) as I. destruct (next_ok fuel s s' b I H) as (I' & L & T & N). destruct b.
  - destruct N as (n & f & N1 & N2 & N3). exists n, f. split; auto. split; [|tauto]. intros m M. apply (proj2 (i_seen _ I)) in M. lia.
  - destruct N as (N1 & N2 & N3). split; auto. split; auto. split; auto. pose proof (i_fds _ I') as F. rewrite N1, T in F. exact F.
Qed.
Theorem C99_close : forall s, reachable world fails s -> Permutation (fds (close s)) (taken s).
Proof. intros s R. apply (held_closed s (inv_reachable s R)). Qed.
(** It ends when objects stop coming and going. *)
Theorem C99_ends : forall s t0, (forall t, t0 <= t -> world t = world t0) -> exists fuel, next fuel s <> None.
Proof.
  intros s t0 W. assert (G : forall k t id fs, t0 <= t + 2 * k -> search (S k) t id fs <> None).
  { induction k as [|k IH]; intros t id fs L; cbn [Iter.search]; destruct (fails t); try discriminate; pose proof (nextId_spec id (world t)) as N; destruct (nextId id (world t)) as [n|]; try discriminate; destruct (fails (S t)); try discriminate.
    - assert (E : exists_ n (world (S t)) = true) by (apply exists_in; rewrite (W (S t)) by lia; rewrite <- (W t) by lia; tauto). rewrite E. destruct (fails (S (S t))); discriminate.
    - destruct (exists_ n (world (S t))); [destruct (fails (S (S t))); discriminate|]. apply IH. lia. }
  exists (S t0). unfold Iter.next. specialize (G t0 (time s) (cur (it s)) (fds s) ltac:(lia)). destruct (search (S t0) _ _ _) as [[[[n f| |] t] fs]|]; [discriminate|discriminate|discriminate|easy].
Qed.
End World.

(** ** Examples *)
Definition never (_ : nat) : bool := false.
(** Object 2 disappears before it can be opened, 3 comes, 1 and 5 are there all the time. *)
Definition busy (t : nat) : list nat := if t <? 5 then [5; 1; 2] else [5; 1; 3].
Theorem C99_example : exists s1 s2 s3 s4 s5, 
  next busy never 9 init = Some (s1, true) /\ seen s1 = [1] /\ fds s1 = [2] /\ s2 = take s1 /\
  next busy never 9 s2 = Some (s3, true) /\ seen s3 = [3; 1] /\ fds s3 = [7; 2] /\
  next busy never 9 s3 = Some (s4, true) /\ seen s4 = [5; 3; 1] /\ fds s4 = [10; 2] /\
  next busy never 9 s4 = Some (s5, false) /\ fds s5 = [2] /\ err (it s5) = false /\
  next busy (fun t => t =? 5) 9 s2 = Some (St (It 1 None true) [2] [2] [1] 6, false).
Proof. do 5 eexists. repeat split; vm_compute; reflexivity. Qed.
(** If each object that is found is gone when it is to be opened, and there is always a new one, Next never returns. *)
Theorem C99_endless_refuted : exists world, (forall t, length (world t) <= 1) /\ forall fuel, next world never fuel init = None.
Proof.
  exists (fun t => if Nat.even t then [] else [t]). split; [intros t; destruct (Nat.even t); cbn; lia|]. intros fuel.
  assert (G : forall fuel k id fs, id <= 2 * k -> search (fun t => if Nat.even t then [] else [t]) never fuel (S (2 * k)) id fs = None).
  { clear fuel. induction fuel as [|fuel IH]; intros k id fs L; [reflexivity|]. unfold search; fold search. cbv beta. assert (E : Nat.even (S (2 * k)) = false) by (rewrite Nat.even_succ, Nat.odd_mul; reflexivity). assert (E2 : Nat.even (S (S (2 * k))) = true) by (cbn [Nat.even]; rewrite Nat.even_mul; reflexivity). rewrite E, E2. unfold never at 1 2. unfold nextId, fold_right.
    destruct (Nat.ltb_spec id (S (2 * k))) as [_|X]; [|lia]. cbn [exists_ existsb]. replace (S (S (S (2 * k)))) with (S (2 * S k)) by lia. apply IH. lia. }
  unfold next. change (time init) with (S (2 * 0)). rewrite G by (cbn; lia). reflexivity.
Qed.

Print Assumptions C99_state.
Print Assumptions C99_next.
Print Assumptions C99_close.
Print Assumptions C99_ends.
Print Assumptions C99_example.
Print Assumptions C99_endless_refuted.
