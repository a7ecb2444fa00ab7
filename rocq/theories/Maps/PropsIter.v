(** C63: iterating over a map. *)
From Coq Require Import ZArith List Lia Bool.
From Verif.Base Require Import GoInt ListExtra.
From Verif.Maps Require Import Iter IterSpec.
Import ListNotations.
Open Scope Z_scope.

Section Any.
  Context {K V : Type}.
  Variable nextKey : nat -> option key -> res kerr key.
  Variable lookup : nat -> key -> res kerr V.
  Variable decode : key -> res Z K.
  Notation nextLoop := (nextLoop nextKey lookup decode).
  Notation Next := (Next nextKey lookup decode).
  Notation iterate := (iterate nextKey lookup decode).

  (** an entry which was returned: the key was the answer to one system call, the value that to the next one *)
  Definition seen (e : K * V) : Prop := exists t c k, nextKey t c = Ok k /\ lookup (S t) k = Ok (snd e) /\ decode k = Ok (fst e).
  (** the iterator is in the middle of something *)
  Definition running (mi : iter) : Prop := i_err mi = None /\ i_done mi = false.
  Definition counted (mi : iter) : Prop := 0 <= i_count mi <= i_maxEntries mi + 1 /\ 0 <= i_maxEntries mi < 2 ^ 32 - 1.

  Ltac fin := repeat match goal with |- _ /\ _ => split | |- ~ _ => intros (? & ?) end; try lia; try discriminate; intros; auto; try congruence; try lia.
  Lemma loop_total : forall fuel t mi, counted mi -> running mi -> (Z.to_nat (i_maxEntries mi + 1 - i_count mi) < fuel)%nat ->
    exists t' mi' r, nextLoop fuel t mi = Some (t', mi', r) /\ counted mi' /\ i_maxEntries mi' = i_maxEntries mi /\
      match r with
      | Some e => running mi' /\ i_count mi < i_count mi' /\ (t < t')%nat /\ Z.of_nat t' - Z.of_nat t = 2 * (i_count mi' - i_count mi) /\ seen e
      | None => ~ running mi' /\ i_count mi <= i_count mi' /\ Z.of_nat t' - Z.of_nat t <= 2 * (i_count mi' - i_count mi) + 1 /\ (i_done mi' = true -> i_err mi' = None) /\
          (i_err mi' = Some Aborted -> i_count mi' = i_maxEntries mi + 1)
      end.
  Proof.
    induction fuel as [|fuel IH]; intros t mi (C & M) (R1 & R2) F; [lia|]. cbn [Iter.nextLoop]. destruct (Z.leb_spec (i_count mi) (i_maxEntries mi)) as [L|L].
    - destruct (nextKey t (i_cursor mi)) as [k|e] eqn:En.
      + assert (U : u32 (i_count mi + 1) = i_count mi + 1) by (unfold u32, wrapu; apply Z.mod_small; lia). rewrite U. destruct (lookup (S t) k) as [v|e] eqn:El.
        * destruct (decode k) as [k'|e] eqn:Ed; do 3 eexists; (split; [reflexivity|]); unfold counted, running; cbn [i_count i_maxEntries i_err i_done]; (split; [lia|]); (split; [reflexivity|]).
          -- repeat split; auto; try lia. exists t, (i_cursor mi), k. auto.
          -- fin.
        * destruct e as [|c].
          -- destruct (IH (S (S t)) (mkIter (Some k) (i_count mi + 1) (i_maxEntries mi) (i_done mi) None)) as (t' & mi' & r & E & C' & M' & H); unfold counted, running; cbn [i_count i_maxEntries i_err i_done]; try lia; auto.
             exists t', mi', r. split; [exact E|]. split; [exact C'|]. split; [exact M'|]. cbn [i_count i_maxEntries] in H. destruct r; [destruct H as (H1 & H2 & H3 & H4 & H5); split; [exact H1|]; split; [lia|]; split; [lia|]; split; [lia|exact H5]|destruct H as (H1 & H2 & H3 & H4 & H5)]. split; [exact H1|]. fin; auto.
          -- do 3 eexists. split; [reflexivity|]. unfold counted, running; cbn [i_count i_maxEntries i_err i_done]. fin.
      + destruct e as [|c]; do 3 eexists; (split; [reflexivity|]); unfold counted, running; cbn [i_count i_maxEntries i_err i_done]; fin.
    - do 3 eexists. split; [reflexivity|]. unfold counted, running; cbn [i_count i_maxEntries i_err i_done]. fin.
  Qed.

  Lemma iterate_total : forall n fuel t mi, counted mi -> running mi -> (Z.to_nat (i_maxEntries mi + 1 - i_count mi) < fuel)%nat -> (Z.to_nat (i_maxEntries mi + 1 - i_count mi) < n)%nat ->
    exists l t' mi', iterate n fuel t mi = Some (l, t', mi') /\ ~ running mi' /\ i_maxEntries mi' = i_maxEntries mi /\ counted mi' /\ (i_done mi' = true -> i_err mi' = None) /\
      Z.of_nat (length l) <= i_count mi' - i_count mi /\ Z.of_nat t' - Z.of_nat t <= 2 * (i_count mi' - i_count mi) + 1 /\ Forall seen l /\ (i_err mi' = Some Aborted -> i_count mi' = i_maxEntries mi + 1).
  Proof.
    induction n as [|n IH]; intros fuel t mi C R F N; [lia|]. cbn [Iter.iterate]. unfold Iter.Next. destruct R as (R1 & R2). rewrite R1, R2. cbn [orb].
    destruct (loop_total fuel t mi C (conj R1 R2) F) as (t1 & mi1 & r & E & C1 & M1 & H). rewrite E. destruct r as [e|].
    - destruct H as (Rn & Lt & Tm & Td & Se). pose proof C1 as (C1a & _). destruct (IH fuel t1 mi1 C1 Rn ltac:(rewrite M1; lia) ltac:(rewrite M1; lia)) as (l & t2 & mi2 & E2 & N2 & M2 & C2 & D2 & L2 & T2 & S2 & A2).
      exists (e :: l), t2, mi2. rewrite E2. split; [reflexivity|]. split; [exact N2|]. split; [congruence|]. split; [exact C2|]. split; [exact D2|]. split; [cbn [length]; lia|]. split; [lia|]. split; [now constructor|]. intros A. rewrite (A2 A). lia.
    - destruct H as (Nr & Le & Tm & Dn & Ab). exists [], t1, mi1. split; [reflexivity|]. split; [exact Nr|]. split; [exact M1|]. split; [exact C1|]. split; [exact Dn|]. cbn [length]. split; [lia|]. split; [lia|]. split; [constructor|exact Ab].
  Qed.

End Any.

(** Whatever the kernel answers, and whoever changes the map in the meantime: a loop over all entries ends after at most
    max_entries + 2 calls of Next and 2 * max_entries + 3 system calls; it yields no more than max_entries + 1 entries, each
    of them a key which the kernel enumerated with the value the kernel returned for it.  If iteration is reported as
    aborted, the kernel enumerated more than max_entries keys. *)
Theorem C63_ends : forall (K V : Type) nextKey (lookup : nat -> key -> res kerr V) (decode : key -> res Z K) maxEntries n fuel t, 0 <= maxEntries < 2 ^ 32 - 1 ->
  (Z.to_nat maxEntries + 1 < n)%nat -> (Z.to_nat maxEntries + 1 < fuel)%nat ->
  exists l t' mi, iterate nextKey lookup decode n fuel t (newMapIterator maxEntries) = Some (l, t', mi) /\
    Z.of_nat (length l) <= maxEntries + 1 /\ Z.of_nat t' - Z.of_nat t <= 2 * maxEntries + 3 /\
    (forall k v, In (k, v) l -> exists t c raw, nextKey t c = Ok raw /\ lookup (S t) raw = Ok v /\ decode raw = Ok k) /\
    (i_done mi = true \/ exists e, i_err mi = Some e) /\ (i_done mi = true -> i_err mi = None) /\ (i_err mi = Some Aborted -> i_count mi = maxEntries + 1).
Proof.
  intros K V nextKey lookup decode maxEntries n fuel t M N F.
  destruct (iterate_total nextKey lookup decode n fuel t (newMapIterator maxEntries)) as (l & t' & mi & E & R & M' & C & D & L & T & S & A); unfold counted, running, newMapIterator; cbn [i_count i_maxEntries i_err i_done]; try lia; auto.
  cbn [newMapIterator i_count i_maxEntries] in *. destruct C as (C & _). exists l, t', mi. split; [exact E|]. split; [lia|]. split; [lia|]. split.
  - intros k v H. rewrite Forall_forall in S. destruct (S _ H) as (t0 & c & k0 & H1 & H2 & H3). exists t0, c, k0. auto.
  - split; [|split; [exact D|exact A]]. unfold running in R. destruct (i_err mi) as [e|]; [right; eauto|left]. destruct (i_done mi); [reflexivity|]. destruct R. auto.
Qed.
Print Assumptions C63_ends.
(** Once Next has returned false it does so forever, without asking the kernel again, and Err doesn't change. *)
Theorem C63_stays : forall (K V : Type) nextKey (lookup : nat -> key -> res kerr V) (decode : key -> res Z K) fuel t mi t' mi' fuel2 t2,
  Next nextKey lookup decode fuel t mi = Some (t', mi', None) -> Next nextKey lookup decode fuel2 t2 mi' = Some (t2, mi', None).
Proof.
  intros K V nextKey lookup decode fuel t mi t' mi' fuel2 t2 E.
  assert (H : (match i_err mi' with Some _ => true | None => false end) || i_done mi' = true).
  { unfold Next in E. destruct ((match i_err mi with Some _ => true | None => false end) || i_done mi) eqn:G; [injection E as <- <-; exact G|]. clear G.
    revert t mi E. induction fuel as [|fuel IH]; intros t mi E; [discriminate E|]. cbn [nextLoop] in E. destruct (i_count mi <=? i_maxEntries mi); [|injection E as <- <-; reflexivity].
    destruct (nextKey t (i_cursor mi)) as [k|[|c]]; try (injection E as <- <-; reflexivity). destruct (lookup (S t) k) as [v|[|c]]; [|now apply IH in E|injection E as <- <-; reflexivity].
    destruct (decode k); [discriminate E|injection E as <- <-; reflexivity]. }
  unfold Next. now rewrite H.
Qed.
Print Assumptions C63_stays.

(** ** Maps nobody changes *)
Section Static.
  Context {K V : Type}.
  Variable l : entries V.
  Hypothesis Hnd : NoDup (map fst l).
  Variable decode : key -> res Z K.
  Notation nextKey := (fun _ : nat => kernel_next l).
  Notation lookup := (fun _ : nat => kernel_lookup l).

  Lemma rest_at a k (v : option V) b : NoDup (map fst (a ++ (k, v) :: b)) -> rest (a ++ (k, v) :: b) k = Some b /\ find (a ++ (k, v) :: b) k = Some v.
  Proof.
    induction a as [|(k', v') a IH]; intros N; cbn in *.
    - destruct (key_dec k k); [auto|contradiction].
    - inversion N as [|? ? Ni N']; subst. destruct (key_dec k k') as [->|]; [|now apply IH]. destruct Ni. rewrite map_app. apply in_or_app. right. now left.
  Qed.
  Fixpoint wanted (b : entries V) : list (K * V) :=
    match b with
    | [] => []
    | (k, Some v) :: b' => match decode k with Ok k' => (k', v) :: wanted b' | Err _ => wanted b' end
    | (_, None) :: b' => wanted b'
    end.
  Hypothesis Hdec : forall k, has l k -> exists k', decode k = Ok k'.

  (** the cursor is at the end of [a] *)
  Definition cursor_at (a : entries V) : option key := match rev a with [] => None | (k, _) :: _ => Some k end.
  Lemma next_at a b : l = a ++ b -> kernel_next l (cursor_at a) = first b.
  Proof.
    intros E. unfold cursor_at, kernel_next. destruct (rev a) as [|(k, v) r] eqn:Er.
    - assert (a = []) by (rewrite <- (rev_involutive a), Er; reflexivity). subst a. cbn in E. now rewrite E.
    - assert (Ea : a = rev r ++ [(k, v)]) by (rewrite <- (rev_involutive a), Er; reflexivity). subst a. rewrite <- app_assoc in E. cbn [app] in E. pose proof Hnd as N. rewrite E in N |- *. destruct (rest_at _ _ _ _ N) as (-> & _). reflexivity.
  Qed.
  Lemma cursor_snoc a k (v : option V) : cursor_at (a ++ [(k, v)]) = Some k.
  Proof. unfold cursor_at. rewrite rev_app_distr. reflexivity. Qed.
  Lemma static_loop : forall b a fuel t mi, l = a ++ b -> i_cursor mi = cursor_at a -> i_count mi = Z.of_nat (length a) -> running mi -> Z.of_nat (length l) <= i_maxEntries mi < 2 ^ 32 - 1 -> (length b < fuel)%nat ->
    exists t' mi' r, nextLoop nextKey lookup decode fuel t mi = Some (t', mi', r) /\ i_maxEntries mi' = i_maxEntries mi /\
      match r with
      | Some e => exists a' b', l = a' ++ b' /\ wanted b = e :: wanted b' /\ (length b' < length b)%nat /\ i_cursor mi' = cursor_at a' /\ i_count mi' = Z.of_nat (length a') /\ running mi'
      | None => wanted b = [] /\ i_done mi' = true /\ i_err mi' = None
      end.
  Proof.
    induction b as [|(k, v) b IH]; intros a fuel t mi E Ec En (R1 & R2) M F; (destruct fuel as [|fuel]; [cbn in F; lia|]); cbn [nextLoop].
    - assert (La : length l = (length a + 0)%nat) by (rewrite E, app_length; reflexivity). destruct (Z.leb_spec (i_count mi) (i_maxEntries mi)); [|lia]. rewrite Ec, (next_at a [] E). cbn [first]. do 3 eexists. split; [reflexivity|]. auto.
    - assert (La : length l = (length a + S (length b))%nat) by (rewrite E, app_length; reflexivity). destruct (Z.leb_spec (i_count mi) (i_maxEntries mi)); [|lia]. rewrite Ec, (next_at a _ E). cbn [first].
      assert (U : u32 (i_count mi + 1) = Z.of_nat (length (a ++ [(k, v)]))) by (unfold u32, wrapu; rewrite Z.mod_small by lia; rewrite app_length; cbn [length]; lia). rewrite U.
      assert (E' : l = (a ++ [(k, v)]) ++ b) by (rewrite <- app_assoc; exact E).
      assert (Fd : find l k = Some v) by (pose proof Hnd as N; rewrite E in N |- *; now apply (rest_at a k v b)). unfold kernel_lookup at 1. rewrite Fd. destruct v as [v|].
      + destruct (Hdec k) as (k' & Ek); [unfold has; rewrite E, map_app; apply in_or_app; right; now left|]. rewrite Ek. do 3 eexists. split; [reflexivity|]. cbn [i_maxEntries]. split; [reflexivity|]. exists (a ++ [(k, Some v)]), b. split; [exact E'|]. cbn [wanted]. rewrite Ek. split; [reflexivity|].
        split; [cbn [length]; lia|]. cbn [i_cursor i_count]. split; [now rewrite cursor_snoc|]. split; [reflexivity|]. split; auto.
      + destruct (IH (a ++ [(k, None)]) fuel (S (S t)) (mkIter (Some k) (Z.of_nat (length (a ++ [(k, None)]))) (i_maxEntries mi) (i_done mi) None)) as (t' & mi' & r & El & Mm & Hr); auto.
        * cbn [i_cursor]. now rewrite cursor_snoc.
        * split; auto.
        * cbn [length] in F. lia.
        * exists t', mi', r. split; [exact El|]. split; [exact Mm|]. cbn [wanted]. destruct r as [e|]; [|exact Hr]. destruct Hr as (a' & b' & H1 & H2 & H3 & H4). exists a', b'. split; [exact H1|]. split; [exact H2|]. split; [cbn [length]; lia|exact H4].
  Qed.
  Lemma static_iterate : forall n b a fuel t mi, (length b < n)%nat -> l = a ++ b -> i_cursor mi = cursor_at a -> i_count mi = Z.of_nat (length a) -> running mi -> Z.of_nat (length l) <= i_maxEntries mi < 2 ^ 32 - 1 -> (length l < fuel)%nat ->
    exists t' mi', iterate nextKey lookup decode n fuel t mi = Some (wanted b, t', mi') /\ i_done mi' = true /\ i_err mi' = None.
  Proof.
    induction n as [|n IH]; intros b a fuel t mi N E Ec En R M F; [lia|]. cbn [iterate]. unfold Next. destruct R as (R1 & R2). rewrite R1, R2. cbn [orb].
    assert (Lb : (length b <= length l)%nat) by (rewrite E, app_length; lia).
    destruct (static_loop b a fuel t mi E Ec En (conj R1 R2) M ltac:(lia)) as (t' & mi' & r & El & Mm & Hr). rewrite El. destruct r as [e|].
    - destruct Hr as (a' & b' & H1 & H2 & H3 & H4 & H5 & H6). destruct (IH b' a' fuel t' mi' ltac:(lia) H1 H4 H5 H6 ltac:(lia) F) as (t2 & mi2 & E2 & D2). rewrite E2, H2. eauto.
    - destruct Hr as (W & D & Er). rewrite W. eauto.
  Qed.
End Static.

(** A map which nobody changes meanwhile is traversed completely: exactly the entries which have a value, in the order of
    the kernel, each once, and then Next returns false and Err nil. *)
Theorem C63_all : forall (V : Type) (l : entries V) maxEntries n fuel t,
  NoDup (map fst l) -> Z.of_nat (length l) <= maxEntries < 2 ^ 32 - 1 -> (length l < n)%nat -> (length l < fuel)%nat ->
  exists out t' mi, iterate (fun _ => kernel_next l) (fun _ => kernel_lookup l) (fun k => Ok k) n fuel t (newMapIterator maxEntries) = Some (out, t', mi) /\
    i_done mi = true /\ i_err mi = None /\ map (fun e => (fst e, Some (snd e))) out = filter (fun e => match snd e with Some _ => true | None => false end) l.
Proof.
  intros V l maxEntries n fuel t N M Hn Hf. destruct (static_iterate l N (fun k => Ok k) ltac:(eauto) n l [] fuel t (newMapIterator maxEntries)) as (t' & mi & E & D & Er); auto; [split; reflexivity|].
  do 3 eexists. split; [exact E|]. split; [exact D|]. split; [exact Er|]. clear. induction l as [|(k, [v|]) l IH]; cbn; [reflexivity|now rewrite IH|exact IH].
Qed.
Print Assumptions C63_all.

(** ** Maps which others change *)
Section Shared.
  Context {K V : Type}.
  Variable sched : nat -> entries V.
  Hypothesis Hnd : forall i, NoDup (map fst (sched i)).
  Variable decode : key -> res Z K.
  Variables (k : key) (v : V).
  Hypothesis Hcalm : calm k sched.
  Hypothesis Hk : find (sched 0%nat) k = Some (Some v).
  Notation nextKey := (fun t => kernel_next (sched t)).
  Notation lookup := (fun t => kernel_lookup (sched t)).

  Lemma always i : find (sched i) k = Some (Some v).
  Proof. rewrite <- Hk. apply (Hcalm 0%nat i). lia. Qed.
  Lemma find_has (l : entries V) x w : find l x = Some w -> has l x.
  Proof. unfold has. induction l as [|(y, u) l IH]; cbn; [discriminate|]. destruct (key_dec x y); [now left|right; auto]. Qed.
  (** the iterator is in front of [k] *)
  Definition in_front (t : nat) (c : option key) : Prop := match c with None => True | Some c => c <> k /\ exists i, (i <= t)%nat /\ upto (sched i) c k end.
  Lemma upto_first (l : entries V) x : has l x -> exists h, first l = Ok h /\ upto l h x.
  Proof. destruct l as [|(h, w) l]; [intros []|]. intros H. exists h. split; [reflexivity|]. exists [], ((h, w) :: l). auto. Qed.
  Lemma rest_spec (l : entries V) c : match rest l c with Some b => exists a w, l = a ++ (c, w) :: b | None => ~ has l c end.
  Proof.
    induction l as [|(y, u) l IH]; cbn; [intros []|]. destruct (key_dec c y) as [->|N]; [exists [], u; reflexivity|]. destruct (rest l c) as [b|].
    - destruct IH as (a & w & ->). exists ((y, u) :: a), w. reflexivity.
    - intros [H|H]; [congruence|]. now apply IH.
  Qed.
  Lemma in_front_next t c : in_front t c -> exists k1, kernel_next (sched t) c = Ok k1 /\ upto (sched t) k1 k.
  Proof.
    intros F. assert (Hh : has (sched t) k) by (eapply find_has, always). destruct c as [c|]; [|exact (upto_first _ _ Hh)]. cbn [kernel_next]. destruct F as (Ne & i & Li & U).
    pose proof (rest_spec (sched t) c) as R. destruct (rest (sched t) c) as [b|]; [|exact (upto_first _ _ Hh)]. destruct R as (a & w & E).
    assert (Hc : has (sched t) c) by (unfold has; rewrite E, map_app; apply in_or_app; right; now left). destruct (Hcalm i t Li) as (_ & Cm). destruct (Cm c U Hc) as (a' & b' & E' & Hb & Hd). destruct b' as [|(x, w') b']; [destruct Hd|]. subst x.
    assert (Eq : a = a' /\ b = b').
    { pose proof (Hnd t) as N. rewrite E in E'. rewrite E in N. clear -N E'. revert a' E'. induction a as [|(y, u) a IH]; intros [|(y', u') a'] E'; cbn in *; [injection E' as <- <-; auto| | |].
      - injection E' as <- <- ->. inversion N as [|? ? Ni _]; subst. destruct Ni. rewrite map_app. apply in_or_app. right. now left.
      - injection E' as -> -> <-. inversion N as [|? ? Ni _]; subst. destruct Ni. rewrite map_app. apply in_or_app. right. now left.
      - injection E' as <- <- E'. inversion N; subst. destruct (IH ltac:(assumption) a' E') as (-> & ->). auto. }
    destruct Eq as (-> & ->). destruct Hb as [Hb|Hb]; [cbn in Hb; congruence|]. destruct b' as [|(h, u) b']; [destruct Hb|]. exists h. split; [reflexivity|]. exists (a' ++ [(c, w)]), ((h, u) :: b'). rewrite <- app_assoc. auto.
  Qed.
  Lemma shared_loop : forall fuel t mi t' mi' r, in_front t (i_cursor mi) -> nextLoop nextKey lookup decode fuel t mi = Some (t', mi', r) -> running mi -> i_err mi' = None ->
    exists e, r = Some e /\ running mi' /\ (decode k = Ok (fst e) /\ snd e = v \/ in_front t' (i_cursor mi')).
  Proof.
    induction fuel as [|fuel IH]; intros t mi t' mi' r F E R Er; [discriminate E|]. cbn [nextLoop] in E. destruct (i_count mi <=? i_maxEntries mi); [|injection E as <- <- <-; discriminate Er].
    destruct (in_front_next t (i_cursor mi) F) as (k1 & E1 & U). rewrite E1 in E. destruct (key_dec k1 k) as [->|N].
    - unfold kernel_lookup in E at 1. rewrite always in E. destruct (decode k) as [k'|] eqn:Ed; [|injection E as <- <- <-; discriminate Er]. injection E as <- <- <-. exists (k', v). split; [reflexivity|]. split; [split; [reflexivity|apply R]|]. left. auto.
    - assert (F' : in_front (S (S t)) (Some k1)) by (split; [exact N|exists t; split; [lia|exact U]]). destruct (kernel_lookup (sched (S t)) k1) as [v1|[|c]].
      + destruct (decode k1) as [k'|]; [|injection E as <- <- <-; discriminate Er]. injection E as <- <- <-. eexists. split; [reflexivity|]. split; [split; [reflexivity|apply R]|]. right. exact F'.
      + eapply IH in E; [exact E|exact F'| |exact Er]. split; [reflexivity|apply R].
      + injection E as <- <- <-. discriminate Er.
  Qed.
  Lemma shared_iterate : forall n fuel t mi out t' mi', in_front t (i_cursor mi) -> running mi -> iterate nextKey lookup decode n fuel t mi = Some (out, t', mi') -> i_err mi' = None -> exists k', decode k = Ok k' /\ In (k', v) out.
  Proof.
    induction n as [|n IH]; intros fuel t mi out t' mi' F R E Er; [discriminate E|]. cbn [iterate] in E. unfold Next in E. pose proof R as (R1 & R2). rewrite R1, R2 in E. cbn [orb] in E.
    destruct (nextLoop nextKey lookup decode fuel t mi) as [((t1, mi1), r)|] eqn:El; [|discriminate E]. destruct r as [e|].
    - destruct (iterate nextKey lookup decode n fuel t1 mi1) as [((l, t2), mi2)|] eqn:E2; [|discriminate E]. injection E as <- <- <-. destruct (i_err mi1) as [x|] eqn:Ex.
      + exfalso. destruct n as [|n]; [discriminate E2|]. cbn [iterate] in E2. unfold Next in E2. rewrite Ex in E2. cbn [orb] in E2. injection E2 as <- <- <-. congruence.
      + destruct (shared_loop _ _ _ _ _ _ F El R Ex) as (e' & Ee & R' & H). injection Ee as <-. destruct H as [(Hd & <-)|H].
        * exists (fst e). split; [exact Hd|]. left. now destruct e.
        * destruct (IH fuel t1 mi1 l t2 mi2 H R' E2 Er) as (k' & H1 & H2). exists k'. split; [exact H1|]. now right.
    - injection E as <- <- <-. destruct (shared_loop _ _ _ _ _ _ F El R Er) as (e' & Ee & _). discriminate Ee.
  Qed.
End Shared.
(** However others change the map meanwhile: if iteration ends without error, an entry nobody has touched has been returned. *)
Theorem C63_complete : forall (K V : Type) (sched : nat -> entries V) (decode : key -> res Z K) k v maxEntries n fuel out t' mi,
  (forall i, NoDup (map fst (sched i))) -> calm k sched -> find (sched 0%nat) k = Some (Some v) ->
  iterate (fun t => kernel_next (sched t)) (fun t => kernel_lookup (sched t)) decode n fuel 0%nat (newMapIterator maxEntries) = Some (out, t', mi) -> i_err mi = None ->
  exists k', decode k = Ok k' /\ In (k', v) out.
Proof.
  intros K V sched decode k v maxEntries n fuel out t' mi N C Hk E Er. eapply (shared_iterate sched N decode k v C Hk n fuel 0%nat (newMapIterator maxEntries)); [exact I|split; reflexivity|exact E|exact Er].
Qed.
Print Assumptions C63_complete.

(** *** Writing and deleting other keys of a hash table is calm *)
Section Hash.
  Context {V : Type}.
  Variable hash : key -> nat.
  Notation apply := (@apply V hash).
  Notation table_ok := (@table_ok V hash).
  Lemma has_without (l : entries V) x k : has (without x l) k <-> has l k /\ k <> x.
  Proof.
    unfold has, without. induction l as [|(y, u) l IH]; cbn [filter map In fst]; [tauto|]. destruct (key_dec y x) as [->|N]; cbn [map In fst]; rewrite IH; intuition congruence.
  Qed.
  Lemma nodup_without (l : entries V) x : NoDup (map fst l) -> NoDup (map fst (without x l)).
  Proof.
    induction l as [|(y, u) l IH]; unfold without; cbn [filter map fst]; intros N; [constructor|]. inversion N; subst. destruct (key_dec y x); cbn [map fst]; [now apply IH|]. constructor; [|now apply IH]. intros H. apply has_without in H. destruct H as (H & _). contradiction.
  Qed.
  Lemma nth_change (t : buckets V) : forall i f j, nth_error (change t i f) j = if Nat.eqb i j then option_map f (nth_error t j) else nth_error t j.
  Proof. induction t as [|b t IH]; intros [|i] f [|j]; cbn; try reflexivity; try now destruct (Nat.eqb i j). apply IH. Qed.
  Lemma apply_ok t o : table_ok t -> table_ok (apply t o).
  Proof.
    intros H i b. assert (G : forall x f, (forall b, NoDup (map fst b) -> (forall k, has b k -> hash k = hash x) -> NoDup (map fst (f b)) /\ forall k, has (f b) k -> hash k = hash x) -> nth_error (change t (hash x) f) i = Some b -> NoDup (map fst b) /\ forall k, has b k -> hash k = i).
    { intros x f Hf E. rewrite nth_change in E. destruct (Nat.eqb_spec (hash x) i) as [<-|]; [|now apply H]. destruct (nth_error t (hash x)) as [b0|] eqn:E0; [|discriminate E]. injection E as <-. destruct (H _ _ E0). auto. }
    destruct o as [x w|x]; cbn [IterSpec.apply]; apply G; intros b0 N Hh.
    - split; [cbn; constructor; [intros K; apply has_without in K; destruct K; congruence|now apply nodup_without]|]. intros k [<-|K]; [reflexivity|]. apply has_without in K as (K & _). auto.
    - split; [now apply nodup_without|]. intros k K. apply has_without in K as (K & _). auto.
  Qed.
  (** where keys are found *)
  Lemma flat_split (t : buckets V) : forall i b, nth_error t i = Some b -> flat t = concat (firstn i t) ++ b ++ concat (skipn (S i) t).
  Proof. induction t as [|b0 t IH]; intros [|i] b E; cbn in *; try discriminate; [injection E as ->; reflexivity|]. unfold flat in IH. rewrite (IH i b E), app_assoc. reflexivity. Qed.
  Lemma flat_has t k : table_ok t -> has (flat t) k -> exists b, nth_error t (hash k) = Some b /\ has b k.
  Proof.
    intros H K. unfold has, flat in K. apply in_map_iff in K as ((k', w) & <- & K). apply in_concat in K as (b & Hb & K). apply In_nth_error in Hb as (i & Hi). assert (Hk : has b k') by (apply in_map_iff; exists (k', w); auto).
    destruct (H i b Hi) as (_ & Hh). cbn [fst]. rewrite (Hh _ Hk). eauto.
  Qed.
  Lemma bucket_has (t : buckets V) i b k : nth_error t i = Some b -> has b k -> has (flat t) k.
  Proof. intros E K. unfold has. rewrite (flat_split t i b E), !map_app. apply in_or_app. right. apply in_or_app. now left. Qed.
  Lemma nodup_app {A} (a b : list A) : NoDup a -> NoDup b -> (forall x, In x a -> ~ In x b) -> NoDup (a ++ b).
  Proof. induction a as [|x a IH]; intros Na Nb D; cbn; [exact Nb|]. inversion Na; subst. constructor; [|apply IH; auto; intros y Hy; apply D; now right]. intros H. apply in_app_or in H as [H|H]; [contradiction|]. exact (D x (or_introl eq_refl) H). Qed.
  Lemma flat_nodup t : table_ok t -> NoDup (map fst (flat t)).
  Proof.
    intros H. assert (G : forall n (t0 : buckets V), (forall i b, nth_error t0 i = Some b -> NoDup (map fst b) /\ forall k, has b k -> hash k = (n + i)%nat) -> NoDup (map fst (concat t0))).
    { intros n t0. revert n. induction t0 as [|b t0 IH]; intros n H0; cbn; [constructor|]. rewrite map_app. apply nodup_app; [apply (H0 0%nat b eq_refl)|apply (IH (S n)); intros i b' E; destruct (H0 (S i) b' E) as (N & Hh); split; [exact N|intros k K; rewrite (Hh k K); lia]|].
      intros x Hx Hx2. destruct (H0 0%nat b eq_refl) as (_ & Hb). specialize (Hb x Hx). apply in_map_iff in Hx2 as ((x', w) & <- & Hx2). apply in_concat in Hx2 as (b' & Hb' & Hx2). apply In_nth_error in Hb' as (i & Hi). destruct (H0 (S i) b' Hi) as (_ & Hh). assert (K : has b' x') by (apply in_map_iff; exists (x', w); auto). specialize (Hh x' K). cbn [fst] in *. lia. }
    apply (G 0%nat t). exact H.
  Qed.
  Lemma find_flat t k b : table_ok t -> nth_error t (hash k) = Some b -> find (flat t) k = find b k.
  Proof.
    intros H E. rewrite (flat_split t _ b E). assert (F : forall l1 l2 : entries V, ~ has l1 k -> find (l1 ++ l2) k = find l2 k).
    { induction l1 as [|(y, u) l1 IH]; intros l2 N; cbn; [reflexivity|]. destruct (key_dec k y) as [->|]; [destruct N; now left|]. apply IH. intros K. apply N. now right. }
    assert (N : forall t1 : buckets V, (forall i b, nth_error t1 i = Some b -> ~ has b k) -> ~ has (concat t1) k).
    { intros t1 H1 K. apply in_map_iff in K as ((x', w) & <- & K). apply in_concat in K as (b' & Hb' & K). apply In_nth_error in Hb' as (i & Hi). apply (H1 i b' Hi). apply in_map_iff. exists (x', w). auto. }
    rewrite F.
    - assert (F2 : ~ has (concat (skipn (S (hash k)) t)) k).
      { apply N. intros i b' Hi K. rewrite nth_error_skipn in Hi. destruct (H _ _ Hi) as (_ & Hh). specialize (Hh k K). lia. }
      revert F2. generalize (concat (skipn (S (hash k)) t)). intros r F2. clear -F2. induction b as [|(y, u) b IH]; cbn [app find].
      + induction r as [|(y, u) l IH]; [reflexivity|]. cbn [find]. destruct (key_dec k y) as [->|]; [destruct F2; now left|]. apply IH. intros K. apply F2. now right.
      + now destruct (key_dec k y).
    - apply N. intros i b' Hi K. assert (Li : (i < hash k)%nat). { assert (X : (i < length (firstn (hash k) t))%nat) by (apply nth_error_Some; congruence). rewrite firstn_length in X. lia. }
      rewrite nth_error_firstn_lt in Hi by exact Li. destruct (H _ _ Hi) as (_ & Hh). specialize (Hh k K). lia.
  Qed.

  Lemma upto_not_before (l : entries V) : NoDup (map fst l) -> forall c k, c <> k -> upto l c k -> forall a w b, l = a ++ (c, w) :: b -> has a k -> False.
  Proof.
    intros N c k Ne (a' & [|(c', w') b'] & E & Hk & Hc) a w b E2 Ha; [destruct Hc|]. subst c'. destruct Hk as [Hk|Hk]; [cbn in Hk; congruence|].
    assert (Ea : a = a').
    { clear Hk Ha. rewrite E in N. rewrite E in E2. clear E. rename E2 into E. symmetry in E. revert a' b' w' N E. induction a as [|(y, u) a IH]; intros [|(y', u') a'] b' w' N E; cbn in *; [reflexivity| | |].
      - injection E as <- <- ->. inversion N as [|? ? Ni _]; subst. destruct Ni. rewrite map_app. apply in_or_app. right. now left.
      - injection E as -> -> <-. inversion N as [|? ? Ni _]; subst. destruct Ni. rewrite map_app. apply in_or_app. right. now left.
      - injection E as <- <- E. inversion N as [|? ? Ni N']; subst. now rewrite (IH a' b' w' N' E). }
    subst a'. rewrite E, map_app in N. apply in_split in Ha as (p & q & Eq). apply in_split in Hk as (p' & q' & Eq'). cbn [map fst] in N. rewrite Eq, Eq' in N. clear -N.
    rewrite <- app_assoc in N. cbn [app] in N. apply NoDup_remove_2 in N. apply N. apply in_or_app. right. apply in_or_app. right. right. apply in_or_app. right. now left.
  Qed.
  Lemma upto_without (b : entries V) x c k : upto b c k -> c <> x -> k <> x -> upto (without x b) c k.
  Proof.
    intros (a & [|(c', w) b'] & -> & Hk & Hc) Nc Nk; [destruct Hc|]. subst c'. exists (without x a), (without x ((c, w) :: b')). split; [apply filter_app|]. split; [now apply has_without|].
    unfold without. cbn [filter fst]. destruct (key_dec c x); [contradiction|reflexivity].
  Qed.
  Lemma upto_cons (b : entries V) e c k : upto b c k -> upto (e :: b) c k.
  Proof. intros (a & b' & -> & H). exists (e :: a), b'. auto. Qed.
  Lemma upto_has (b : entries V) c k : upto b c k -> has b k /\ has b c.
  Proof. intros (a & [|(c', w) b'] & -> & Hk & Hc); [destruct Hc|]. subst c'. unfold has in *. rewrite map_app. split; apply in_or_app; right; [exact Hk|now left]. Qed.

  (** the cursor [c] is in front of the place of [k], or not in the table *)
  Definition before (t : buckets V) (c k : key) : Prop := (hash c < hash k)%nat \/ hash c = hash k /\ forall b, nth_error t (hash k) = Some b -> has b c -> upto b c k.
  Lemma before_apply t o c k : table_ok t -> touches o <> k -> has (flat t) k -> before t c k -> before (apply t o) c k.
  Proof.
    intros T N Hk [L|(Eh & H)]; [now left|]. right. split; [exact Eh|]. intros b E Hc. destruct (flat_has t k T Hk) as (b0 & E0 & Hk0).
    destruct o as [x w|x]; cbn [IterSpec.apply touches] in *; rewrite nth_change, E0 in E; (destruct (Nat.eqb (hash x) (hash k)); [|injection E as <-; now apply H]); cbn [option_map] in E; injection E as <-.
    - destruct (key_dec c x) as [->|Nc].
      + exists [], ((x, Some w) :: without x b0). split; [reflexivity|]. split; [|reflexivity]. right. apply has_without. auto.
      + apply upto_cons. apply upto_without; auto. apply H; [exact E0|]. destruct Hc as [Hc|Hc]; [cbn in Hc; congruence|]. apply has_without in Hc. tauto.
    - apply has_without in Hc as (Hc & Nc). apply upto_without; auto.
  Qed.
  Lemma in_nth_split (t : buckets V) i b j b' : nth_error t i = Some b -> nth_error t j = Some b' -> (i < j)%nat -> exists t1 t2 t3, t = t1 ++ b :: t2 ++ b' :: t3.
  Proof.
    revert i j. induction t as [|x t IH]; intros [|i] [|j] E1 E2 L; cbn in *; try discriminate; try lia.
    - injection E1 as ->. apply nth_error_split in E2 as (t2 & t3 & -> & _). exists [], t2, t3. reflexivity.
    - destruct (IH i j E1 E2 ltac:(lia)) as (t1 & t2 & t3 & ->). exists (x :: t1), t2, t3. reflexivity.
  Qed.
  Lemma has_split (l : entries V) c : has l c -> exists a w b, l = a ++ (c, w) :: b.
  Proof. intros H. apply in_map_iff in H as ((c', w) & <- & H). apply in_split in H as (a & b & ->). exists a, w, b. reflexivity. Qed.
  Lemma before_upto t c k : table_ok t -> has (flat t) c -> has (flat t) k -> before t c k -> upto (flat t) c k.
  Proof.
    intros T Hc Hk B. destruct (flat_has t k T Hk) as (bk & Ek & Hbk). destruct (flat_has t c T Hc) as (bc & Ec & Hbc). destruct B as [L|(Eh & H)].
    - destruct (in_nth_split t _ _ _ _ Ec Ek L) as (t1 & t2 & t3 & ->). destruct (has_split bc c Hbc) as (a & w & b & ->).
      exists (concat t1 ++ a), ((c, w) :: b ++ concat (t2 ++ bk :: t3)). unfold flat. rewrite concat_app. cbn [concat]. rewrite <- !app_assoc. split; [reflexivity|]. split; [|reflexivity].
      right. rewrite concat_app. cbn [concat]. rewrite !map_app. apply in_or_app. right. apply in_or_app. right. apply in_or_app. now left.
    - rewrite Eh in Ec. rewrite Ek in Ec. injection Ec as <-. destruct (H bk Ek Hbc) as (a & [|(c', w) b] & E & Hb & Hd); [destruct Hd|]. subst c'.
      rewrite (flat_split t _ _ Ek), E. exists (concat (firstn (hash k) t) ++ a), (((c, w) :: b) ++ concat (skipn (S (hash k)) t)). rewrite <- !app_assoc. split; [reflexivity|]. split; [|reflexivity].
      unfold has in *. rewrite map_app. apply in_or_app. now left.
  Qed.
  Lemma upto_before t c k : table_ok t -> upto (flat t) c k -> before t c k.
  Proof.
    intros T U. pose proof (upto_has _ _ _ U) as (Hk & Hc). destruct (flat_has t k T Hk) as (bk & Ek & Hbk). destruct (flat_has t c T Hc) as (bc & Ec & Hbc).
    destruct (Nat.lt_trichotomy (hash c) (hash k)) as [L|[Eh|L]]; [now left|right; split; [exact Eh|]|exfalso].
    - intros b E Hb. rewrite Ek in E. injection E as <-. rewrite Eh, Ek in Ec. injection Ec as <-. destruct (key_dec c k) as [->|Nck].
      + destruct (has_split bk k Hbk) as (a & w & b & ->). exists a, ((k, w) :: b). split; [reflexivity|]. split; [now left|reflexivity].
      + destruct (has_split bk c Hb) as (a & w & b & E). exists a, ((c, w) :: b). split; [exact E|]. split; [|reflexivity].
        assert (Hk2 := Hbk). unfold has in Hk2. rewrite E, map_app in Hk2. apply in_app_or in Hk2 as [Hk2|Hk2]; [|exact Hk2]. exfalso.
        apply (upto_not_before (flat t) (flat_nodup t T) c k Nck U (concat (firstn (hash k) t) ++ a) w (b ++ concat (skipn (S (hash k)) t))).
        * rewrite (flat_split t _ _ Ek), E, <- !app_assoc. reflexivity.
        * unfold has. rewrite map_app. apply in_or_app. now right.
    - destruct (in_nth_split t _ _ _ _ Ek Ec L) as (t1 & t2 & t3 & Et). destruct (has_split bc c Hbc) as (a & w & b & E).
      assert (Nck : c <> k) by (intros ->; lia).
      apply (upto_not_before (flat t) (flat_nodup t T) c k Nck U (concat t1 ++ bk ++ concat t2 ++ a) w (b ++ concat t3)).
      + rewrite Et, E. unfold flat. rewrite concat_app. cbn [concat]. rewrite concat_app. cbn [concat]. rewrite <- !app_assoc. reflexivity.
      + unfold has in *. rewrite !map_app. apply in_or_app. right. apply in_or_app. now left.
  Qed.

  (** others write and delete entries: [ops i] is what they do between the times i and i + 1 *)
  Variable t0 : buckets V.
  Variable ops : nat -> list (op V).
  Fixpoint at_time (i : nat) : buckets V := match i with O => t0 | S j => fold_left apply (ops j) (at_time j) end.
  Variable k : key.
  Hypothesis Hok : table_ok t0.
  Hypothesis Hops : forall i o, In o (ops i) -> touches o <> k.
  Hypothesis Hhas : has (flat t0) k.

  Lemma apply_find t o : table_ok t -> touches o <> k -> has (flat t) k -> find (flat (apply t o)) k = find (flat t) k.
  Proof.
    intros T N Hk. destruct (flat_has t k T Hk) as (b & E & Hb). rewrite (find_flat t k b T E).
    assert (W : forall x, x <> k -> find (without x b) k = find b k).
    { intros x Nx. unfold without. clear -Nx. induction b as [|(y, u) b IH]; [reflexivity|]. cbn [filter fst]. destruct (key_dec y x) as [->|Ny]; cbn [find]; [|now rewrite IH]. destruct (key_dec k x); [congruence|exact IH]. }
    pose proof (apply_ok t o T) as T'. destruct o as [x w|x]; cbn [IterSpec.apply touches] in *.
    - destruct (Nat.eqb (hash x) (hash k)) eqn:Eb.
      + erewrite (find_flat _ k); [|exact T'|rewrite nth_change, Eb, E; reflexivity]. cbn [find]. destruct (key_dec k x); [congruence|]. now apply W.
      + erewrite (find_flat _ k); [|exact T'|rewrite nth_change, Eb, E; reflexivity]. reflexivity.
    - destruct (Nat.eqb (hash x) (hash k)) eqn:Eb.
      + erewrite (find_flat _ k); [|exact T'|rewrite nth_change, Eb, E; reflexivity]. now apply W.
      + erewrite (find_flat _ k); [|exact T'|rewrite nth_change, Eb, E; reflexivity]. reflexivity.
  Qed.
  Lemma find_has' (l : entries V) x : has l x <-> find l x <> None.
  Proof. unfold has. induction l as [|(y, u) l IH]; cbn [map fst In find]; [tauto|]. destruct (key_dec x y) as [->|N]; [split; [discriminate|now left]|]. rewrite <- IH. intuition congruence. Qed.
  Lemma fold_calm : forall os t, table_ok t -> (forall o, In o os -> touches o <> k) -> has (flat t) k ->
    table_ok (fold_left apply os t) /\ find (flat (fold_left apply os t)) k = find (flat t) k /\ forall c, before t c k -> before (fold_left apply os t) c k.
  Proof.
    induction os as [|o os IH]; intros t T N Hk; cbn [fold_left]; [auto|]. pose proof (apply_find t o T (N o (or_introl eq_refl)) Hk) as F.
    assert (Hk' : has (flat (apply t o)) k) by (apply find_has'; rewrite F; now apply find_has').
    destruct (IH (apply t o) (apply_ok t o T) (fun o' H => N o' (or_intror H)) Hk') as (A & B & C). split; [exact A|]. split; [congruence|]. intros c Bf. apply C. apply before_apply; auto. apply N. now left.
  Qed.
  Lemma at_ok : forall i, table_ok (at_time i) /\ has (flat (at_time i)) k.
  Proof.
    induction i as [|i (T & Hk)]; cbn [at_time]; [auto|]. destruct (fold_calm (ops i) (at_time i) T (Hops i) Hk) as (A & B & _). split; [exact A|]. apply find_has'. rewrite B. now apply find_has'.
  Qed.
  Lemma at_calm : forall i j, (i <= j)%nat -> find (flat (at_time j)) k = find (flat (at_time i)) k /\ forall c, before (at_time i) c k -> before (at_time j) c k.
  Proof.
    intros i j L. induction L as [|j L (A & B)]; [auto|]. destruct (at_ok j) as (T & Hk). cbn [at_time]. destruct (fold_calm (ops j) (at_time j) T (Hops j) Hk) as (_ & F & G). split; [congruence|auto].
  Qed.
  Lemma hash_calm : calm k (fun i => flat (at_time i)).
  Proof.
    intros i j L. destruct (at_calm i j L) as (A & B). split; [exact A|]. intros c U Hc. destruct (at_ok i) as (Ti & Hi). destruct (at_ok j) as (Tj & Hj). apply before_upto; auto. apply B. now apply upto_before.
  Qed.
End Hash.

(** Iterating over a hash table while others write and delete entries, between any two system calls and as many as they
    like: if iteration ends without an error, every entry which was there from the beginning and nobody touched has been
    returned, with its value. *)
Theorem C63_hash : forall (V : Type) (hash : key -> nat) (t0 : buckets V) (ops : nat -> list (op V)) k v maxEntries n fuel out t' mi,
  table_ok hash t0 -> find (flat t0) k = Some (Some v) -> (forall i o, In o (ops i) -> touches o <> k) ->
  let table := fun i => flat (at_time hash t0 ops i) in
  iterate (fun i => kernel_next (table i)) (fun i => kernel_lookup (table i)) (fun k => Ok k) n fuel 0%nat (newMapIterator maxEntries) = Some (out, t', mi) ->
  i_err mi = None -> In (k, v) out.
Proof.
  intros V hash t0 ops k v maxEntries n fuel out t' mi T F O table E Er. assert (Hh : has (flat t0) k) by (eapply find_has; exact F).
  destruct (C63_complete key V table (fun k => Ok k) k v maxEntries n fuel out t' mi) as (k' & Ek & H); auto.
  - intros i. apply (flat_nodup hash). now apply (at_ok hash t0 ops k T O Hh).
  - now apply hash_calm.
  - injection Ek as <-. exact H.
Qed.
Print Assumptions C63_hash.

(** ** What isn't guaranteed *)
(** With max_entries = 2^32 - 1, which the kernel accepts for LPM tries, the bound isn't one: the count wraps.  While another
    process adds a key and removes it again before it is looked up, two keys in turn, a single call of Next doesn't return. *)
Definition flicker (i : nat) : entries Z := match (i mod 4)%nat with 0%nat => [([1], Some 7)] | 2%nat => [([2], Some 7)] | _ => [] end.
Theorem C63_refuted_wrap : forall fuel, Next (fun i => kernel_next (flicker i)) (fun i => kernel_lookup (flicker i)) (fun k => Ok k) fuel 0%nat (newMapIterator (2 ^ 32 - 1)) = None.
Proof.
  intros fuel. unfold Next, newMapIterator. cbn [i_err i_done orb].
  assert (Md : forall q r, (r < 4)%nat -> ((4 * q + r) mod 4)%nat = r) by (intros q r L; rewrite Nat.add_comm, Nat.mul_comm, Nat.mod_add by lia; now apply Nat.mod_small).
  assert (G : forall f q (h : bool) c n, 0 <= n < 2 ^ 32 -> c = None \/ c = Some [if h then 1 else 2] ->
    nextLoop (fun i => kernel_next (flicker i)) (fun i => kernel_lookup (flicker i)) (fun k => Ok k) f (4 * q + if h then 2 else 0)%nat (mkIter c n (2 ^ 32 - 1) false None) = None).
  { induction f as [|f IH]; intros q h c n B Hc; [reflexivity|]. cbn [nextLoop i_count i_maxEntries i_cursor i_done]. destruct (Z.leb_spec n (2 ^ 32 - 1)); [|lia].
    assert (E1 : kernel_next (flicker (4 * q + if h then 2 else 0)) c = Ok [if h then 2 else 1]) by (unfold flicker; rewrite Md by (destruct h; lia); destruct h; destruct Hc as [->| ->]; reflexivity). rewrite E1.
    assert (E2 : kernel_lookup (flicker (S (4 * q + if h then 2 else 0))) [if h then 2 else 1] = Err NotExist).
    { unfold flicker. replace (S (4 * q + if h then 2 else 0))%nat with (4 * q + if h then 3 else 1)%nat by (destruct h; lia). rewrite Md by (destruct h; lia). destruct h; reflexivity. }
    rewrite E2. destruct h.
    - replace (S (S (4 * q + 2)))%nat with (4 * (S q) + (if false then 2 else 0))%nat by lia. apply (IH (S q) false); [unfold u32, wrapu; apply Z.mod_pos_bound; lia|right; reflexivity].
    - replace (S (S (4 * q + 0)))%nat with (4 * q + (if true then 2 else 0))%nat by lia. apply (IH q true); [unfold u32, wrapu; apply Z.mod_pos_bound; lia|right; reflexivity]. }
  exact (G fuel 0%nat false None 0 ltac:(lia) (or_introl eq_refl)).
Qed.
Print Assumptions C63_refuted_wrap.
(** Writing an entry again moves it in the hash table: the key [2] is in the table all the time, but iteration doesn't
    return it and reports no error. *)
Theorem C63_refuted_missed : exists (hash : key -> nat) (t0 : buckets Z) ops k,
  table_ok hash t0 /\ (forall i, exists v, find (flat (at_time hash t0 ops i)) k = Some (Some v)) /\
  let table := fun i => flat (at_time hash t0 ops i) in
  exists out t' mi, iterate (fun i => kernel_next (table i)) (fun i => kernel_lookup (table i)) (fun k => Ok k) 5 5 0%nat (newMapIterator 10) = Some (out, t', mi) /\
    i_done mi = true /\ i_err mi = None /\ forall v, ~ In (k, v) out.
Proof.
  exists (fun _ => 0%nat), [[([1], Some 10); ([2], Some 20)]], (fun i => match i with 1%nat => [Write [2] 21] | _ => [] end), [2]. split; [|split].
  - intros [|[|i]] b E; try discriminate E. injection E as <-. split; [repeat constructor; cbn; intuition discriminate|reflexivity].
  - intros i. assert (A : forall j, at_time (fun _ => 0%nat) [[([1], Some 10); ([2], Some 20)]] (fun i => match i with 1%nat => [Write [2] 21] | _ => [] end) (S (S j)) = [[([2], Some 21); ([1], Some 10)]]) by (induction j as [|j IH]; [reflexivity|exact IH]).
    destruct i as [|[|j]]; [exists 20; reflexivity|exists 20; reflexivity|]. rewrite A. exists 21. reflexivity.
  - cbv zeta. do 3 eexists. split; [vm_compute; reflexivity|]. split; [reflexivity|]. split; [reflexivity|]. intros v [H|[]]. discriminate H.
Qed.
Print Assumptions C63_refuted_missed.
(** If the entry returned last is deleted, iteration starts over: an entry nobody touched is returned twice, and a loop over a
    table which never has more than max_entries entries may be aborted. *)
Definition two_buckets (k : key) : nat := match k with [1] => 0%nat | _ => 1%nat end.
Theorem C63_refuted_once : exists (t0 : buckets Z) ops out t' mi,
  table_ok two_buckets t0 /\ (forall i, (length (flat (at_time two_buckets t0 ops i)) <= 2)%nat) /\
  let table := fun i => flat (at_time two_buckets t0 ops i) in
  iterate (fun i => kernel_next (table i)) (fun i => kernel_lookup (table i)) (fun k => Ok k) 5 5 0%nat (newMapIterator 2) = Some (out, t', mi) /\
    (forall i, find (table i) [1] = Some (Some 10)) /\ out = [([1], 10); ([2], 20); ([1], 10)] /\ i_err mi = Some Aborted.
Proof.
  exists [[([1], Some 10)]; [([2], Some 20)]], (fun i => match i with 3%nat => [Delete [2]] | _ => [] end). do 3 eexists.
  assert (A : forall j, at_time two_buckets [[([1], Some 10)]; [([2], Some 20)]] (fun i => match i with 3%nat => [Delete [2]] | _ => [] end) (S (S (S (S j)))) = [[([1], Some 10)]; []]) by (induction j as [|j IH]; [reflexivity|exact IH]).
  split; [|split; [|cbv zeta; split; [vm_compute; reflexivity|split]]].
  - intros [|[|[|i]]] b E; try discriminate E; injection E as <-; (split; [repeat constructor; cbn; intuition discriminate|]); intros k [<-|[]]; reflexivity.
  - intros i. destruct i as [|[|[|[|j]]]]; try (cbn; lia). rewrite A. cbn. lia.
  - intros i. destruct i as [|[|[|[|j]]]]; try reflexivity. rewrite A. reflexivity.
  - split; reflexivity.
Qed.
Print Assumptions C63_refuted_once.

(** Example: a table with three entries, one of which is deleted and another added while iterating. *)
Example C63_example :
  let t0 := [[([1], Some 10)]; [([2], Some 20); ([3], Some 30)]] in
  let ops := fun i => match i with 1%nat => [Delete [2]; Write [4] 40] | _ => [] end in
  let table := fun i => flat (at_time two_buckets t0 ops i) in
  table_ok two_buckets t0 /\ find (flat t0) [3] = Some (Some 30) /\ (forall i o, In o (ops i) -> touches o <> [3]) /\
  exists t' mi, iterate (fun i => kernel_next (table i)) (fun i => kernel_lookup (table i)) (fun k => Ok k) 9 9 0%nat (newMapIterator 8) = Some ([([1], 10); ([4], 40); ([3], 30)], t', mi) /\ i_err mi = None.
Proof.
  cbv zeta. split; [|split; [|split]].
  - intros [|[|[|i]]] b E; try discriminate E; injection E as <-; (split; [repeat constructor; cbn; intuition discriminate|]); intros k Hk; repeat (destruct Hk as [<-|Hk]; [reflexivity|]); destruct Hk.
  - reflexivity.
  - intros [|[|i]] o H; try destruct H as [<-|[<-|[]]]; try destruct H; discriminate.
  - do 2 eexists. split; [vm_compute; reflexivity|reflexivity].
Qed.
