(** C64, C65: looking up many entries at once. *)
From Coq Require Import ZArith List Lia Bool.
From Verif.Base Require Import GoInt ListExtra.
From Verif.Maps Require Import Iter IterSpec PropsIter Batch BatchSpec.
Import ListNotations.
Open Scope Z_scope.

Lemma live_app {V} (a b : entries V) : live (a ++ b) = live a ++ live b.
Proof. induction a as [|(k, [v|]) a IH]; cbn; [reflexivity|now rewrite IH|exact IH]. Qed.

(** ** Arrays and LPM tries *)
(** how many elements the calls so far have returned, if none of them got to the end; the first call has number [i] *)
Fixpoint returned (fail : nat -> option Z) (i : nat) (sizes : list Z) : Z :=
  match sizes with [] => 0 | n :: s => (match fail i with Some _ => 0 | None => n end) + returned fail (S i) s end.

Section Generic.
  Context {V : Type}.
  Definition last_key (a : entries V) : option key := match rev a with [] => None | (k, _) :: _ => Some k end.
  Lemma last_key_cons k (w : option V) a : last_key ((k, w) :: a) = Some (match last_key a with Some x => x | None => k end).
  Proof. unfold last_key. cbn [rev]. destruct (rev a) as [|(y, u) r]; reflexivity. Qed.
  Lemma visit_spec : forall n (r : entries V) out last e, visit r n = (out, last, e) ->
    exists a b, r = a ++ b /\ out = live a /\ last = last_key a /\ (if e then b = [] else length out = n).
  Proof.
    induction n as [|n IH]; intros r out last e E.
    - cbn [visit] in E. injection E as <- <- <-. exists [], r. auto.
    - cbn [visit] in E. revert out last e E. induction r as [|(k, [v|]) r IHr]; intros out last e E.
      + injection E as <- <- <-. exists [], []. auto.
      + destruct (visit r n) as ((out', last'), e') eqn:Ev. injection E as <- <- <-. destruct (IH r out' last' e' Ev) as (a & b & -> & -> & -> & H). exists ((k, Some v) :: a), b. rewrite last_key_cons. cbn [live app length].
        repeat split. destruct e'; [exact H|now rewrite H].
      + match type of E with (let '(_, _) := ?x in _) = _ => destruct x as ((out', last'), e') eqn:Ev end. injection E as <- <- <-. destruct (IHr out' last' e' eq_refl) as (a & b & -> & -> & -> & H). exists ((k, None) :: a), b. rewrite last_key_cons. cbn [live app]. auto.
  Qed.

  Variable l : entries V.
  Hypothesis Hnd : NoDup (map fst l).
  Variable m : bmap.
  Variable keySize : nat.
  Hypothesis Hks : m_keySize m = Z.of_nat keySize.
  Hypothesis Hlen : forall k, has l k -> length k = keySize.
  Variable fail : nat -> option Z.
  Variable hb : option Z.
  Notation kernel := (generic_batch keySize l fail).

  (** the cursor is at the end of [a] *)
  Definition at_end (cur : cursor) (a : entries V) : Prop :=
    match cur with None => a = [] | Some (p, o) => p = m_ptr m /\ exists a' k w, a = a' ++ [(k, w)] /\ firstn keySize o = k end.
  Lemma from_at cur a b : l = a ++ b -> at_end cur a ->
    (match (match cur with None => None | Some (_, o) => Some o end) with None => l | Some o => match rest l (firstn keySize o) with Some r => r | None => l end end) = b.
  Proof.
    intros E H. destruct cur as [(p, o)|]; cbn in H; [|subst a; exact E]. destruct H as (_ & a' & k & w & -> & Ek). rewrite Ek. pose proof Hnd as N. rewrite E in N |- *. rewrite <- app_assoc in *. cbn [app] in *. destruct (rest_at a' k w b N) as (-> & _). reflexivity.
  Qed.
  Lemma generic_run : forall sizes c i cur a b st' out fin, l = a ++ b -> at_end cur a -> (cur = None -> fail i = None) -> Forall (fun n => 0 < n < 2 ^ 32) sizes ->
    run kernel hb c m i cur sizes = (st', out, fin) -> exists more, live b = out ++ more /\ (if fin then more = [] else Z.of_nat (length out) = returned fail i sizes).
  Proof.
    induction sizes as [|n sizes IH]; intros c i cur a b st' out fin E A Hf Sz R; cbn [run] in R.
    - injection R as <- <- <-. exists (live b). auto.
    - pose proof (Forall_inv Sz) as Hn. pose proof (Forall_inv_tail Sz) as Sz'. cbv beta in Hn. unfold batchLookup in R. rewrite Z.eqb_refl in R. cbn [negb] in R. unfold batchLookupCmd in R.
      set (inb := match cur with None => None | Some (_, o) => Some o end) in *. pose proof (from_at cur a b E A) as Fr. fold inb in Fr.
      assert (U : u32 n = n) by (unfold u32, wrapu; apply Z.mod_small; lia).
      assert (Step : forall opaque, (cur = None -> opaque = repeat 0 (cursorLen m)) -> (forall p o, cur = Some (p, o) -> opaque = o) -> (keySize <= length opaque)%nat \/ True ->
        forall kr, kr = kernel i (mkAttr c (m_fd m) (u32 n) (n * m_keySize m) (n * m_fullValueSize m) inb (length opaque)) ->
        (exists e, kr = (S i, mkReply (Some (Errno e)) 0 [] []) /\ cur <> None /\ fail i = Some e) \/
        fail i = None /\ exists a1 b1, b = a1 ++ b1 /\ ((exists w, kr = (S i, mkReply (Some ENOENT) (Z.of_nat (length (live a1))) (live a1) w) /\ b1 = []) \/
          exists o', kr = (S i, mkReply None (Z.of_nat (length (live a1))) (live a1) o') /\ Z.of_nat (length (live a1)) = n /\ at_end (Some (m_ptr m, overwrite opaque o')) (a ++ a1))).
      { intros opaque H1 H2 _ kr ->. unfold generic_batch. cbn [a_count a_in]. destruct (fail i) as [e|] eqn:Ef; [left; exists e; split; [reflexivity|]; split; [intros C; specialize (Hf C); congruence|reflexivity]|]. right. split; [reflexivity|]. rewrite U. destruct (Z.eqb_spec n 0); [lia|]. rewrite Fr.
        destruct (visit b (Z.to_nat n)) as ((o', lst), e') eqn:Ev. destruct (visit_spec _ _ _ _ _ Ev) as (a1 & b1 & Eb & -> & -> & H). exists a1, b1. split; [exact Eb|]. destruct e'; [left; eexists; split; [reflexivity|exact H]|].
        right. assert (Ne : live a1 <> []) by (intros C; rewrite C in H; cbn in H; lia). destruct (live a1) as [|e1 l1] eqn:El; [congruence|]. rewrite <- El in *. clear e1 l1 El.
        unfold last_key. destruct (rev a1) as [|(k, w) r1] eqn:Er.
        - assert (a1 = []) by (rewrite <- (rev_involutive a1), Er; reflexivity). subst a1. cbn in Ne. congruence.
        - exists k. split; [reflexivity|]. split; [lia|]. split; [reflexivity|]. exists (a ++ rev r1), k, w. split; [rewrite <- app_assoc; f_equal; rewrite <- (rev_involutive a1), Er; reflexivity|].
          unfold overwrite. assert (Lk : length k = keySize) by (apply Hlen; unfold has; rewrite E, Eb; rewrite !map_app; apply in_or_app; right; apply in_or_app; left; rewrite <- (rev_involutive a1), Er; cbn [rev]; rewrite map_app; apply in_or_app; right; now left).
          rewrite firstn_app, Lk, Nat.sub_diag, <- Lk, firstn_all. cbn. apply app_nil_r. }
      assert (Fin : forall opaque st1 r, ((exists e, (st1, r) = (S i, mkReply (Some (Errno e)) 0 [] []) /\ cur <> None /\ fail i = Some e) \/ fail i = None /\ exists a1 b1, b = a1 ++ b1 /\ ((exists w, (st1, r) = (S i, mkReply (Some ENOENT) (Z.of_nat (length (live a1))) (live a1) w) /\ b1 = []) \/
          exists o', (st1, r) = (S i, mkReply None (Z.of_nat (length (live a1))) (live a1) o') /\ Z.of_nat (length (live a1)) = n /\ at_end (Some (m_ptr m, overwrite opaque o')) (a ++ a1))) ->
          (cur <> None -> at_end (Some (m_ptr m, opaque)) a) ->
          match (match (match r_err r with
                 | Some ENOENT => (st1, Some (m_ptr m, overwrite opaque (r_out r)), (r_count r, Some (BSys ENOENT), r_elems r))
                 | Some e => (st1, Some (m_ptr m, overwrite opaque (r_out r)), (0, Some (match hb with Some f => BNoBatchAPI f | None => BSys e end), []))
                 | None => (st1, Some (m_ptr m, overwrite opaque (r_out r)), (r_count r, None, r_elems r)) end) with
             | (st2, cur2, (n0, err, out0)) => match err with None | Some (BSys ENOENT) => (st2, cur2, (n0, err, out0)) | Some (BSys ENOSPC) => (st2, cur2, (n0, Some BTooSmall, out0)) | Some e => (st2, cur2, (0, Some e, out0)) end end) with
          | (st2, cur2, (_, Some (BSys ENOENT), out0)) => (st2, out0, true)
          | (st2, cur2, (_, _, out0)) => match run kernel hb c m st2 cur2 sizes with (st3, out', fin0) => (st3, out0 ++ out', fin0) end
          end = (st', out, fin) -> exists more, live b = out ++ more /\ (if fin then more = [] else Z.of_nat (length out) = returned fail i (n :: sizes))).
      { intros opaque st1 r Hst Hcur Rr. destruct Hst as [(e & Er & Nc & Ef)|(Ef & a1 & b1 & Eb & [(w & Er & ->)|(o' & Er & Hlen1 & Ha)])]; injection Er as -> ->; cbn [r_err r_count r_elems r_out] in Rr.
        - assert (Ov : overwrite opaque [] = opaque) by reflexivity. rewrite Ov in Rr. cbn [returned]. rewrite Ef.
          assert (R' : exists o f, run kernel hb c m (S i) (Some (m_ptr m, opaque)) sizes = (st', o, f) /\ out = o /\ fin = f).
          { destruct (run kernel hb c m (S i) (Some (m_ptr m, opaque)) sizes) as ((s3, o3), f3) eqn:Rn. clear -Rn Rr. destruct hb; cbn iota beta in Rr; rewrite Rn in Rr; injection Rr as <- <- <-; eauto. }
          destruct R' as (o & f & R' & -> & ->). exact (IH c (S i) _ a b st' o f E (Hcur Nc) ltac:(discriminate) Sz' R').
        - injection Rr as <- <- <-. exists []. rewrite app_nil_r in Eb. subst a1. rewrite app_nil_r. auto.
        - cbn [returned]. rewrite Ef. destruct (run kernel hb c m (S i) (Some (m_ptr m, overwrite opaque o')) sizes) as ((s3, o3), f3) eqn:R'. cbn iota beta in Rr. rewrite ?R' in Rr. injection Rr as <- <- <-.
          destruct (IH c (S i) _ (a ++ a1) b1 s3 o3 f3 ltac:(rewrite E, Eb, app_assoc; reflexivity) Ha ltac:(discriminate) Sz' R') as (more & Hm & Hf'). exists more. rewrite Eb, live_app, Hm, <- app_assoc. split; [reflexivity|]. destruct f3; [exact Hf'|]. rewrite app_length. lia. }
      destruct cur as [(p, o)|].
      + destruct A as (-> & A). rewrite Z.eqb_refl in R. match type of R with context [kernel i ?x] => destruct (kernel i x) as (st1, r) eqn:Ek end. refine (Fin o st1 r _ _ R).
        * apply (Step o ltac:(discriminate) ltac:(intros ? ? H; now injection H) ltac:(auto)). now rewrite <- Ek.
        * intros _. split; [reflexivity|exact A].
      + match type of R with context [kernel i ?x] => destruct (kernel i x) as (st1, r) eqn:Ek end. refine (Fin _ st1 r _ _ R).
        * apply (Step (repeat 0 (cursorLen m)) ltac:(auto) ltac:(discriminate) ltac:(auto)). now rewrite <- Ek.
        * congruence.
  Qed.
End Generic.

(** Arrays and LPM tries, with calls of any sizes: what was collected so far is the beginning of the map, in the order of the
    kernel; once ErrKeyNotExist is returned everything has been.  Calls other than the first one may fail. *)
Theorem C64_array : forall (V : Type) (l : entries V) m c fail haveBatchAPI sizes st out fin,
  NoDup (map fst l) -> (forall k, has l k -> Z.of_nat (length k) = m_keySize m) -> 0 <= m_keySize m ->
  fail 0%nat = None -> Forall (fun n => 0 < n < 2 ^ 32) sizes ->
  run (generic_batch (Z.to_nat (m_keySize m)) l fail) haveBatchAPI c m 0%nat None sizes = (st, out, fin) ->
  exists more, live l = out ++ more /\ (if fin then more = [] else Z.of_nat (length out) = returned fail 0 sizes).
Proof.
  intros V l m c fail hb sizes st out fin N Hl Hk F Sz R. refine (generic_run l N m (Z.to_nat (m_keySize m)) ltac:(intros k H; rewrite <- (Hl k H); lia) fail hb sizes c 0%nat None [] l st out fin eq_refl eq_refl (fun _ => F) Sz R).
Qed.
Print Assumptions C64_array.

(** ** Hash tables *)
Section HashTable.
  Context {V : Type}.
  Variable hash : key -> nat.
  Variable env : nat -> list (op V).
  Definition sel (k : key) (out : list (key * V)) : list (key * V) := filter (fun e => if key_dec (fst e) k then true else false) out.
  Definition look (tb : buckets V) (k : key) : option (option V) := find (nth (hash k) tb []) k.
  Definition found (x : option (option V)) (k : key) : list (key * V) := match x with Some (Some v) => [(k, v)] | _ => [] end.

  Lemma sel_app k a b : sel k (a ++ b) = sel k a ++ sel k b.
  Proof. apply filter_app. Qed.
  Lemma sel_none k (b : entries V) : ~ has b k -> sel k (live b) = [].
  Proof.
    induction b as [|(y, [v|]) b IH]; intros N; cbn [live]; [reflexivity| |apply IH; intros H; apply N; now right]. unfold sel. cbn [filter fst]. destruct (key_dec y k) as [->|]; [destruct N; now left|]. apply IH. intros H. apply N. now right.
  Qed.
  Lemma sel_found k (b : entries V) : NoDup (map fst b) -> sel k (live b) = found (find b k) k.
  Proof.
    induction b as [|(y, w) b IH]; intros N; [reflexivity|]. cbn [map fst] in N. inversion N as [|? ? Ni N']; subst. cbn [find]. destruct (key_dec k y) as [->|Ne].
    - destruct w as [v|]; cbn [live found]; [|now apply sel_none]. unfold sel. cbn [filter fst]. destruct (key_dec y y); [|contradiction]. f_equal. now apply sel_none.
    - destruct w as [v|]; cbn [live]; [|now apply IH]. unfold sel. cbn [filter fst]. destruct (key_dec y k); [congruence|]. now apply IH.
  Qed.
  Lemma length_change (t : buckets V) : forall i f, length (change t i f) = length t.
  Proof. induction t as [|b t IH]; intros [|i] f; cbn; auto. Qed.
  Lemma length_apply t o : length (apply (V := V) hash t o) = length t.
  Proof. destruct o; apply length_change. Qed.
  Lemma length_fold : forall os t, length (fold_left (apply (V := V) hash) os t) = length t.
  Proof. induction os as [|o os IH]; intros t; cbn; [reflexivity|]. now rewrite IH, length_apply. Qed.
  Lemma nth_change' (t : buckets V) : forall i f j, f [] = [] \/ (i < length t)%nat -> nth j (change t i f) [] = if Nat.eqb i j then f (nth j t []) else nth j t [].
  Proof.
    induction t as [|b t IH]; intros [|i] f [|j] H; cbn; try reflexivity.
    - destruct H as [->|H]; [reflexivity|cbn in H; lia].
    - destruct H as [->|H]; [|cbn in H; lia]. now destruct (Nat.eqb i j).
    - apply IH. destruct H; [auto|cbn in *; right; lia].
  Qed.
  Lemma find_without (b : entries V) x k : x <> k -> find (without x b) k = find b k.
  Proof.
    intros Nx. unfold without. induction b as [|(y, u) b IH]; [reflexivity|]. cbn [filter fst]. destruct (key_dec y x) as [->|Ny]; cbn [find]; [|now rewrite IH]. destruct (key_dec k x); [congruence|exact IH].
  Qed.
  Lemma look_apply t o k : touches o <> k -> look (apply hash t o) k = look t k.
  Proof.
    intros N. unfold look. destruct o as [x w|x]; cbn [apply touches] in *.
    - destruct (Nat.lt_ge_cases (hash x) (length t)) as [L|L].
      + rewrite nth_change' by auto. destruct (Nat.eqb (hash x) (hash k)); [|reflexivity]. cbn [find]. destruct (key_dec k x); [congruence|]. now apply find_without.
      + assert (C : forall (t : buckets V) i f, (length t <= i)%nat -> change t i f = t) by (clear; induction t as [|b t IH]; intros [|i] f H; cbn in *; try reflexivity; [lia|f_equal; apply IH; lia]). now rewrite C.
    - rewrite nth_change' by (left; reflexivity). destruct (Nat.eqb (hash x) (hash k)); [|reflexivity]. now apply find_without.
  Qed.
  Lemma look_fold : forall os t k, (forall o, In o os -> touches o <> k) -> look (fold_left (apply hash) os t) k = look t k.
  Proof. induction os as [|o os IH]; intros t k H; cbn [fold_left]; [reflexivity|]. rewrite IH by (intros o' Ho; apply H; now right). apply look_apply. apply H. now left. Qed.
  Lemma ok_fold : forall os t, table_ok (V := V) hash t -> table_ok hash (fold_left (apply hash) os t).
  Proof. induction os as [|o os IH]; intros t T; cbn [fold_left]; [exact T|]. apply IH. now apply apply_ok. Qed.
  Lemma ok_clear t i : table_ok (V := V) hash t -> table_ok hash (change t i (fun _ => [])).
  Proof.
    intros T j b E. rewrite nth_change in E. destruct (Nat.eqb i j); [|now apply T]. destruct (nth_error t j); [|discriminate E]. injection E as <-. split; [constructor|intros k []].
  Qed.
  Lemma ok_nth t i : table_ok (V := V) hash t -> NoDup (map fst (nth i t [])) /\ forall k, has (nth i t []) k -> hash k = i.
  Proof.
    intros T. destruct (nth_error t i) as [b|] eqn:E; [rewrite (nth_error_nth t i [] E); now apply T|]. apply nth_error_None in E. rewrite nth_overflow by exact E. split; [constructor|intros k []].
  Qed.

  Lemma visit_hash k : (forall t o, In o (env t) -> touches o <> k) -> forall del n t tb batch room any t' tb' out batch' e,
    table_ok hash tb -> length tb = (batch + n)%nat -> hash_visit hash env del n t tb batch room any = (t', tb', out, batch', e) ->
    table_ok hash tb' /\ length tb' = length tb /\ (batch <= batch' <= length tb)%nat /\ (e = Some ENOENT <-> batch' = length tb) /\
    sel k out = (if ((batch <=? hash k) && (hash k <? batch'))%nat then found (look tb k) k else []) /\
    look tb' k = (if del && ((batch <=? hash k) && (hash k <? batch'))%nat then None else look tb k).
  Proof.
    intros He del. induction n as [|n IH]; intros t tb batch room any t' tb' out batch' e T L E; cbn [hash_visit] in E.
    - injection E as <- <- <- <- <-. rewrite L, Nat.add_0_r. split; [exact T|]. split; [lia|]. split; [lia|]. split; [tauto|].
      destruct (Nat.leb_spec batch (hash k)); destruct (Nat.ltb_spec (hash k) batch); try lia; rewrite ?andb_false_r; auto.
    - cbv zeta in E. set (tb1 := fold_left (apply hash) (env t) tb) in *. assert (T1 : table_ok hash tb1) by (now apply ok_fold). assert (L1 : length tb1 = length tb) by apply length_fold. assert (K1 : look tb1 k = look tb k) by (apply look_fold; intros o Ho; now apply (He t)).
      destruct (Nat.ltb_spec room (length (nth batch tb1 []))) as [Rm|Rm].
      + injection E as <- <- <- <- <-. split; [exact T1|]. split; [exact L1|]. split; [lia|]. split; [split; intros H; [destruct any; discriminate H|lia]|].
        destruct (Nat.leb_spec batch (hash k)); destruct (Nat.ltb_spec (hash k) batch); try lia; rewrite ?andb_false_r; auto.
      + match type of E with (match ?x with _ => _ end) = _ => destruct x as ((((t2, tb2), out2), batch2), e2) eqn:Ev end. injection E as <- <- <- <- <-.
        set (tb1' := if del then change tb1 batch (fun _ => []) else tb1) in *.
        assert (T1' : table_ok hash tb1') by (unfold tb1'; destruct del; [now apply ok_clear|exact T1]). assert (L1' : length tb1' = length tb1) by (unfold tb1'; destruct del; [apply length_change|reflexivity]).
        destruct (IH (S t) tb1' (S batch) _ _ _ _ _ _ _ T1' ltac:(lia) Ev) as (A & B & C & D & F & G). split; [exact A|]. split; [lia|]. split; [lia|]. split; [now rewrite L1', L1 in D|].
        assert (K' : look tb1' k = if del && Nat.eqb batch (hash k) then None else look tb1 k).
        { unfold tb1'. destruct del; [|reflexivity]. unfold look. rewrite nth_change' by (left; reflexivity). destruct (Nat.eqb batch (hash k)); reflexivity. }
        rewrite sel_app, F, G, K'. destruct (ok_nth tb1 batch T1) as (Nd & Hh). rewrite (sel_found k _ Nd).
        destruct (Nat.eqb_spec batch (hash k)) as [Eb|Nb].
        * assert (Fd : find (nth batch tb1 []) k = look tb k) by (unfold look in *; rewrite Eb; exact K1). rewrite Fd. destruct (Nat.leb_spec (S batch) (hash k)); [lia|]. destruct (Nat.leb_spec batch (hash k)); [|lia]. destruct (Nat.ltb_spec (hash k) batch2); [|lia]. cbn [andb]. rewrite app_nil_r. split; [reflexivity|]. destruct del; [reflexivity|exact K1].
        * assert (Nh : ~ has (nth batch tb1 []) k) by (intros H; apply Hh in H; congruence).
          assert (Fd : find (nth batch tb1 []) k = None) by (destruct (find (nth batch tb1 []) k) eqn:Ef; [|reflexivity]; exfalso; apply Nh; eapply find_has; exact Ef). rewrite Fd. cbn [found app].
          rewrite andb_false_r, K1. destruct (Nat.leb_spec (S batch) (hash k)); destruct (Nat.leb_spec batch (hash k)); try lia; cbn [andb]; auto.
  Qed.

  Variable bo : byteorder.
  Variable fail : nat -> option Z.
  Variable hb : option Z.
  Variable m : bmap.
  Notation kernel := (hash_batch hash env bo fail).
  Definition del_of (c : cmd) := match c with LookupBatch => false | LookupAndDeleteBatch => true end.
  (** the number of the bucket in the cursor *)
  Definition points (cur : cursor) (batch : nat) : Prop := match cur with None => batch = 0%nat | Some (p, o) => p = m_ptr m /\ (4 <= length o)%nat /\ get bo (firstn 4 o) = Z.of_nat batch end.
  Lemma get_zeros : forall n, get bo (repeat 0 n) = 0.
  Proof.
    intros n. assert (Z0 : le_val (repeat 0 n) = 0) by (induction n as [|n IH]; cbn [repeat le_val]; [reflexivity|rewrite IH; reflexivity]).
    assert (Rv : rev (repeat 0 n) = repeat 0 n) by (clear; induction n as [|n IH]; [reflexivity|]; cbn [repeat rev]; rewrite IH; clear; induction n as [|n IH]; [reflexivity|]; cbn [repeat app]; now rewrite IH).
    unfold get. destruct bo; rewrite ?Rv; exact Z0.
  Qed.
  Lemma firstn_repeat' {A} (x : A) : forall n k, (n <= k)%nat -> firstn n (repeat x k) = repeat x n.
  Proof. induction n as [|n IH]; intros [|k] H; cbn; try reflexivity; [lia|]. rewrite IH by lia. reflexivity. Qed.
  Lemma points_put o batch : (4 <= length o)%nat -> (Z.of_nat batch < 2 ^ 32) -> points (Some (m_ptr m, overwrite o (put bo 4 (Z.of_nat batch)))) batch.
  Proof.
    intros L B. unfold points, overwrite. split; [reflexivity|]. split; [rewrite app_length, put_length, skipn_length; lia|]. rewrite firstn_app, put_length, Nat.sub_diag. rewrite firstn_O, app_nil_r. rewrite firstn_all2 by (rewrite put_length; lia). rewrite get_put, pow256_4. apply Z.mod_small. lia.
  Qed.

  (** one call *)
  Lemma one_call c n i t (tb : buckets V) cur batch st1 cur1 r : points cur batch -> 0 < n < 2 ^ 32 -> (batch < length tb)%nat -> Z.of_nat (length tb) < 2 ^ 32 -> batchLookup kernel hb c m (i, t, tb) cur n n = (st1, cur1, r) ->
    (exists e, st1 = (S i, t, tb) /\ points cur1 batch /\ r = (0, Some e, []) /\ e <> BSys ENOENT /\ fail i <> None) \/
    exists t' tb' out batch' e, hash_visit hash env (del_of c) (length tb - batch) t tb batch (Z.to_nat n) false = (t', tb', out, batch', e) /\ st1 = (S i, t', tb') /\ ((batch' <= length tb)%nat -> points cur1 batch') /\
      match e with
      | None => r = (Z.of_nat (length out), None, out)
      | Some ENOENT => r = (Z.of_nat (length out), Some (BSys ENOENT), out)
      | Some _ => exists e', r = (0, Some e', []) /\ e' <> BSys ENOENT
      end.
  Proof.
    intros P Hn Hb Hl E. unfold batchLookup in E. rewrite Z.eqb_refl in E. cbn [negb] in E. unfold batchLookupCmd in E.
    assert (U : u32 n = n) by (unfold u32, wrapu; apply Z.mod_small; lia). rewrite U in E.
    set (inb := match cur with None => None | Some (_, o) => Some o end).
    set (opaque := match cur with None => repeat 0 (cursorLen m) | Some (_, o) => o end).
    assert (Lo : (4 <= length opaque)%nat) by (unfold opaque; destruct cur as [(p, o)|]; [apply P|rewrite repeat_length; unfold cursorLen; lia]).
    assert (Same : points (Some (m_ptr m, opaque)) batch).
    { split; [reflexivity|]. split; [exact Lo|]. unfold opaque. destruct cur as [(p, o)|]; [apply P|]. unfold points in P. subst batch. rewrite firstn_repeat' by (unfold cursorLen; lia). apply get_zeros. }
    assert (Gb : match inb with None => 0%nat | Some b => Z.to_nat (get bo (firstn 4 b)) end = batch).
    { unfold inb. destruct cur as [(p, o)|]; unfold points in P; [destruct P as (_ & _ & ->); lia|auto]. }
    assert (E' : (let (st', rp) := kernel (i, t, tb) (mkAttr c (m_fd m) n (n * m_keySize m) (n * m_fullValueSize m) inb (length opaque)) in
       match (match r_err rp with
         | Some ENOENT => (st', Some (m_ptr m, overwrite opaque (r_out rp)), (r_count rp, Some (BSys ENOENT), r_elems rp))
         | Some e => (st', Some (m_ptr m, overwrite opaque (r_out rp)), (0, Some (match hb with Some f => BNoBatchAPI f | None => BSys e end), []))
         | None => (st', Some (m_ptr m, overwrite opaque (r_out rp)), (r_count rp, None, r_elems rp)) end) with
       | (st2, cur2, (n0, err, out0)) => match err with None | Some (BSys ENOENT) => (st2, cur2, (n0, err, out0)) | Some (BSys ENOSPC) => (st2, cur2, (n0, Some BTooSmall, out0)) | Some e => (st2, cur2, (0, Some e, out0)) end end) = (st1, cur1, r)).
    { rewrite <- E. unfold inb, opaque. destruct cur as [(p, o)|]; [destruct P as (-> & _); rewrite Z.eqb_refl|]; match goal with |- context [kernel ?s ?a] => destruct (kernel s a) as (?, ?) end; reflexivity. }
    clear E. rename E' into E. unfold hash_batch in E. destruct (fail i) as [f|].
    - left. cbn [r_err r_out] in E. destruct hb as [h|]; injection E as <- <- <-; eexists; (split; [reflexivity|]); (split; [exact Same|]); (split; [reflexivity|split; discriminate]).
    - right. cbn [a_count a_in a_cmd] in E. destruct (Z.eqb_spec n 0); [lia|]. rewrite Gb in E. destruct (Nat.leb_spec (length tb) batch); [lia|]. fold (del_of c) in E.
      destruct (hash_visit hash env (del_of c) (length tb - batch) t tb batch (Z.to_nat n) false) as ((((t', tb'), out), batch'), e) eqn:Ev. cbn [r_err r_out r_count r_elems] in E. exists t', tb', out, batch', e. split; [reflexivity|].
      destruct e as [[| |x]|]; [| destruct hb as [h|]|destruct hb as [h|]|]; injection E as <- <- <-; (split; [reflexivity|]); (split; [intros Hb'; apply points_put; [exact Lo|lia]|]); try reflexivity; (eexists; split; [reflexivity|discriminate]).
  Qed.

  Lemma visit_errs : forall del n t tb batch room any t' tb' out batch' x, hash_visit hash env del n t tb batch room any = (t', tb', out, batch', Some (Errno x)) -> False.
  Proof.
    intros del. induction n as [|n IH]; intros t tb batch room any t' tb' out batch' x E; cbn [hash_visit] in E; [discriminate E|]. cbv zeta in E. destruct (_ <? _)%nat; [destruct any; discriminate E|].
    match type of E with (match ?x with _ => _ end) = _ => destruct x as ((((t2, tb2), out2), batch2), e2) eqn:Ev end. injection E as <- <- <- <- ->. eapply IH. exact Ev.
  Qed.
  Lemma visit_any : forall del n t tb batch room t' tb' out batch' e, hash_visit hash env del n t tb batch room true = (t', tb', out, batch', e) -> e <> Some ENOSPC.
  Proof.
    intros del. induction n as [|n IH]; intros t tb batch room t' tb' out batch' e E; cbn [hash_visit] in E; [injection E as <- <- <- <- <-; discriminate|]. cbv zeta in E. destruct (_ <? _)%nat; [injection E as <- <- <- <- <-; discriminate|].
    match type of E with (match ?x with _ => _ end) = _ => destruct x as ((((t2, tb2), out2), batch2), e2) eqn:Ev end. injection E as <- <- <- <- <-. cbn [orb] in Ev. eapply IH. exact Ev.
  Qed.
  Lemma visit_nospace : forall del n t tb batch room t' tb' out batch', hash_visit hash env del n t tb batch room false = (t', tb', out, batch', Some ENOSPC) -> out = [].
  Proof.
    intros del. induction n as [|n IH]; intros t tb batch room t' tb' out batch' E; cbn [hash_visit] in E; [discriminate E|]. cbv zeta in E. destruct (_ <? _)%nat; [injection E as <- <- <- <-; reflexivity|].
    match type of E with (match ?x with _ => _ end) = _ => destruct x as ((((t2, tb2), out2), batch2), e2) eqn:Ev end. injection E as <- <- <- <- ->. cbn [orb] in Ev. destruct (nth batch (fold_left (apply hash) (env t) tb) []) as [|b0 b] eqn:Eb.
    - cbn [live app length Nat.eqb negb] in *. eapply IH. exact Ev.
    - exfalso. cbn [length Nat.eqb negb] in Ev. exact (visit_any _ _ _ _ _ _ _ _ _ _ _ Ev eq_refl).
  Qed.
  Lemma run_hash k : (forall t o, In o (env t) -> touches o <> k) -> forall sizes c i t tb cur batch i' t' tb' out fin,
    table_ok hash tb -> Z.of_nat (length tb) < 2 ^ 32 -> (batch < length tb)%nat -> points cur batch -> Forall (fun n => 0 < n < 2 ^ 32) sizes ->
    run kernel hb c m (i, t, tb) cur sizes = ((i', t', tb'), out, fin) ->
    let w := if (batch <=? hash k)%nat && (hash k <? length tb)%nat then found (look tb k) k else [] in
    if fin then sel k out = w /\ look tb' k = (if del_of c && ((batch <=? hash k)%nat && (hash k <? length tb)%nat) then None else look tb k)
    else (sel k out = w \/ sel k out = []).
  Proof.
    intros He. induction sizes as [|n sizes IH]; intros c i t tb cur batch i' t' tb' out fin T L Hb P Sz R w; cbn [run] in R.
    - injection R as <- <- <- <- <-. right. reflexivity.
    - pose proof (Forall_inv Sz) as Hn. pose proof (Forall_inv_tail Sz) as Sz'. cbv beta in Hn. destruct (batchLookup kernel hb c m (i, t, tb) cur n n) as ((st1, cur1), r) eqn:Eb.
      destruct (one_call c n i t tb cur batch st1 cur1 r P Hn Hb L Eb) as [(e & -> & P' & -> & Ne & Nfail)|(t1 & tb1 & out1 & batch1 & e & Ev & -> & P' & Hr)].
      + assert (R' : run kernel hb c m (S i, t, tb) cur1 sizes = ((i', t', tb'), out, fin)).
        { clear -R Ne. destruct e as [[| |x]| |x| |]; try (now destruct Ne); (etransitivity; [|exact R]); cbv beta iota zeta; destruct (run kernel hb c m (S i, t, tb) cur1 sizes) as ((s3, o3), f3); reflexivity. }
        exact (IH c (S i) t tb cur1 batch i' t' tb' out fin T L Hb P' Sz' R').
      + destruct (visit_hash k He (del_of c) (length tb - batch) t tb batch _ _ _ _ _ _ _ T ltac:(lia) Ev) as (T1 & L1 & B1 & En & F1 & G1). specialize (P' ltac:(lia)).
        assert (Go : forall o1, o1 = out1 -> (batch1 < length tb1)%nat -> (match run kernel hb c m (S i, t1, tb1) cur1 sizes with (st, out', fin) => (st, o1 ++ out', fin) end) = ((i', t', tb'), out, fin) ->
          if fin then sel k out = w /\ look tb' k = (if del_of c && ((batch <=? hash k)%nat && (hash k <? length tb)%nat) then None else look tb k) else (sel k out = w \/ sel k out = [])).
        { intros o1 Ho Hb1 Rr. destruct (run kernel hb c m (S i, t1, tb1) cur1 sizes) as ((((i3, t3), tb3), o3), f3) eqn:R'. injection Rr as -> -> -> <- <-.
          pose proof (IH c (S i) t1 tb1 cur1 batch1 i' t' tb' o3 f3 T1 ltac:(lia) Hb1 P' Sz' R') as H. cbv zeta in H. rewrite sel_app.
          assert (So : sel k o1 = if ((batch <=? hash k) && (hash k <? batch1))%nat then found (look tb k) k else []).
          { rewrite Ho. exact F1. }
          rewrite So. unfold w. clear w. rewrite G1, L1 in H.
          destruct (Nat.leb_spec batch (hash k)) as [B2|B2]; cbn [andb] in *.
          - destruct (Nat.ltb_spec (hash k) batch1) as [B3|B3].
            + destruct (Nat.leb_spec batch1 (hash k)); [lia|]. cbn [andb] in H. destruct (Nat.ltb_spec (hash k) (length tb)); [|lia]. rewrite andb_true_r in *. destruct f3; [destruct H as (-> & ->); rewrite app_nil_r, andb_false_r; auto|]. left. destruct H as [-> | ->]; now rewrite app_nil_r.
            + destruct (Nat.leb_spec batch1 (hash k)); [|lia]. cbn [andb app] in *. rewrite andb_false_r in H. exact H.
          - destruct (Nat.leb_spec batch1 (hash k)); [lia|]. cbn [andb app] in *. rewrite andb_false_r in *. exact H. }
        destruct e as [[| |x]|].
        * subst r. injection R as <- <- <- <- <-. assert (Eb1 : batch1 = length tb) by (now apply En). rewrite F1, G1, Eb1. subst w. split; reflexivity.
        * destruct Hr as (e' & -> & Ne). assert (Nb : batch1 <> length tb) by (intros C; apply En in C; discriminate C).
          assert (Z1 : out1 = []) by (eapply visit_nospace; exact Ev).
          apply (Go []); [auto|lia|]. destruct e' as [[| |x]| |x| |]; try (now destruct Ne); exact R.
        * exfalso. eapply visit_errs; exact Ev.
        * subst r. assert (Nb : batch1 <> length tb) by (intros C; apply En in C; discriminate C). apply (Go out1); [reflexivity|lia|exact R].
  Qed.
  (** *** Whatever others do *)
  Definition from_to (lo hi : nat) (out : list (key * V)) : Prop := NoDup (map fst out) /\ forall k v, In (k, v) out -> (lo <= hash k < hi)%nat.
  Lemma live_in (b : entries V) k v : In (k, v) (live b) <-> In (k, Some v) b.
  Proof. induction b as [|(y, [w|]) b IH]; cbn [live In]; [tauto| |]; rewrite IH; intuition congruence. Qed.
  Lemma live_nodup (b : entries V) : NoDup (map fst b) -> NoDup (map fst (live b)).
  Proof.
    induction b as [|(y, [w|]) b IH]; cbn [live map fst]; intros N; [constructor| |]; inversion N as [|? ? Ni N']; subst; [|auto]. constructor; [|auto]. intros H. apply Ni. apply in_map_iff in H as ((y', w') & Ey & H). cbn in Ey. subst y'. apply live_in in H. apply in_map_iff. exists (y, Some w'). auto.
  Qed.
  Lemma visit_ok : forall del n t tb batch room any t' tb' out batch' e,
    table_ok hash tb -> length tb = (batch + n)%nat -> hash_visit hash env del n t tb batch room any = (t', tb', out, batch', e) ->
    table_ok hash tb' /\ length tb' = length tb /\ (batch <= batch' <= length tb)%nat /\ (e <> Some ENOENT -> (batch' < length tb)%nat).
  Proof.
    intros del. induction n as [|n IH]; intros t tb batch room any t' tb' out batch' e T L E; cbn [hash_visit] in E.
    - injection E as <- <- <- <- <-. split; [exact T|]. split; [reflexivity|]. split; [lia|congruence].
    - cbv zeta in E. set (tb1 := fold_left (apply hash) (env t) tb) in *. assert (T1 : table_ok hash tb1) by (now apply ok_fold). assert (L1 : length tb1 = length tb) by apply length_fold.
      destruct (Nat.ltb_spec room (length (nth batch tb1 []))) as [Rm|Rm].
      + injection E as <- <- <- <- <-. split; [exact T1|]. split; [exact L1|]. split; lia.
      + match type of E with (match ?x with _ => _ end) = _ => destruct x as ((((t2, tb2), out2), batch2), e2) eqn:Ev end. injection E as <- <- <- <- <-.
        set (tb1' := if del then change tb1 batch (fun _ => []) else tb1) in *.
        assert (T1' : table_ok hash tb1') by (unfold tb1'; destruct del; [now apply ok_clear|exact T1]). assert (L1' : length tb1' = length tb1) by (unfold tb1'; destruct del; [apply length_change|reflexivity]).
        destruct (IH (S t) tb1' (S batch) _ _ _ _ _ _ _ T1' ltac:(lia) Ev) as (A & B & C & D). split; [exact A|]. split; [lia|]. split; [lia|]. intros H; specialize (D H); lia.
  Qed.
  Lemma run_table : forall sizes c i t tb cur batch i' t' tb' out fin,
    table_ok hash tb -> Z.of_nat (length tb) < 2 ^ 32 -> (batch < length tb)%nat -> points cur batch -> Forall (fun n => 0 < n < 2 ^ 32) sizes ->
    run kernel hb c m (i, t, tb) cur sizes = ((i', t', tb'), out, fin) -> table_ok hash tb' /\ length tb' = length tb.
  Proof.
    induction sizes as [|n sizes IH]; intros c i t tb cur batch i' t' tb' out fin T L Hb P Sz R; cbn [run] in R.
    - injection R as <- <- <- <- <-. auto.
    - pose proof (Forall_inv Sz) as Hn. pose proof (Forall_inv_tail Sz) as Sz'. cbv beta in Hn. destruct (batchLookup kernel hb c m (i, t, tb) cur n n) as ((st1, cur1), r) eqn:Eb.
      destruct (one_call c n i t tb cur batch st1 cur1 r P Hn Hb L Eb) as [(e & -> & P' & -> & Ne & Nfail)|(t1 & tb1 & out1 & batch1 & e & Ev & -> & P' & Hr)].
      + assert (R' : run kernel hb c m (S i, t, tb) cur1 sizes = ((i', t', tb'), out, fin)).
        { clear -R Ne. destruct e as [[| |x]| |x| |]; try (now destruct Ne); (etransitivity; [|exact R]); cbv beta iota zeta; destruct (run kernel hb c m (S i, t, tb) cur1 sizes) as ((s3, o3), f3); reflexivity. }
        exact (IH c (S i) t tb cur1 batch i' t' tb' out fin T L Hb P' Sz' R').
      + destruct (visit_ok (del_of c) (length tb - batch) t tb batch _ _ _ _ _ _ _ T ltac:(lia) Ev) as (T1 & L1 & B1 & En). specialize (P' ltac:(lia)).
        assert (Go : forall o1, (batch1 < length tb)%nat -> (match run kernel hb c m (S i, t1, tb1) cur1 sizes with (st, out', fin) => (st, o1 ++ out', fin) end) = ((i', t', tb'), out, fin) -> table_ok hash tb' /\ length tb' = length tb).
        { intros o1 Hb1 Rr. destruct (run kernel hb c m (S i, t1, tb1) cur1 sizes) as ((((i3, t3), tb3), o3), f3) eqn:R'. injection Rr as -> -> -> <- <-.
          destruct (IH c (S i) t1 tb1 cur1 batch1 i' t' tb' o3 f3 T1 ltac:(lia) ltac:(lia) P' Sz' R') as (H1 & H2). split; [exact H1|lia]. }
        destruct e as [[| |x]|].
        * subst r. injection R as <- <- <- <- <-. auto.
        * destruct Hr as (e' & -> & Ne). apply (Go []); [apply En; discriminate|]. destruct e' as [[| |x]| |x| |]; try (now destruct Ne); exact R.
        * destruct Hr as (e' & -> & Ne). apply (Go []); [apply En; discriminate|]. destruct e' as [[| |y]| |y| |]; try (now destruct Ne); exact R.
        * subst r. apply (Go out1); [apply En; discriminate|exact R].
  Qed.
  (** where elements come from: [orig] is closed under what others write *)
  Variable orig : key -> V -> Prop.
  Hypothesis Horig : forall t k v, In (Write k v) (env t) -> orig k v.
  Definition sourced (tb : buckets V) : Prop := forall b, In b tb -> forall k v, In (k, Some v) b -> orig k v.
  Lemma change_in (t : buckets V) : forall i f b, In b (change t i f) -> In b t \/ exists b0, In b0 t /\ b = f b0.
  Proof. induction t as [|x t IH]; intros [|i] f b H; cbn in *; try tauto; destruct H as [H|H]; subst; eauto. destruct (IH i f b H) as [H1|(b0 & H1 & ->)]; eauto. Qed.
  Lemma sourced_fold : forall os t, (forall k v, In (Write k v) os -> orig k v) -> sourced t -> sourced (fold_left (apply hash) os t).
  Proof.
    induction os as [|o os IH]; intros t Ho S; cbn [fold_left]; [exact S|]. apply IH; [intros k v H; apply Ho; now right|]. intros b Hb k v Hk. destruct o as [x w|x]; cbn [apply] in Hb; apply change_in in Hb as [Hb|(b0 & Hb & ->)]; try (now apply (S b Hb)).
    - destruct Hk as [Hk|Hk]; [injection Hk as -> ->; apply Ho; now left|]. apply filter_In in Hk as (Hk & _). now apply (S b0 Hb).
    - apply filter_In in Hk as (Hk & _). now apply (S b0 Hb).
  Qed.
  Lemma visit_any_env : forall del n t tb batch room any t' tb' out batch' e,
    table_ok hash tb -> sourced tb -> length tb = (batch + n)%nat -> hash_visit hash env del n t tb batch room any = (t', tb', out, batch', e) ->
    table_ok hash tb' /\ sourced tb' /\ length tb' = length tb /\ (batch <= batch' <= length tb)%nat /\ (e <> Some ENOENT -> (batch' < length tb)%nat) /\ from_to batch batch' out /\ forall k v, In (k, v) out -> orig k v.
  Proof.
    intros del. induction n as [|n IH]; intros t tb batch room any t' tb' out batch' e T So L E; cbn [hash_visit] in E.
    - injection E as <- <- <- <- <-. split; [exact T|]. split; [exact So|]. split; [reflexivity|]. split; [lia|]. split; [congruence|]. split; [split; [constructor|intros k v []]|intros k v []].
    - cbv zeta in E. set (tb1 := fold_left (apply hash) (env t) tb) in *. assert (T1 : table_ok hash tb1) by (now apply ok_fold). assert (L1 : length tb1 = length tb) by apply length_fold. assert (S1 : sourced tb1) by (apply sourced_fold; [intros k v; apply (Horig t)|exact So]).
      destruct (Nat.ltb_spec room (length (nth batch tb1 []))) as [Rm|Rm].
      + injection E as <- <- <- <- <-. split; [exact T1|]. split; [exact S1|]. split; [exact L1|]. split; [lia|]. split; [lia|]. split; [split; [constructor|intros k v []]|intros k v []].
      + match type of E with (match ?x with _ => _ end) = _ => destruct x as ((((t2, tb2), out2), batch2), e2) eqn:Ev end. injection E as <- <- <- <- <-.
        set (tb1' := if del then change tb1 batch (fun _ => []) else tb1) in *.
        assert (T1' : table_ok hash tb1') by (unfold tb1'; destruct del; [now apply ok_clear|exact T1]). assert (L1' : length tb1' = length tb1) by (unfold tb1'; destruct del; [apply length_change|reflexivity]).
        assert (S1' : sourced tb1') by (unfold tb1'; destruct del; [|exact S1]; intros b Hb k v Hk; apply change_in in Hb as [Hb|(b0 & Hb & ->)]; [now apply (S1 b Hb)|destruct Hk]).
        destruct (IH (S t) tb1' (S batch) _ _ _ _ _ _ _ T1' S1' ltac:(lia) Ev) as (A & A2 & B & C & D & (F1 & F2) & G). split; [exact A|]. split; [exact A2|]. split; [lia|]. split; [lia|]. split; [intros H; specialize (D H); lia|].
        destruct (ok_nth tb1 batch T1) as (Nd & Hh). split; [split|].
        * rewrite map_app. apply nodup_app; [now apply live_nodup|exact F1|]. intros k H1 H2. apply in_map_iff in H1 as ((k1, v1) & <- & H1). apply in_map_iff in H2 as ((k2, v2) & Ek & H2). cbn [fst] in *. subst k2. apply live_in in H1. specialize (F2 _ _ H2). assert (hash k1 = batch) by (apply Hh; apply in_map_iff; exists (k1, Some v1); auto). lia.
        * intros k v H. apply in_app_or in H as [H|H]; [|specialize (F2 _ _ H); lia]. apply live_in in H. assert (hash k = batch) by (apply Hh; apply in_map_iff; exists (k, Some v); auto). lia.
        * intros k v H. apply in_app_or in H as [H|H]; [|now apply G]. apply live_in in H. refine (S1 (nth batch tb1 []) _ k v H). apply nth_In. lia.
  Qed.
  Lemma from_to_app lo mid hi a b : from_to lo mid a -> from_to mid hi b -> (lo <= mid <= hi)%nat -> from_to lo hi (a ++ b).
  Proof.
    intros (Na & Ha) (Nb & Hb) L. split.
    - rewrite map_app. apply nodup_app; auto. intros k H1 H2. apply in_map_iff in H1 as ((k1, v1) & <- & H1). apply in_map_iff in H2 as ((k2, v2) & Ek & H2). cbn [fst] in *. subst k2. specialize (Ha _ _ H1). specialize (Hb _ _ H2). lia.
    - intros k v H. apply in_app_or in H as [H|H]; [specialize (Ha _ _ H)|specialize (Hb _ _ H)]; lia.
  Qed.
  Lemma run_any_env : forall sizes c i t tb cur batch i' t' tb' out fin,
    table_ok hash tb -> sourced tb -> Z.of_nat (length tb) < 2 ^ 32 -> (batch < length tb)%nat -> points cur batch -> Forall (fun n => 0 < n < 2 ^ 32) sizes ->
    run kernel hb c m (i, t, tb) cur sizes = ((i', t', tb'), out, fin) -> from_to batch (length tb) out /\ forall k v, In (k, v) out -> orig k v.
  Proof.
    induction sizes as [|n sizes IH]; intros c i t tb cur batch i' t' tb' out fin T So L Hb P Sz R; cbn [run] in R.
    - injection R as <- <- <- <- <-. split; [split; [constructor|intros k v []]|intros k v []].
    - pose proof (Forall_inv Sz) as Hn. pose proof (Forall_inv_tail Sz) as Sz'. cbv beta in Hn. destruct (batchLookup kernel hb c m (i, t, tb) cur n n) as ((st1, cur1), r) eqn:Eb.
      destruct (one_call c n i t tb cur batch st1 cur1 r P Hn Hb L Eb) as [(e & -> & P' & -> & Ne & Nfail)|(t1 & tb1 & out1 & batch1 & e & Ev & -> & P' & Hr)].
      + assert (R' : run kernel hb c m (S i, t, tb) cur1 sizes = ((i', t', tb'), out, fin)).
        { clear -R Ne. destruct e as [[| |x]| |x| |]; try (now destruct Ne); (etransitivity; [|exact R]); cbv beta iota zeta; destruct (run kernel hb c m (S i, t, tb) cur1 sizes) as ((s3, o3), f3); reflexivity. }
        exact (IH c (S i) t tb cur1 batch i' t' tb' out fin T So L Hb P' Sz' R').
      + destruct (visit_any_env (del_of c) (length tb - batch) t tb batch _ _ _ _ _ _ _ T So ltac:(lia) Ev) as (T1 & S1 & L1 & B1 & En & F1 & G1). specialize (P' ltac:(lia)).
        assert (Go : forall o1, (o1 = out1 \/ o1 = []) -> (batch1 < length tb)%nat -> (match run kernel hb c m (S i, t1, tb1) cur1 sizes with (st, out', fin) => (st, o1 ++ out', fin) end) = ((i', t', tb'), out, fin) ->
          from_to batch (length tb) out /\ forall k v, In (k, v) out -> orig k v).
        { intros o1 Ho Hb1 Rr. destruct (run kernel hb c m (S i, t1, tb1) cur1 sizes) as ((((i3, t3), tb3), o3), f3) eqn:R'. injection Rr as -> -> -> <- <-.
          destruct (IH c (S i) t1 tb1 cur1 batch1 i' t' tb' o3 f3 T1 S1 ltac:(lia) ltac:(lia) P' Sz' R') as (H1 & H2). rewrite L1 in H1. assert (F1' : from_to batch batch1 o1) by (destruct Ho as [->| ->]; [exact F1|split; [constructor|intros k v []]]).
          split; [eapply from_to_app; [exact F1'|exact H1|lia]|]. intros k v H. apply in_app_or in H as [H|H]; [|now apply H2]. destruct Ho as [->| ->]; [now apply G1|destruct H]. }
        destruct e as [[| |x]|].
        * subst r. injection R as <- <- <- <- <-. split; [|exact G1]. destruct F1 as (F1 & F2). split; [exact F1|]. intros k v H. specialize (F2 _ _ H). lia.
        * destruct Hr as (e' & -> & Ne). apply (Go []); [auto|apply En; discriminate|]. destruct e' as [[| |x]| |x| |]; try (now destruct Ne); exact R.
        * destruct Hr as (e' & -> & Ne). apply (Go []); [auto|apply En; discriminate|]. destruct e' as [[| |y]| |y| |]; try (now destruct Ne); exact R.
        * subst r. apply (Go out1); [auto|apply En; discriminate|exact R].
  Qed.
End HashTable.

(** Hash tables, with calls of any sizes, some of which fail or are too small, while others write and delete entries between
    any two accesses to buckets: nothing is returned twice, and everything returned was in the table at the beginning or
    was written since. *)
Theorem C64_hash_once : forall (V : Type) (hash : key -> nat) (env : nat -> list (op V)) bo fail haveBatchAPI m c (t0 : buckets V) sizes st out fin,
  table_ok hash t0 -> (0 < length t0)%nat -> Z.of_nat (length t0) < 2 ^ 32 -> Forall (fun n => 0 < n < 2 ^ 32) sizes ->
  run (hash_batch hash env bo fail) haveBatchAPI c m (0%nat, 0%nat, t0) None sizes = (st, out, fin) ->
  NoDup (map fst out) /\ forall k v, In (k, v) out -> In (k, Some v) (flat t0) \/ exists t, In (Write k v) (env t).
Proof.
  intros V hash env bo fail hb m c t0 sizes ((i', t'), tb') out fin T L0 L Sz R.
  destruct (run_any_env hash env bo fail hb m (fun k v => In (k, Some v) (flat t0) \/ exists t, In (Write k v) (env t)) (fun t k v H => or_intror (ex_intro _ t H)) sizes c 0%nat 0%nat t0 None 0%nat i' t' tb' out fin T) as ((H1 & _) & H2); auto; [|reflexivity].
  intros b Hb k v H. left. unfold flat. apply in_concat. eauto.
Qed.
Print Assumptions C64_hash_once.
(** An entry which nobody else touches is returned exactly once if ErrKeyNotExist is reached; BatchLookupAndDelete removes it. *)
Theorem C64_hash_complete : forall (V : Type) (hash : key -> nat) (env : nat -> list (op V)) bo fail haveBatchAPI m c (t0 : buckets V) sizes i t tb out k v,
  table_ok hash t0 -> Z.of_nat (length t0) < 2 ^ 32 -> Forall (fun n => 0 < n < 2 ^ 32) sizes ->
  find (flat t0) k = Some (Some v) -> (forall t o, In o (env t) -> touches o <> k) ->
  run (hash_batch hash env bo fail) haveBatchAPI c m (0%nat, 0%nat, t0) None sizes = ((i, t, tb), out, true) ->
  filter (fun e => if key_dec (fst e) k then true else false) out = [(k, v)] /\
  find (flat tb) k = match c with LookupBatch => Some (Some v) | LookupAndDeleteBatch => None end.
Proof.
  intros V hash env bo fail hb m c t0 sizes i t tb out k v T L Sz F He R. destruct (flat_has hash t0 k T (find_has _ _ _ F)) as (b & Eb & Hb). assert (Lk : (hash k < length t0)%nat) by (apply nth_error_Some; congruence).
  assert (Lo : look hash t0 k = Some (Some v)) by (unfold look; rewrite (nth_error_nth t0 _ [] Eb), <- (find_flat hash t0 k b T Eb); exact F).
  pose proof (run_hash hash env bo fail hb m k He sizes c 0%nat 0%nat t0 None 0%nat i t tb out true T L ltac:(lia) eq_refl Sz R) as H. cbv zeta in H. destruct (Nat.leb_spec 0 (hash k)); [|lia]. destruct (Nat.ltb_spec (hash k) (length t0)); [|lia]. cbn [andb] in H. rewrite andb_true_r, Lo in H. destruct H as (S1 & S2). split; [exact S1|].
  assert (Tb : table_ok hash tb /\ length tb = length t0).
  { exact (run_table hash env bo fail hb m sizes c 0%nat 0%nat t0 None 0%nat i t tb out true T L (Nat.le_lt_trans 0 _ _ (Nat.le_0_l _) Lk) eq_refl Sz R). }
  destruct Tb as (Tb & Lb). destruct (nth_error tb (hash k)) as [b'|] eqn:Eb'; [|apply nth_error_None in Eb'; lia]. rewrite (find_flat hash tb k b' Tb Eb'). unfold look in S2. rewrite (nth_error_nth tb _ [] Eb') in S2. rewrite S2. destruct c; reflexivity.
Qed.
Print Assumptions C64_hash_complete.

(** *** Nobody else changes the table *)
Section Alone.
  Context {V : Type}.
  Variable hash : key -> nat.
  Variables (bo : byteorder) (fail : nat -> option Z) (hb : option Z) (m : bmap) (c : cmd).
  Notation nobody := (fun _ : nat => @nil (op V)).
  Notation kernel := (hash_batch hash nobody bo fail).
  (** the buckets up to [i] are empty if they are deleted *)
  Definition after (t0 : buckets V) (i : nat) : buckets V := if del_of c then repeat [] i ++ skipn i t0 else t0.
  Lemma after_length t0 i : (i <= length t0)%nat -> length (after t0 i) = length t0.
  Proof. intros H. unfold after. destruct (del_of c); [|reflexivity]. rewrite app_length, repeat_length, skipn_length. lia. Qed.
  Lemma after_nth t0 i : (i <= length t0)%nat -> nth i (after t0 i) [] = nth i t0 [].
  Proof.
    intros H. unfold after. destruct (del_of c); [|reflexivity]. rewrite app_nth2; rewrite repeat_length; [|lia]. rewrite Nat.sub_diag. destruct (nth_error t0 i) as [b|] eqn:E.
    - rewrite (nth_error_nth t0 i [] E). apply nth_error_nth. rewrite nth_error_skipn, Nat.add_0_r. exact E.
    - apply nth_error_None in E. rewrite skipn_all2 by lia. rewrite (nth_overflow t0) by lia; reflexivity.
  Qed.
  Lemma after_change t0 i : (i < length t0)%nat -> (if del_of c then change (after t0 i) i (fun _ => []) else after t0 i) = after t0 (S i).
  Proof.
    intros H. unfold after. destruct (del_of c); [|reflexivity]. revert t0 H. induction i as [|i IH]; intros [|b t0] H; cbn in H; try lia; [reflexivity|]. cbn [repeat app skipn change]. f_equal. apply IH. lia.
  Qed.
  Lemma skipn_nth (t0 : buckets V) : forall i, (i < length t0)%nat -> skipn i t0 = nth i t0 [] :: skipn (S i) t0.
  Proof. induction t0 as [|b t0 IH]; intros [|i] H; cbn in H; try lia; [reflexivity|]. cbn [skipn nth]. apply IH. lia. Qed.
  Lemma visit_alone t0 : forall n t batch room any t' tb' out batch' e, length t0 = (batch + n)%nat ->
    hash_visit hash nobody (del_of c) n t (after t0 batch) batch room any = (t', tb', out, batch', e) ->
    tb' = after t0 batch' /\ (batch <= batch' <= length t0)%nat /\ live (concat (skipn batch t0)) = out ++ live (concat (skipn batch' t0)) /\
    ((0 < n)%nat -> (length (nth batch t0 []) <= room)%nat -> (batch < batch')%nat) /\ (e = Some ENOENT <-> batch' = length t0) /\ (e = Some ENOSPC -> out = []).
  Proof.
    induction n as [|n IH]; intros t batch room any t' tb' out batch' e L E; cbn [hash_visit fold_left] in E.
    - injection E as <- <- <- <- <-. split; [reflexivity|]. split; [lia|]. split; [reflexivity|]. split; [lia|]. split; [split; [lia|reflexivity]|discriminate].
    - cbv zeta in E. rewrite after_nth in E by lia. destruct (Nat.ltb_spec room (length (nth batch t0 []))) as [Rm|Rm].
      + injection E as <- <- <- <- <-. split; [reflexivity|]. split; [lia|]. split; [reflexivity|]. split; [lia|]. split; [split; [destruct any; discriminate|lia]|reflexivity].
      + rewrite after_change in E by lia. match type of E with (match ?x with _ => _ end) = _ => destruct x as ((((t2, tb2), out2), batch2), e2) eqn:Ev end. injection E as <- <- <- <- <-.
        destruct (IH (S t) (S batch) _ _ _ _ _ _ _ ltac:(lia) Ev) as (A & B & C & D & F & G). split; [exact A|]. split; [lia|]. split; [rewrite (skipn_nth t0 batch) by lia; cbn [concat]; rewrite live_app, C, app_assoc; reflexivity|]. split; [lia|]. split; [exact F|].
        intros ->. destruct (any || negb (length (nth batch t0 []) =? 0)%nat) eqn:Ea.
        * exfalso. exact (visit_any hash nobody _ _ _ _ _ _ _ _ _ _ _ Ev eq_refl).
        * rewrite (G eq_refl). apply orb_false_iff in Ea as (_ & Ea). apply negb_false_iff, Nat.eqb_eq, length_zero_iff_nil in Ea. now rewrite Ea.
  Qed.
  Lemma run_alone t0 : Z.of_nat (length t0) < 2 ^ 32 -> forall sizes i t cur batch i' t' tb' out fin, (batch < length t0)%nat -> points bo m cur batch -> Forall (fun n => 0 < n < 2 ^ 32) sizes ->
    run kernel hb c m (i, t, after t0 batch) cur sizes = ((i', t', tb'), out, fin) ->
    exists more, live (concat (skipn batch t0)) = out ++ more /\ (fin = true -> more = [] /\ tb' = after t0 (length t0)) /\
      ((forall j, fail j = None) -> Forall (fun n => forall b, In b t0 -> Z.of_nat (length b) <= n) sizes -> (length t0 - batch <= length sizes)%nat -> fin = true).
  Proof.
    intros L. induction sizes as [|n sizes IH]; intros i t cur batch i' t' tb' out fin Hb P Sz R; cbn [run] in R.
    - injection R as <- <- <- <- <-. exists (live (concat (skipn batch t0))). split; [reflexivity|]. split; [discriminate|]. cbn. lia.
    - pose proof (Forall_inv Sz) as Hn. pose proof (Forall_inv_tail Sz) as Sz'. cbv beta in Hn. pose proof (after_length t0 batch ltac:(lia)) as La.
      destruct (batchLookup kernel hb c m (i, t, after t0 batch) cur n n) as ((st1, cur1), r) eqn:Eb.
      destruct (one_call hash nobody bo fail hb m c n i t (after t0 batch) cur batch st1 cur1 r P Hn ltac:(lia) ltac:(lia) Eb) as [(e & -> & P' & -> & Ne & Nfail)|(t1 & tb1 & out1 & batch1 & e & Ev & -> & P' & Hr)].
      + assert (R' : run kernel hb c m (S i, t, after t0 batch) cur1 sizes = ((i', t', tb'), out, fin)).
        { clear -R Ne. destruct e as [[| |x]| |x| |]; try (now destruct Ne); (etransitivity; [|exact R]); cbv beta iota zeta; destruct (run kernel hb c m (S i, t, after t0 batch) cur1 sizes) as ((s3, o3), f3); reflexivity. }
        destruct (IH (S i) t cur1 batch i' t' tb' out fin Hb P' Sz' R') as (more & H1 & H2 & H3). exists more. split; [exact H1|]. split; [exact H2|]. intros Nf. destruct (Nfail (Nf i)).
      + rewrite La in Ev. destruct (visit_alone t0 (length t0 - batch) t batch _ _ _ _ _ _ _ ltac:(lia) Ev) as (-> & B1 & C1 & D1 & E1 & F1). specialize (P' ltac:(lia)).
        assert (Go : forall o1, o1 = out1 -> (batch1 < length t0)%nat -> (match run kernel hb c m (S i, t1, after t0 batch1) cur1 sizes with (st, out', fin) => (st, o1 ++ out', fin) end) = ((i', t', tb'), out, fin) ->
          exists more, live (concat (skipn batch t0)) = out ++ more /\ (fin = true -> more = [] /\ tb' = after t0 (length t0)) /\
          ((forall j, fail j = None) -> Forall (fun n => forall b, In b t0 -> Z.of_nat (length b) <= n) (n :: sizes) -> (length t0 - batch <= length (n :: sizes))%nat -> fin = true)).
        { intros o1 -> Hb1 Rr. destruct (run kernel hb c m (S i, t1, after t0 batch1) cur1 sizes) as ((((i3, t3), tb3), o3), f3) eqn:R'. injection Rr as -> -> -> <- <-.
          destruct (IH (S i) t1 cur1 batch1 i' t' tb' o3 f3 Hb1 P' Sz' R') as (more & H1 & H2 & H3). exists more. rewrite C1, H1, app_assoc. split; [reflexivity|]. split; [exact H2|]. intros Nf Fa Ln. apply H3; [exact Nf|exact (Forall_inv_tail Fa)|].
          pose proof (Forall_inv Fa (nth batch t0 []) (nth_In t0 [] Hb)) as Rm. cbn [length] in Ln. specialize (D1 ltac:(lia) ltac:(lia)). lia. }
        destruct e as [[| |x]|].
        * subst r. injection R as <- <- <- <- <-. assert (Eb1 : batch1 = length t0) by (now apply E1). subst batch1. rewrite C1, skipn_all. exists []. split; [reflexivity|]. auto.
        * destruct Hr as (e' & -> & Ne). apply (Go []); [symmetry; now apply F1|assert (batch1 <> length t0) by (intros X; apply E1 in X; discriminate X); lia|]. destruct e' as [[| |x]| |x| |]; try (now destruct Ne); exact R.
        * exfalso. eapply visit_errs; exact Ev.
        * subst r. apply (Go out1); [reflexivity|assert (batch1 <> length t0) by (intros X; apply E1 in X; discriminate X); lia|exact R].
  Qed.
End Alone.

(** If nobody else changes the hash table: what was collected is the beginning of the table; with ErrKeyNotExist it is all
    of it, and BatchLookupAndDelete has emptied the table, BatchLookup not changed it.  If no call fails and no slice is smaller
    than a bucket, ErrKeyNotExist is reached within as many calls as there are buckets. *)
Theorem C64_hash_alone : forall (V : Type) (hash : key -> nat) bo fail haveBatchAPI m c (t0 : buckets V) sizes i t tb out fin,
  (0 < length t0)%nat -> Z.of_nat (length t0) < 2 ^ 32 -> Forall (fun n => 0 < n < 2 ^ 32) sizes ->
  run (hash_batch hash (fun _ => []) bo fail) haveBatchAPI c m (0%nat, 0%nat, t0) None sizes = ((i, t, tb), out, fin) ->
  (exists more, live (flat t0) = out ++ more) /\
  (fin = true -> out = live (flat t0) /\ match c with LookupBatch => tb = t0 | LookupAndDeleteBatch => flat tb = [] end) /\
  ((forall j, fail j = None) -> (forall n b, In n sizes -> In b t0 -> Z.of_nat (length b) <= n) -> (length t0 <= length sizes)%nat -> fin = true).
Proof.
  intros V hash bo fail hb m c t0 sizes i t tb out fin L0 L Sz R.
  assert (E0 : after c t0 0 = t0) by (unfold after; destruct c; reflexivity).
  destruct (run_alone hash bo fail hb m c t0 L sizes 0%nat 0%nat None 0%nat i t tb out fin L0 eq_refl Sz ltac:(rewrite E0; exact R)) as (more & H1 & H2 & H3). cbn [skipn] in H1. fold (flat t0) in H1.
  split; [eauto|]. split.
  - intros F. destruct (H2 F) as (-> & ->). rewrite app_nil_r in H1. split; [auto|]. unfold after. destruct c; cbn [del_of]; [reflexivity|]. rewrite skipn_all, app_nil_r. unfold flat. clear. induction (length t0) as [|n IH]; cbn; auto.
  - intros Nf Fb Ln. apply H3; [exact Nf| |lia]. apply Forall_forall. intros n Hn b Hb. now apply Fb.
Qed.
Print Assumptions C64_hash_alone.

(** ** What isn't guaranteed *)
(** A first call with empty slices returns no error, but makes the next one skip the first element of an array. *)
Theorem C64_refuted_empty : exists (l : entries Z) m st out, live l = [([0; 0; 0; 0], 10); ([1; 0; 0; 0], 11)] /\
  run (generic_batch 4 l (fun _ => None)) None LookupBatch m 0%nat None [0; 5] = (st, out, true) /\ out = [([1; 0; 0; 0], 11)].
Proof. exists [([0; 0; 0; 0], Some 10); ([1; 0; 0; 0], Some 11)], (mkMap 1 3 4 8). do 2 eexists. split; [reflexivity|]. split; [vm_compute; reflexivity|reflexivity]. Qed.
Print Assumptions C64_refuted_empty.
(** Neither may the first call fail: trying again skips the first element of an array. *)
Theorem C64_refuted_retry : exists (l : entries Z) m st out, live l = [([0; 0; 0; 0], 10); ([1; 0; 0; 0], 11)] /\
  run (generic_batch 4 l (fun i => match i with O => Some 12 | _ => None end)) None LookupBatch m 0%nat None [5; 5] = (st, out, true) /\ out = [([1; 0; 0; 0], 11)].
Proof. exists [([0; 0; 0; 0], Some 10); ([1; 0; 0; 0], Some 11)], (mkMap 1 3 4 8). do 2 eexists. split; [reflexivity|]. split; [vm_compute; reflexivity|reflexivity]. Qed.
Print Assumptions C64_refuted_retry.

(** Examples: an array with chunks of two; a hash table with a call which is too small and one which fails. *)
Example C64_example_array :
  let l := [([0; 0; 0; 0], Some 10); ([1; 0; 0; 0], None); ([2; 0; 0; 0], Some 12); ([3; 0; 0; 0], Some 13)] in
  run (generic_batch 4 l (fun _ => None)) None LookupBatch (mkMap 1 3 4 8) 0%nat None [2; 2] = (2%nat, live l, true) /\ NoDup (map fst l).
Proof. split; [vm_compute; reflexivity|]. repeat constructor; cbn; intuition discriminate. Qed.
Example C64_example_hash :
  let t0 := [[([1], Some 10)]; []; [([2], Some 20); ([3], Some 30)]] in
  let hash := fun k => match k with [1] => 0%nat | _ => 2%nat end in
  let env := fun t => match t with 1%nat => [Write [4] 40; Delete [1]] | _ => [] end in
  table_ok hash t0 /\ exists st, run (hash_batch hash env LE (fun i => match i with 1%nat => Some 12 | _ => None end)) None LookupAndDeleteBatch (mkMap 1 3 1 8) (0%nat, 0%nat, t0) None [1; 7; 2; 3] = (st, [([1], 10); ([4], 40); ([2], 20); ([3], 30)], true).
Proof.
  cbv zeta. split; [|eexists; vm_compute; reflexivity]. intros [|[|[|[|i]]]] b E; try discriminate E; injection E as <-; (split; [repeat constructor; cbn; intuition discriminate|]); intros k Hk; repeat (destruct Hk as [<-|Hk]; [reflexivity|]); destruct Hk.
Qed.

(** ** C65: the cursor and memory *)
(** the system calls made by a program which uses one cursor for any maps, in any way *)
Fixpoint calls {V St} (kernel : St -> attr -> St * reply V) hb (st : St) (cur : cursor) (use : list (cmd * bmap * Z * Z)) : list (bmap * attr) :=
  match use with
  | [] => []
  | (c, m, nk, nv) :: use' =>
      match batchLookup (fun (s : St * list attr) a => let (s', r) := kernel (fst s) a in ((s', a :: snd s), r)) hb c m (st, []) cur nk nv with
      | ((st', log), cur', _) => map (fun a => (m, a)) log ++ calls kernel hb st' cur' use'
      end
  end.
(** the buffers of a call are large enough for the kernel, which writes as many elements as Count says, and a cursor of either a
    key or 4 bytes *)
Definition large_enough (m : bmap) (a : attr) : Prop :=
  a_fd a = m_fd m /\ a_count a * m_keySize m <= a_keysLen a /\ a_count a * m_fullValueSize m <= a_valuesLen a /\
  m_keySize m <= Z.of_nat (a_outLen a) /\ 4 <= Z.of_nat (a_outLen a) /\
  match a_in a with None => True | Some b => m_keySize m <= Z.of_nat (length b) /\ 4 <= Z.of_nat (length b) end.

Section Memory.
  Context {V St : Type}.
  Variable kernel : St -> attr -> St * reply V.
  Variable hb : option Z.
  Variable maps : list bmap.
  Hypothesis Hid : forall m m', In m maps -> In m' maps -> m_ptr m = m_ptr m' -> m = m'.
  Hypothesis Hsz : forall m, In m maps -> 0 <= m_keySize m /\ 0 <= m_fullValueSize m.
  (** the kernel writes a key or 4 bytes at most *)
  Hypothesis Hwr : forall m s a, In m maps -> a_fd a = m_fd m -> Z.of_nat (length (r_out (snd (kernel s a)))) <= Z.max (m_keySize m) 4.

  Definition bound (cur : cursor) (owner : option bmap) : Prop :=
    match cur, owner with
    | None, None => True
    | Some (p, o), Some m => In m maps /\ p = m_ptr m /\ length o = cursorLen m
    | _, _ => False
    end.
  Notation logged := (fun (s : St * list attr) a => let (s', r) := kernel (fst s) a in ((s', a :: snd s), r)).
  Lemma call_memory c m st cur owner nk nv st' log cur' r : In m maps -> 0 <= nk -> bound cur owner -> batchLookup logged hb c m (st, []) cur nk nv = ((st', log), cur', r) ->
    Forall (large_enough m) log /\ (log <> [] -> bound cur' (Some m) /\ (owner = None \/ owner = Some m)) /\ (log = [] -> cur' = cur).
  Proof.
    intros Hm Hn B E. unfold batchLookup in E. destruct (negb (nk =? nv)); [injection E as <- <- <- <-; split; [constructor|]; split; congruence|]. unfold batchLookupCmd in E.
    assert (U : 0 <= u32 nk <= nk) by (unfold u32, wrapu; split; [apply Z.mod_pos_bound; lia|apply Z.mod_le; lia]). destruct (Hsz m Hm) as (S1 & S2).
    assert (Go : forall inb opaque, length opaque = cursorLen m -> (match inb with None => True | Some b => length b = cursorLen m end) ->
      (let a := mkAttr c (m_fd m) (u32 nk) (nk * m_keySize m) (nk * m_fullValueSize m) inb (length opaque) in
       let (st2, rp) := logged (st, []) a in
       match (match r_err rp with
         | Some ENOENT => (st2, Some (m_ptr m, overwrite opaque (r_out rp)), (r_count rp, Some (BSys ENOENT), r_elems rp))
         | Some e => (st2, Some (m_ptr m, overwrite opaque (r_out rp)), (0, Some (match hb with Some f => BNoBatchAPI f | None => BSys e end), []))
         | None => (st2, Some (m_ptr m, overwrite opaque (r_out rp)), (r_count rp, None, r_elems rp)) end) with
       | (st2, cur2, (n0, err, out0)) => match err with None | Some (BSys ENOENT) => (st2, cur2, (n0, err, out0)) | Some (BSys ENOSPC) => (st2, cur2, (n0, Some BTooSmall, out0)) | Some e => (st2, cur2, (0, Some e, out0)) end end) = ((st', log), cur', r) ->
      Forall (large_enough m) log /\ log <> [] /\ bound cur' (Some m)).
    { intros inb opaque Lo Li G. cbv zeta in G. cbn [fst snd] in G. set (a := mkAttr c (m_fd m) (u32 nk) (nk * m_keySize m) (nk * m_fullValueSize m) inb (length opaque)) in *.
      pose proof (Hwr m st a Hm eq_refl) as W. destruct (kernel st a) as (st2, rp). cbn [snd] in W.
      assert (Bd : bound (Some (m_ptr m, overwrite opaque (r_out rp))) (Some m)).
      { split; [exact Hm|]. split; [reflexivity|]. unfold overwrite. rewrite app_length, skipn_length, Lo. unfold cursorLen in *. lia. }
      assert (La : large_enough m a).
      { unfold large_enough, a. cbn [a_fd a_count a_keysLen a_valuesLen a_outLen a_in]. rewrite Lo. unfold cursorLen in *. split; [reflexivity|]. split; [nia|]. split; [nia|]. split; [lia|]. split; [lia|]. destruct inb as [b|]; [lia|exact I]. }
      assert (Fin : log = [a] /\ cur' = Some (m_ptr m, overwrite opaque (r_out rp))).
      { destruct (r_err rp) as [[| |x]|]; [|destruct hb|destruct hb|]; injection G as <- <- <- <-; auto. }
      destruct Fin as (-> & ->). split; [constructor; [exact La|constructor]|]. split; [discriminate|exact Bd]. }
    destruct cur as [(p, o)|].
    - destruct owner as [mo|]; [|destruct B]. destruct B as (Hmo & -> & Lo). destruct (Z.eqb_spec (m_ptr mo) (m_ptr m)) as [Ep|Ep].
      + pose proof (Hid mo m Hmo Hm Ep) as ->. destruct (Go (Some o) o Lo Lo ltac:(rewrite <- E; cbn [fst snd]; match goal with |- context [kernel ?s ?a] => destruct (kernel s a) as (?, ?) end; reflexivity)) as (A & B & C). split; [exact A|]. split; [auto|intros X; contradiction].
      + injection E as <- <- <- <-. split; [constructor|]. split; [congruence|auto].
    - destruct owner as [mo|]; [destruct B|]. destruct (Go None (repeat 0 (cursorLen m)) (repeat_length _ _) I ltac:(rewrite <- E; cbn [fst snd]; match goal with |- context [kernel ?s ?a] => destruct (kernel s a) as (?, ?) end; reflexivity)) as (A & B' & C). split; [exact A|]. split; [auto|intros X; contradiction].
  Qed.
  Lemma calls_memory : forall use st cur owner, bound cur owner -> (forall c m nk nv, In (c, m, nk, nv) use -> In m maps /\ 0 <= nk) ->
    Forall (fun ma => large_enough (fst ma) (snd ma)) (calls kernel hb st cur use) /\
    (forall m a, In (m, a) (calls kernel hb st cur use) -> match owner with Some mo => m = mo | None => exists a0 r, calls kernel hb st cur use = (m, a0) :: r end).
  Proof.
    induction use as [|(((c, m), nk), nv) use IH]; intros st cur owner B Hu; cbn [calls]; [split; [constructor|intros m a []]|].
    destruct (Hu c m nk nv (or_introl eq_refl)) as (Hm & Hn). destruct (batchLookup logged hb c m (st, []) cur nk nv) as (((st', log), cur'), r) eqn:E.
    destruct (call_memory c m st cur owner nk nv st' log cur' r Hm Hn B E) as (F & G & H).
    assert (Hu' : forall c m nk nv, In (c, m, nk, nv) use -> In m maps /\ 0 <= nk) by (intros; eapply Hu; right; eauto).
    destruct log as [|a0 log].
    - rewrite (H eq_refl) in *. cbn [map app]. exact (IH st' cur owner B Hu').
    - destruct (G ltac:(discriminate)) as (B' & Ho). destruct (IH st' cur' (Some m) B' Hu') as (I1 & I2). split.
      + apply Forall_app. split; [|exact I1]. apply Forall_forall. intros (m1, a1) H1. apply in_map_iff in H1 as (a2 & E2 & H1). injection E2 as <- <-. cbn [fst snd]. rewrite Forall_forall in F. now apply F.
      + assert (One : forall m1 a1, In (m1, a1) (map (fun a => (m, a)) (a0 :: log) ++ calls kernel hb st' cur' use) -> m1 = m).
        { intros m1 a1 H1. apply in_app_or in H1 as [H1|H1]; [apply in_map_iff in H1 as (a2 & E2 & _); now injection E2|exact (I2 m1 a1 H1)]. }
        intros m1 a1 H1. pose proof (One m1 a1 H1) as ->. destruct owner as [mo|]; [destruct Ho as [Ho|Ho]; congruence|]. cbn [map app]. eauto.
  Qed.
End Memory.

(** However a program uses a cursor, with any maps and slices: every system call gets buffers which are large enough, and all
    of them are for the map with which the cursor was used first. *)
Theorem C65_memory : forall (V St : Type) (kernel : St -> attr -> St * reply V) haveBatchAPI (maps : list bmap) st use,
  (forall m m', In m maps -> In m' maps -> m_ptr m = m_ptr m' -> m = m') -> (forall m, In m maps -> 0 <= m_keySize m /\ 0 <= m_fullValueSize m) ->
  (forall m s a, In m maps -> a_fd a = m_fd m -> Z.of_nat (length (r_out (snd (kernel s a)))) <= Z.max (m_keySize m) 4) ->
  (forall c m nk nv, In (c, m, nk, nv) use -> In m maps /\ 0 <= nk) ->
  Forall (fun ma => large_enough (fst ma) (snd ma)) (calls kernel haveBatchAPI st None use) /\
  forall m a m' a', In (m, a) (calls kernel haveBatchAPI st None use) -> In (m', a') (calls kernel haveBatchAPI st None use) -> m = m'.
Proof.
  intros V St kernel hb maps st use Hid Hsz Hwr Hu. destruct (calls_memory kernel hb maps Hid Hsz Hwr use st None None I Hu) as (A & B). split; [exact A|].
  intros m a m' a' H1 H2. destruct (B m a H1) as (a0 & r & E1). destruct (B m' a' H2) as (a1 & r1 & E2). congruence.
Qed.
Print Assumptions C65_memory.
(** Using a cursor with another map is an error; the kernel isn't asked, and the cursor stays usable. *)
Theorem C65_other_map : forall (V St : Type) (kernel : St -> attr -> St * reply V) haveBatchAPI c m m' st st1 cur1 r n n',
  m_ptr m <> m_ptr m' -> batchLookup kernel haveBatchAPI c m st None n n = (st1, cur1, r) ->
  batchLookup kernel haveBatchAPI c m' st1 cur1 n' n' = (st1, cur1, (0, Some BReused, [])).
Proof.
  intros V St kernel hb c m m' st st1 cur1 r n n' Ne E. unfold batchLookup in E. rewrite Z.eqb_refl in E. cbn [negb] in E. unfold batchLookupCmd in E. match type of E with context [kernel st ?a] => destruct (kernel st a) as (st2, rp) end.
  assert (Ec : exists o, cur1 = Some (m_ptr m, o)) by (destruct (r_err rp) as [[| |x]|]; [|destruct hb|destruct hb|]; injection E as <- <- <-; eauto).
  destruct Ec as (o & ->). unfold batchLookup. rewrite Z.eqb_refl. cbn [negb]. unfold batchLookupCmd. destruct (Z.eqb_spec (m_ptr m) (m_ptr m')); [contradiction|reflexivity].
Qed.
Print Assumptions C65_other_map.
(** The kernels of C64 write no more than a key or 4 bytes. *)
Lemma C65_kernels : forall (V : Type) (l : entries V) fail keySize i a, (forall k, has l k -> length k = keySize) -> Z.of_nat (length (r_out (snd (generic_batch keySize l fail i a)))) <= Z.max (Z.of_nat keySize) 4.
Proof.
  intros V l fail keySize i a Hl. unfold generic_batch. cbn [snd]. destruct (fail i); [cbn; lia|]. destruct (a_count a =? 0); [cbn; lia|].
  set (from := match a_in a with None => l | Some b => match rest l (firstn keySize b) with Some r => r | None => l end end).
  assert (Sub : forall k, has from k -> has l k).
  { intros k H. unfold from in H. destruct (a_in a) as [b|]; [|exact H]. pose proof (rest_spec l (firstn keySize b)) as Rs. destruct (rest l (firstn keySize b)) as [r|]; [|exact H]. destruct Rs as (a0 & w & ->). unfold has. rewrite map_app. apply in_or_app. right. right. exact H. }
  destruct (visit from (Z.to_nat (a_count a))) as ((out, lst), e) eqn:Ev. destruct (visit_spec _ _ _ _ _ Ev) as (p & q & Ef & -> & -> & _). cbn [r_out]. destruct (live p); [cbn; lia|]. unfold last_key. destruct (rev p) as [|(k, w) r] eqn:Er; [cbn; lia|].
  assert (length k = keySize); [|lia]. apply Hl, Sub. unfold has. rewrite Ef, map_app. apply in_or_app. left. rewrite <- (rev_involutive p), Er. cbn [rev]. rewrite map_app. apply in_or_app. right. now left.
Qed.
Example C65_example : length (calls (generic_batch 4 [([0; 0; 0; 0], Some 10); ([1; 0; 0; 0], Some 11)] (fun _ => None)) None 0%nat None
  [(LookupBatch, mkMap 1 3 4 8, 1, 1); (LookupBatch, mkMap 2 4 16 8, 1, 1); (LookupBatch, mkMap 1 3 4 8, 2, 1); (LookupAndDeleteBatch, mkMap 1 3 4 8, 2, 2)]) = 2%nat.
Proof. reflexivity. Qed.
