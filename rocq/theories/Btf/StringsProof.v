From Coq Require Import ZArith List Lia Bool Permutation.
From Verif.Base Require Import GoInt.
From Verif.Btf Require Import Strings StringsSpec.
Import ListNotations.
Open Scope Z_scope.

Lemma str_eqb_eq a b : str_eqb a b = true <-> a = b.
Proof.
  revert b; induction a as [|x a IH]; intros [|y b]; cbn; split; intros H; try reflexivity; try discriminate.
  - apply andb_prop in H. destruct H as [H1 H2]. apply Z.eqb_eq in H1. apply IH in H2. congruence.
  - inversion H; subst. rewrite Z.eqb_refl. apply IH. reflexivity.
Qed.

Lemma index_byte_some l b i : index_byte l b = Some i ->
  l = firstn i l ++ b :: skipn (S i) l /\ ~ In b (firstn i l) /\ (i < length l)%nat.
Proof.
  revert i; induction l as [|x l IH]; intros i; cbn; [discriminate|].
  destruct (Z.eqb_spec x b) as [->|N].
  - intros H; inversion H; subst. cbn. split; [reflexivity|]. split; [auto|lia].
  - destruct (index_byte l b) as [j|] eqn:E; [|discriminate]. cbn. intros H; inversion H; subst. cbn [firstn skipn].
    destruct (IH j eq_refl) as (H1 & H2 & H3). split; [cbn; f_equal; exact H1|]. split; [|lia].
    cbn. intros [->|HI]; auto.
Qed.
Lemma index_byte_none l b : index_byte l b = None <-> ~ In b l.
Proof.
  induction l as [|x l IH]; cbn; [split; auto; intros _ []|].
  destruct (Z.eqb_spec x b) as [->|N]; [split; [discriminate|intros H; exfalso; auto]|].
  destruct (index_byte l b); cbn; split; try discriminate.
  - intros H. exfalso. apply H. right. destruct IH as [_ IH]. 
    destruct (in_dec Z.eq_dec b l) as [I|I]; [exact I|]. specialize (IH I). discriminate.
  - intros _ [->|HI]; [auto|]. destruct IH as [IH _]. apply (IH eq_refl). exact HI.
  - reflexivity.
Qed.
Lemma index_byte_first s post : ~ In 0 s -> index_byte (s ++ 0 :: post) 0 = Some (length s).
Proof.
  induction s as [|x s IH]; cbn; intros H; [reflexivity|].
  destruct (Z.eqb_spec x 0); [exfalso; auto|]. rewrite IH by auto. reflexivity.
Qed.

Lemma len32_id (l : str) : Z.of_nat (length l) < 2 ^ 32 -> len32 l = Z.of_nat (length l).
Proof. intros H. apply wrapu_id. unfold in_u. lia. Qed.

(** lookup_here never panics and is exact *)
Lemma lookup_here_total bytes o : Z.of_nat (length bytes) < 2 ^ 32 -> 0 <= o -> exists r, lookup_here bytes o = Some r.
Proof.
  intros Hl Ho. unfold lookup_here. rewrite len32_id by assumption.
  destruct (Z.gtb_spec o (Z.of_nat (length bytes))); [eauto|].
  destruct (Z.gtb_spec o 0).
  - destruct (nth_error bytes (Z.to_nat o - 1)) as [b|] eqn:E.
    + destruct (b =? 0); [|eauto]. destruct (Nat.ltb_spec (length bytes) (Z.to_nat o)); [lia|].
      destruct (index_byte _ 0); eauto.
    + apply nth_error_None in E. lia.
  - destruct (Nat.ltb_spec (length bytes) (Z.to_nat o)); [lia|]. destruct (index_byte _ 0); eauto.
Qed.

Lemma pre_end (pre : list Z) n : pre <> [] -> length pre = n -> nth_error pre (n - 1) = Some 0 -> exists pre', pre = pre' ++ [0].
Proof.
  intros N L E. destruct (exists_last N) as (p & x & ->). exists p. rewrite app_length in L. cbn in L.
  rewrite nth_error_app2 in E by lia. replace (n - 1 - length p)%nat with O in E by lia. cbn in E. congruence.
Qed.

Lemma lookup_here_ok bytes o s : Z.of_nat (length bytes) < 2 ^ 32 -> 0 <= o ->
  lookup_here bytes o = Some (Ok s) <-> string_at bytes o s.
Proof.
  intros Hl Ho. unfold lookup_here. rewrite len32_id by assumption. split.
  - destruct (Z.gtb_spec o (Z.of_nat (length bytes))); [discriminate|].
    intros H0.
    assert (G : (o = 0 \/ nth_error bytes (Z.to_nat o - 1) = Some 0) /\
                index_byte (skipn (Z.to_nat o) bytes) 0 <> None /\
                forall i, index_byte (skipn (Z.to_nat o) bytes) 0 = Some i -> s = firstn i (skipn (Z.to_nat o) bytes)).
    { destruct (Z.gtb_spec o 0).
      - destruct (nth_error bytes (Z.to_nat o - 1)) as [b|]; [|discriminate].
        destruct (Z.eqb_spec b 0) as [Eb|]; [rewrite Eb|discriminate H0].
        destruct (length bytes <? Z.to_nat o)%nat; [discriminate|].
        destruct (index_byte _ 0); [|discriminate]. inversion H0; subst.
        split; [auto|]. split; [discriminate|]. intros i Hi; inversion Hi; reflexivity.
      - destruct (length bytes <? Z.to_nat o)%nat; [discriminate|].
        destruct (index_byte _ 0); [|discriminate]. inversion H0; subst.
        split; [left; lia|]. split; [discriminate|]. intros i Hi; inversion Hi; reflexivity. }
    destruct G as (G1 & G2 & G3). destruct (index_byte (skipn (Z.to_nat o) bytes) 0) as [i|] eqn:E; [|congruence].
    specialize (G3 i eq_refl). destruct (index_byte_some _ _ _ E) as (E1 & E2 & E3).
    exists (firstn (Z.to_nat o) bytes), (skipn (S i) (skipn (Z.to_nat o) bytes)).
    rewrite <- G3 in E1, E2. split; [rewrite <- E1; symmetry; apply firstn_skipn|].
    assert (Lp : length (firstn (Z.to_nat o) bytes) = Z.to_nat o) by (rewrite firstn_length; lia).
    split; [lia|]. split; [exact E2|].
    destruct (Z.eq_dec o 0) as [->|N]; [left; reflexivity|]. right. destruct G1 as [G1|G1]; [contradiction|].
    apply (pre_end _ (Z.to_nat o)); [intros E0; rewrite E0 in Lp; cbn in Lp; lia|exact Lp|].
    rewrite <- G1. rewrite <- (firstn_skipn (Z.to_nat o) bytes) at 2. symmetry. apply nth_error_app1. lia.
  - intros (pre & post & -> & L & Hs & Hp).
    rewrite !app_length in *. cbn [length] in *.
    destruct (Z.gtb_spec o (Z.of_nat (length pre + (length s + S (length post))))); [lia|].
    assert (Hk : skipn (Z.to_nat o) (pre ++ s ++ 0 :: post) = s ++ 0 :: post).
    { rewrite skipn_app, skipn_all2 by lia. replace (Z.to_nat o - length pre)%nat with O by lia. reflexivity. }
    rewrite Hk, index_byte_first by assumption. rewrite firstn_app, Nat.sub_diag, firstn_all, firstn_O, app_nil_r.
    destruct (Nat.ltb_spec (length pre + (length s + S (length post))) (Z.to_nat o)); [lia|].
    destruct (Z.gtb_spec o 0); [|reflexivity].
    destruct Hp as [->|[pre' ->]]; [cbn in L; lia|]. rewrite app_length in L. cbn in L.
    rewrite nth_error_app1 by (rewrite app_length; cbn; lia). rewrite nth_error_app2 by lia.
    replace (Z.to_nat o - 1 - length pre')%nat with O by lia. reflexivity.
Qed.

(** ** Builder *)
Fixpoint entries (o : Z) (strs : list str) : list (str * Z) :=
  match strs with
  | [] => []
  | s :: l => (s, o) :: entries (o + Z.of_nat (length s) + 1) l
  end.
Definition total (strs : list str) : Z := Z.of_nat (length (encoding strs)).

Lemma encoding_app a b : encoding (a ++ b) = encoding a ++ encoding b.
Proof. unfold encoding. rewrite map_app, concat_app. reflexivity. Qed.
Lemma total_cons s l : total (s :: l) = Z.of_nat (length s) + 1 + total l.
Proof. unfold total, encoding. cbn [map concat]. rewrite !app_length. cbn. lia. Qed.
Lemma total_app a b : total (a ++ b) = total a + total b.
Proof. unfold total. rewrite encoding_app, app_length. lia. Qed.
Lemma entries_app o a b : entries o (a ++ b) = entries o a ++ entries (o + total a) b.
Proof.
  revert o; induction a as [|s a IH]; intros o; cbn [app entries].
  - unfold total. cbn. rewrite Z.add_0_r. reflexivity.
  - rewrite IH, total_cons. do 2 f_equal. f_equal. lia.
Qed.
Lemma entries_in o strs s p : In (s, p) (entries o strs) ->
  exists a b, strs = a ++ s :: b /\ p = o + total a.
Proof.
  revert o; induction strs as [|x l IH]; intros o; cbn [entries In]; [intros []|].
  intros [E|H].
  - inversion E; subst. exists [], l. split; [reflexivity|]. unfold total. cbn. lia.
  - destruct (IH _ H) as (a & b & -> & ->). exists (x :: a), b. split; [reflexivity|]. rewrite total_cons. lia.
Qed.
Lemma m_find_entries o strs s v : m_find (entries o strs) s = Some v -> In (s, v) (entries o strs).
Proof.
  revert o; induction strs as [|x l IH]; intros o; cbn; [discriminate|].
  destruct (str_eqb s x) eqn:E.
  - apply str_eqb_eq in E. subst. intros H; inversion H; auto.
  - intros H. right. apply IH. exact H.
Qed.
Lemma m_find_none o strs s : m_find (entries o strs) s = None <-> ~ In s strs.
Proof.
  revert o; induction strs as [|x l IH]; intros o; cbn; [split; auto|].
  destruct (str_eqb s x) eqn:E.
  - apply str_eqb_eq in E. subst. split; [discriminate|intros H; exfalso; auto].
  - rewrite IH. split; [|tauto]. intros H [->|HI]; [|auto]. assert (str_eqb s s = true) by (apply str_eqb_eq; reflexivity). congruence.
Qed.

Definition bok (b : builder) (strs : list str) : Prop :=
  b_strings b = entries 0 strs /\ b_length b = total strs /\ total strs < 2 ^ 32 /\
  NoDup strs /\ (forall s, In s strs -> ~ In 0 s) /\ exists l, strs = [] :: l.

Lemma bok_new : bok newStringTableBuilder [[]].
Proof.
  repeat split; try reflexivity.
  - constructor; [intros []|constructor].
  - intros s [<-|[]] [].
  - exists []. reflexivity.
Qed.

(** the strings stored after adding [l] *)
Definition stored (strs : list str) (s : str) : list str :=
  if (match index_byte s 0 with Some _ => true | None => false end) then strs
  else if (match m_find (entries 0 strs) s with Some _ => true | None => false end) then strs else strs ++ [s].

Lemma bok_add b strs s : bok b strs -> total (strs ++ [s]) < 2 ^ 32 ->
  exists strs', bok (snd (b_add b s)) strs' /\ (exists x, strs' = strs ++ x) /\
    total strs' <= total (strs ++ [s]) /\
    match fst (b_add b s) with
    | Ok o => In (s, o) (entries 0 strs') /\ ~ In 0 s
    | Err e => e = ContainsNul /\ In 0 s
    end.
Proof.
  intros (B1 & B2 & B3 & B4 & B5 & B6) Ht. unfold b_add.
  assert (T1 : total strs <= total (strs ++ [s])) by (rewrite total_app; unfold total; lia).
  destruct (index_byte s 0) as [i|] eqn:E.
  - exists strs. cbn [fst snd]. split; [repeat split; assumption|]. split; [exists []; symmetry; apply app_nil_r|].
    split; [exact T1|]. split; [reflexivity|]. destruct (in_dec Z.eq_dec 0 s) as [I|I]; [exact I|].
    apply index_byte_none in I. congruence.
  - apply index_byte_none in E. rewrite B1. destruct (m_find (entries 0 strs) s) as [o|] eqn:F.
    + exists strs. cbn [fst snd]. split; [repeat split; assumption|]. split; [exists []; symmetry; apply app_nil_r|].
      split; [exact T1|]. split; [apply m_find_entries; exact F|exact E].
    + exists (strs ++ [s]). cbn [b_append fst snd]. apply m_find_none in F.
      assert (Hl : total [s] = Z.of_nat (length s) + 1) by (rewrite total_cons; unfold total; cbn; lia).
      rewrite total_app in *. assert (0 <= total strs) by (unfold total; lia).
      split; [|split; [exists [s]; reflexivity|split; [lia|split; [|exact E]]]].
      * unfold bok. cbn [b_strings b_length]. rewrite entries_app. cbn [entries]. rewrite B1, B2. cbn [Z.add].
        split; [reflexivity|].
        split; [rewrite total_app, Hl, (wrapu_id 32 (Z.of_nat (length s))), (wrapu_id 32 (Z.of_nat (length s) + 1)), wrapu_id;
                unfold in_u; lia|].
        rewrite total_app. split; [lia|]. split.
        { assert (P : Permutation (s :: strs) (strs ++ [s])) by apply Permutation_cons_append.
          eapply Permutation_NoDup; [exact P|]. constructor; assumption. }
        split; [intros x Hx; apply in_app_or in Hx; destruct Hx as [Hx|[<-|[]]]; auto|].
        destruct B6 as [l ->]. exists (l ++ [s]). reflexivity.
      * rewrite entries_app. apply in_or_app. right. cbn. left. f_equal. lia.
Qed.

Lemma bok_adds l : forall b strs, bok b strs -> total (strs ++ l) < 2 ^ 32 ->
  exists strs', bok (snd (b_adds b l)) strs' /\ (exists x, strs' = strs ++ x) /\
    Forall2 (fun s r => match r with
                        | Ok o => In (s, o) (entries 0 strs') /\ ~ In 0 s
                        | Err e => e = ContainsNul /\ In 0 s
                        end) l (fst (b_adds b l)).
Proof.
  induction l as [|s l IH]; intros b strs Hb Ht.
  - exists strs. split; [exact Hb|]. split; [exists []; symmetry; apply app_nil_r|constructor].
  - cbn [b_adds]. assert (T : 0 <= total l /\ total (strs ++ s :: l) = total (strs ++ [s]) + total l).
    { split; [unfold total; lia|]. rewrite !total_app, (total_cons s l), (total_cons s []). unfold total at 4. cbn. lia. }
    destruct (bok_add b strs s Hb ltac:(lia)) as (strs1 & B1 & (x1 & E1) & T1 & R1).
    destruct (b_add b s) as [r b1]. cbn [fst snd] in *.
    destruct (IH b1 strs1 B1 ltac:(rewrite total_app; lia)) as (strs2 & B2 & (x2 & E2) & R2).
    destruct (b_adds b1 l) as [rs b2]. cbn [fst snd] in *.
    exists strs2. split; [exact B2|]. split; [exists (x1 ++ x2); subst; rewrite app_assoc; reflexivity|].
    constructor; [|exact R2]. destruct r as [o|e]; [|exact R1]. destruct R1 as [R1 R1']. split; [|exact R1'].
    subst strs2. rewrite entries_app. apply in_or_app. left. exact R1.
Qed.

(** ** Encoding *)
Lemma copy_at_spec dst o s : Z.of_nat (length s) + o <= Z.of_nat (length dst) -> 0 <= o ->
  exists d, copy_at dst o s = Some d /\ length d = length dst /\
    forall j, nth j d 0 = if (Z.to_nat o <=? j)%nat && (j <? Z.to_nat o + length s)%nat then nth (j - Z.to_nat o) s 0 else nth j dst 0.
Proof.
  intros H Ho. unfold copy_at. destruct (Nat.ltb_spec (length dst) (Z.to_nat o)); [lia|].
  rewrite Nat.min_l by lia. rewrite firstn_all. eexists. split; [reflexivity|].
  split; [rewrite !app_length, firstn_length, skipn_length; lia|]. intros j.
  destruct (Nat.leb_spec (Z.to_nat o) j); cbn [andb].
  - rewrite app_nth2 by (rewrite firstn_length; lia). rewrite firstn_length, Nat.min_l by lia.
    destruct (Nat.ltb_spec j (Z.to_nat o + length s)).
    + rewrite app_nth1 by lia. reflexivity.
    + rewrite app_nth2 by lia. rewrite <- (firstn_skipn (Z.to_nat o + length s) dst) at 2.
      rewrite app_nth2 by (rewrite firstn_length; lia). f_equal. rewrite firstn_length. lia.
  - rewrite app_nth1 by (rewrite firstn_length; lia). rewrite <- (firstn_skipn (Z.to_nat o) dst) at 2.
    rewrite app_nth1 by (rewrite firstn_length; lia). reflexivity.
Qed.

Lemma encoding_split a s b : encoding (a ++ s :: b) = encoding a ++ s ++ 0 :: encoding b.
Proof. rewrite encoding_app. unfold encoding at 2. cbn [map concat]. rewrite <- app_assoc. reflexivity. Qed.

Lemma entry_bytes strs s o : In (s, o) (entries 0 strs) ->
  0 <= o /\ o + Z.of_nat (length s) < total strs /\
  forall i, (i < length s)%nat -> nth (Z.to_nat o + i) (encoding strs) 0 = nth i s 0.
Proof.
  intros H. destruct (entries_in 0 strs s o H) as (a & b & -> & ->).
  rewrite total_app, total_cons. unfold total at 1 2 3 4 5.
  split; [lia|]. split; [lia|]. intros i Hi. rewrite encoding_split.
  rewrite app_nth2 by (unfold total; lia). rewrite app_nth1 by (unfold total; lia). f_equal. unfold total. lia.
Qed.

Lemma encoding_cover strs : forall j, (j < length (encoding strs))%nat ->
  (exists s o, In (s, o) (entries 0 strs) /\ (Z.to_nat o <= j < Z.to_nat o + length s)%nat) \/ nth j (encoding strs) 0 = 0.
Proof.
  induction strs as [|x l IH] using rev_ind; intros j Hj; [cbn in Hj; lia|].
  rewrite encoding_app, app_length in Hj. rewrite encoding_app, entries_app. 
  destruct (Nat.lt_ge_cases j (length (encoding l))) as [L|L].
  - destruct (IH j L) as [(s & o & I & B)|E].
    + left. exists s, o. split; [apply in_or_app; left; exact I|exact B].
    + right. rewrite app_nth1 by assumption. exact E.
  - rewrite app_nth2 by assumption. unfold encoding at 2. unfold encoding at 2 in Hj. cbn [map concat] in *. rewrite app_nil_r in *.
    rewrite app_length in Hj. cbn in Hj.
    destruct (Nat.lt_ge_cases (j - length (encoding l)) (length x)) as [L2|L2].
    + left. exists x, (total l). split; [apply in_or_app; right; cbn; left; f_equal; lia|]. unfold total. lia.
    + right. rewrite app_nth2 by assumption. replace (j - length (encoding l) - length x)%nat with O by lia. reflexivity.
Qed.

Lemma copy_all_spec strs : forall order dst,
  length dst = length (encoding strs) ->
  (forall e, In e order -> In e (entries 0 strs)) ->
  (forall j, (j < length dst)%nat -> nth j dst 0 = nth j (encoding strs) 0 \/ nth j dst 0 = 0) ->
  exists d, copy_all dst order = Some d /\ length d = length (encoding strs) /\
    forall j, (j < length d)%nat ->
      ((nth j dst 0 = nth j (encoding strs) 0 \/ exists s o, In (s, o) order /\ (Z.to_nat o <= j < Z.to_nat o + length s)%nat) ->
        nth j d 0 = nth j (encoding strs) 0) /\
      (nth j d 0 = nth j (encoding strs) 0 \/ nth j d 0 = 0).
Proof.
  induction order as [|[s o] order IH]; intros dst L Hin Hd.
  - exists dst. split; [reflexivity|]. split; [exact L|]. intros j Hj. split; [|apply Hd; exact Hj].
    intros [H|(s & o & [] & _)]; exact H.
  - destruct (entry_bytes strs s o (Hin _ (or_introl eq_refl))) as (Ho & Hb & Hn). unfold total in Hb.
    destruct (copy_at_spec dst o s ltac:(lia) Ho) as (d1 & E1 & L1 & N1).
    cbn [copy_all]. rewrite E1.
    assert (Hd1 : forall j, (j < length d1)%nat -> (nth j dst 0 = nth j (encoding strs) 0 \/ (Z.to_nat o <= j < Z.to_nat o + length s)%nat ->
                   nth j d1 0 = nth j (encoding strs) 0) /\ (nth j d1 0 = nth j (encoding strs) 0 \/ nth j d1 0 = 0)).
    { intros j Hj. rewrite N1. destruct (Nat.leb_spec (Z.to_nat o) j); destruct (Nat.ltb_spec j (Z.to_nat o + length s)); cbn [andb].
      - assert (X : nth (j - Z.to_nat o) s 0 = nth j (encoding strs) 0).
        { rewrite <- (Hn (j - Z.to_nat o)%nat) by lia. f_equal. lia. }
        rewrite X. auto.
      - split; [intros [X|X]; [exact X|lia]|apply Hd; lia].
      - split; [intros [X|X]; [exact X|lia]|apply Hd; lia].
      - split; [intros [X|X]; [exact X|lia]|apply Hd; lia]. }
    destruct (IH d1 ltac:(lia) (fun e He => Hin e (or_intror He)) (fun j Hj => proj2 (Hd1 j Hj))) as (d & E & L2 & N2).
    exists d. split; [exact E|]. split; [exact L2|]. intros j Hj. destruct (N2 j Hj) as [A B].
    split; [|exact B]. intros [X|(s' & o' & [Eq|I] & Hr)].
    + apply A. left. apply (proj1 (Hd1 j ltac:(lia))). left; exact X.
    + inversion Eq; subst. apply A. left. apply (proj1 (Hd1 j ltac:(lia))). right; exact Hr.
    + apply A. right. eauto.
Qed.

Lemma encoded_ok b strs order buf : bok b strs -> Permutation order (b_strings b) ->
  AppendEncoded b order buf = Some (buf ++ encoding strs).
Proof.
  intros (B1 & B2 & _) P. unfold AppendEncoded. rewrite B2. unfold total. rewrite Nat2Z.id.
  rewrite B1 in P.
  destruct (copy_all_spec strs order (repeat 0 (length (encoding strs)))) as (d & E & L & N).
  - apply repeat_length.
  - intros e He. eapply Permutation_in; eassumption.
  - intros j _. right. apply nth_repeat.
  - rewrite E. do 2 f_equal. apply (nth_ext _ _ 0 0); [exact L|]. intros j Hj. apply N; [exact Hj|].
    destruct (encoding_cover strs j ltac:(lia)) as [(s & o & I & Hr)|Z0].
    + right. exists s, o. split; [|exact Hr]. eapply Permutation_in; [apply Permutation_sym; exact P|exact I].
    + left. rewrite nth_repeat, Z0. reflexivity.
Qed.

Lemma last_encoding strs : strs <> [] -> last (encoding strs) 0 = 0.
Proof.
  intros N. destruct (exists_last N) as (a & s & ->). rewrite encoding_app. unfold encoding at 2. cbn. rewrite app_nil_r, app_assoc.
  apply last_last.
Qed.

Lemma entry_at strs s o : (forall x, In x strs -> ~ In 0 x) -> In (s, o) (entries 0 strs) -> string_at (encoding strs) o s.
Proof.
  intros Hz H. destruct (entries_in 0 strs s o H) as (a & b & -> & ->). rewrite encoding_split.
  exists (encoding a), (encoding b). split; [reflexivity|]. split; [reflexivity|].
  split; [apply Hz; apply in_or_app; right; left; reflexivity|].
  destruct a as [|x a _] using rev_ind; [left; reflexivity|]. right.
  rewrite encoding_app. unfold encoding at 2. cbn. rewrite app_nil_r, app_assoc. eauto.
Qed.

Lemma string_at_fun bytes o s s' : string_at bytes o s -> string_at bytes o s' -> s = s'.
Proof.
  intros (p & q & E & L & H & _) (p' & q' & E' & L' & H' & _). rewrite E in E'.
  assert (El : p = p' /\ s ++ 0 :: q = s' ++ 0 :: q').
  { assert (Lp : length p = length p') by lia. clear - E' Lp. revert p' E' Lp.
    induction p as [|x p IH]; intros [|y p'] E' Lp; cbn in *; try lia; [auto|].
    inversion E'. destruct (IH p' H1 ltac:(lia)). subst. auto. }
  destruct El as [_ El]. pose proof (index_byte_first s q H) as A. pose proof (index_byte_first s' q' H') as B.
  rewrite El in A. rewrite A in B. inversion B as [Ls].
  assert (G : forall n (a b c d : list Z), length a = n -> length c = n -> a ++ b = c ++ d -> a = c).
  { clear. induction n; intros [|x a] b [|y c] d; cbn; try lia; [auto|]. intros La Lc E. inversion E. f_equal. eapply IHn; eauto. }
  apply (G (length s) s (0 :: q) s' (0 :: q')); auto.
Qed.

Lemma Forall2_mono {A B} (P Q : A -> B -> Prop) l m : (forall a b, P a b -> Q a b) -> Forall2 P l m -> Forall2 Q l m.
Proof. intros H F. induction F; constructor; auto. Qed.
