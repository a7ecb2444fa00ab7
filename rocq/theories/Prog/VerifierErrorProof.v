(** Proofs about the lines of verifier logs. *)
From Coq Require Import List Bool Arith Lia Ascii String.
From Verif Require Import Prog.VerifierError Prog.VerifierErrorSpec.
Import ListNotations.
Open Scope char_scope. Open Scope list_scope.

Lemma whitespace_spec : forall c, whitespace c = true <-> Ws c.
Proof.
  intros c. unfold whitespace, Ws. cbn [existsb]. rewrite !orb_true_iff, !Ascii.eqb_eq. intuition discriminate.
Qed.
Lemma whitespace_false : forall c, whitespace c = false <-> ~ Ws c.
Proof. intros c. rewrite <- whitespace_spec. destruct (whitespace c); intuition congruence. Qed.

Lemma trimLeft_spec : forall l, exists lead, l = lead ++ trimLeft whitespace l /\ blank lead /\ starts_black (trimLeft whitespace l).
Proof.
  induction l as [|c l (lead & E & B & S)]; cbn [trimLeft].
  - exists []. repeat split; [constructor|]. intros c l' H. discriminate.
  - destruct (whitespace c) eqn:W.
    + exists (c :: lead). repeat split; [cbn; congruence| |exact S]. constructor; [now apply whitespace_spec|exact B].
    + exists []. repeat split; [constructor|]. intros c' l' H. injection H as <- <-. now apply whitespace_false.
Qed.
Lemma blank_rev : forall l, blank l -> blank (rev l).
Proof. intros l H. unfold blank in *. rewrite Forall_forall in *. intros x I. apply H. now apply in_rev. Qed.
Lemma trimRight_spec : forall l, exists pad, l = trimRight whitespace l ++ pad /\ blank pad /\ ends_black (trimRight whitespace l).
Proof.
  intros l. unfold trimRight. destruct (trimLeft_spec (rev l)) as (lead & E & B & S). exists (rev lead). repeat split.
  - rewrite <- rev_app_distr, <- E. now rewrite rev_involutive.
  - now apply blank_rev.
  - intros l' c H. apply (f_equal (@rev _)) in H. rewrite rev_involutive, rev_app_distr in H. cbn in H. eapply S. exact H.
Qed.
Lemma blank_black : forall pre post pre' post', blank pre -> blank pre' -> starts_black post -> starts_black post' -> pre ++ post = pre' ++ post' -> pre = pre' /\ post = post'.
Proof.
  induction pre as [|c pre IH]; intros post pre' post' B B' S S' E; destruct pre' as [|c' pre']; cbn in E.
  - auto.
  - exfalso. apply Forall_inv in B'. eapply S; [exact E|assumption].
  - exfalso. apply Forall_inv in B. eapply S'; [symmetry; exact E|assumption].
  - injection E as -> E. inversion B; inversion B'; subst. destruct (IH post pre' post') as (-> & ->); auto.
Qed.
Lemma ends_rev : forall l, ends_black l -> starts_black (rev l).
Proof. intros l H c l' E. apply (f_equal (@rev _)) in E. rewrite rev_involutive in E. cbn in E. eapply H. exact E. Qed.
Lemma starts_rev : forall l, starts_black l -> ends_black (rev l).
Proof. intros l H l' c E. apply (f_equal (@rev _)) in E. rewrite rev_involutive, rev_app_distr in E. cbn in E. eapply H. exact E. Qed.
Lemma black_blank : forall pre post pre' post', blank post -> blank post' -> ends_black pre -> ends_black pre' -> pre ++ post = pre' ++ post' -> pre = pre' /\ post = post'.
Proof.
  intros pre post pre' post' B B' S S' E. apply (f_equal (@rev _)) in E. rewrite !rev_app_distr in E.
  apply blank_black in E; auto using blank_rev, ends_rev. destruct E as (E1 & E2). apply (f_equal (@rev _)) in E1, E2. rewrite !rev_involutive in *. auto.
Qed.
Lemma trimLeft_eq : forall lead l, blank lead -> starts_black l -> trimLeft whitespace (lead ++ l) = l.
Proof.
  intros lead l B S. destruct (trimLeft_spec (lead ++ l)) as (lead' & E & B' & S'). apply blank_black in E; auto. symmetry. apply E.
Qed.
Lemma trimRight_eq : forall l pad, blank pad -> ends_black l -> trimRight whitespace (l ++ pad) = l.
Proof.
  intros l pad B S. destruct (trimRight_spec (l ++ pad)) as (pad' & E & B' & S'). apply black_blank in E; auto. symmetry. apply E.
Qed.

(** ** Text *)
Lemma cstr_spec : forall log, text_of log (cstr log).
Proof.
  intros log. unfold text_of. induction log as [|c l (N & H)]; cbn [cstr].
  - split; [auto|now left].
  - destruct (Ascii.eqb_spec c NUL) as [-> | D].
    + split; [auto|]. right. exists l. reflexivity.
    + split. { cbn. intros [H'|H']; [congruence|auto]. }
      destruct H as [H|(rest & H)]; [left; congruence|]. right. exists rest. cbn. congruence.
Qed.
Lemma text_fun : forall log t t', text_of log t -> text_of log t' -> t = t'.
Proof.
  intros log. induction log as [|c l IH]; intros t t' (N & H) (N' & H').
  - destruct H as [<-|(r & H)]; [|destruct t; discriminate]. destruct H' as [<-|(r & H')]; [reflexivity|destruct t'; discriminate].
  - destruct t as [|d t], t' as [|d' t'].
    + reflexivity.
    + destruct H as [H|(r & H)]; [discriminate|]. injection H as -> ->. exfalso. apply N'. destruct H' as [H'|(r' & H')]; injection H' as -> _; now left.
    + destruct H' as [H'|(r & H')]; [discriminate|]. injection H' as -> ->. exfalso. apply N. destruct H as [H|(r' & H)]; injection H as -> _; now left.
    + assert (d = c /\ d' = c) as (-> & ->). { split; [destruct H as [H|(r & H)]|destruct H' as [H'|(r & H')]; rename H' into X]; try injection H; try injection X; congruence. }
      f_equal. apply IH; (split; [intros I; cbn in *; tauto|]).
      * destruct H as [H|(r & H)]; [left|right; exists r]; injection H; auto.
      * destruct H' as [H'|(r & H')]; [left|right; exists r]; injection H'; auto.
Qed.

(** ** Lines *)
Lemma split_notnil : forall s l, split s l <> [].
Proof. intros s [|c l]; cbn; [discriminate|]. destruct (Ascii.eqb c s); [discriminate|]. destruct (split s l); discriminate. Qed.
Lemma split_none : forall l, ~ In NL l -> split NL l = [l].
Proof.
  induction l as [|c l IH]; intros N; cbn [split]; [reflexivity|]. destruct (Ascii.eqb_spec c NL) as [-> | D].
  - exfalso. apply N. now left.
  - rewrite IH; [reflexivity|]. intros I. apply N. now right.
Qed.
Lemma split_more : forall l t, ~ In NL l -> split NL (l ++ NL :: t) = l :: split NL t.
Proof.
  induction l as [|c l IH]; intros t N; cbn [split app].
  - reflexivity.
  - destruct (Ascii.eqb_spec c NL) as [-> | D]; [exfalso; apply N; now left|]. rewrite IH; [reflexivity|]. intros I. apply N. now right.
Qed.
Lemma joined_split : forall t ls, joined t ls -> List.map (trimRight whitespace) (split NL t) = ls.
Proof.
  intros t ls H. induction H as [l pad B N E|l pad t ls B N E _ IH].
  - rewrite split_none by exact N. cbn. now rewrite trimRight_eq.
  - rewrite app_assoc, split_more by exact N. cbn [List.map]. rewrite IH. now rewrite trimRight_eq.
Qed.
Lemma split_line : forall t, exists l, ~ In NL l /\ (t = l \/ exists t', t = l ++ NL :: t').
Proof.
  induction t as [|c t (l & N & H)].
  - exists []. split; [auto|now left].
  - destruct (Ascii.eqb_spec c NL) as [-> | D].
    + exists []. split; [auto|]. right. exists t. reflexivity.
    + exists (c :: l). split; [intros [I|I]; auto|]. destruct H as [->|(t' & ->)]; [left; reflexivity|right; exists t'; reflexivity].
Qed.
Lemma split_joined : forall n t, (List.length t < n)%nat -> joined t (List.map (trimRight whitespace) (split NL t)).
Proof.
  induction n as [|n IH]; intros t L; [lia|]. destruct (split_line t) as (l & N & H). destruct (trimRight_spec l) as (pad & E & B & S). destruct H as [->|(t' & ->)].
  - rewrite split_none by exact N. cbn [List.map]. rewrite E at 1. apply joined_one; auto. now rewrite <- E.
  - rewrite split_more by exact N. cbn [List.map]. rewrite E at 1. rewrite <- app_assoc. apply joined_more; auto; [now rewrite <- E|].
    apply IH. rewrite app_length in L. cbn in L. lia.
Qed.
Lemma ends_tail : forall lead l, l <> [] -> ends_black (lead ++ l) -> ends_black l.
Proof. intros lead l H E l' c E'. apply (E (lead ++ l') c). rewrite E'. apply app_assoc. Qed.
Lemma ends_nil : ends_black [].
Proof. intros l c H. destruct l; discriminate. Qed.
Lemma all_blank : forall l, trim whitespace l = [] -> blank l.
Proof.
  intros l H. unfold trim in H. destruct (trimLeft_spec l) as (lead & E & B & S). destruct (trimRight_spec (trimLeft whitespace l)) as (pad & E' & B' & S'). rewrite H in E'. cbn in E'. rewrite E, E'. apply Forall_app. auto.
Qed.
Lemma blank_trim : forall l, blank l -> trim whitespace l = [].
Proof.
  intros l H. unfold trim. rewrite <- (app_nil_r l) at 1. rewrite trimLeft_eq; [reflexivity|exact H|intros c l' E; discriminate].
Qed.
Lemma logLines_spec : forall log, log_lines log (logLines log).
Proof.
  intros log. exists (cstr log). split; [apply cstr_spec|]. unfold logLines. destruct (trim whitespace (cstr log)) as [|c t] eqn:E.
  - apply lines_blank. now apply all_blank.
  - rewrite <- E. unfold trim in E. destruct (trimLeft_spec (cstr log)) as (lead & E1 & B1 & S1). destruct (trimRight_spec (trimLeft whitespace (cstr log))) as (pad & E2 & B2 & S2).
    fold (trim whitespace (cstr log)) in *. rewrite E1 at 1. rewrite E2 at 1. apply lines_some; auto.
    + rewrite E. discriminate.
    + rewrite E. intros c' l' H. injection H as <- <-. eapply S1. rewrite E2, E. reflexivity.
    + eapply split_joined. eauto.
Qed.
Lemma starts_app : forall l r, l <> [] -> starts_black l -> starts_black (l ++ r).
Proof. intros [|c l] r N S; [congruence|]. intros c' l' H. cbn in H. injection H as <- <-. eapply S. reflexivity. Qed.
Lemma lines_of_fun : forall t ls, lines_of t ls -> ls = match trim whitespace t with [] => [] | l => List.map (trimRight whitespace) (split NL l) end.
Proof.
  intros t ls H. inversion H as [t' B|lead body trail ls' B1 B2 N S E J]; subst.
  - now rewrite blank_trim.
  - unfold trim. rewrite trimLeft_eq by (auto using starts_app). rewrite trimRight_eq by auto. destruct body; [congruence|]. symmetry. now apply joined_split.
Qed.
Lemma log_lines_fun : forall log ls, log_lines log ls -> ls = logLines log.
Proof.
  intros log ls (t & T & L). apply (text_fun _ _ _ (cstr_spec log)) in T. subst t. apply lines_of_fun in L. rewrite L. unfold logLines. now destruct (trim whitespace (cstr log)).
Qed.
Lemma joined_no_nl : forall t ls, joined t ls -> Forall (fun l => ~ In NL l) ls.
Proof.
  intros t ls H. induction H as [l pad B N E|l pad t ls B N E _ IH]; constructor; auto; intros I; apply N; apply in_or_app; now left.
Qed.
Lemma lines_no_nl : forall log, Forall (fun l => ~ In NL l) (logLines log).
Proof.
  intros log. destruct (logLines_spec log) as (t & _ & L). inversion L; [constructor|]. eapply joined_no_nl; eassumption.
Qed.

(** ** The summary *)
Lemma hasPrefix_spec : forall p l, hasPrefix l p = true <-> exists l', l = p ++ l'.
Proof.
  induction p as [|c p IH]; intros l; cbn [hasPrefix].
  - split; [exists l; reflexivity|intros _; destruct l; reflexivity].
  - destruct l as [|d l]; [split; [discriminate|intros (l' & H); discriminate]|]. cbn [hasPrefix]. rewrite andb_true_iff, IH, Ascii.eqb_eq. split.
    + intros (-> & l' & ->). exists l'. reflexivity.
    + intros (l' & H). cbn in H. injection H as -> ->. eauto.
Qed.
Lemma isDigit_spec : forall c, isDigit c = true <-> In c (lit "0123456789").
Proof.
  intros c. destruct c as [[] [] [] [] [] [] [] []]; vm_compute; intuition discriminate.
Qed.
Lemma dependent_spec : forall l, includePreviousLine l = true <-> dependent l.
Proof.
  intros l. unfold includePreviousLine, dependent. destruct (hasPrefix l [TAB]) eqn:E.
  - apply hasPrefix_spec in E. split; auto.
  - assert (N : ~ exists l', l = TAB :: l'). { intros H. assert (X : hasPrefix l [TAB] = true) by (apply hasPrefix_spec; exact H). congruence. }
    destruct (match l with c :: d :: _ => Ascii.eqb c "R" && isDigit d | _ => false end) eqn:E'.
    + split; [|reflexivity]. intros _. right. left. destruct l as [|c [|d l]]; try discriminate. apply andb_prop in E' as (A & B). apply Ascii.eqb_eq in A. apply isDigit_spec in B. subst. eauto.
    + rewrite hasPrefix_spec. split; [auto|]. intros [H|[(d & l' & -> & I)|H]]; [contradiction| |exact H]. cbn [Ascii.eqb] in E'. apply isDigit_spec in I. rewrite I in E'. discriminate.
Qed.
Lemma statistics_spec : forall l, hasPrefix l (lit "processed ") = true <-> statistics l.
Proof. intros l. apply hasPrefix_spec. Qed.

Definition keep (log : list bytes) : list bytes * list bytes :=
  let n := List.length log in
  if (0 <? n)%nat && hasPrefix (nth (n - 1) log []) (lit "processed ") then (firstn (n - 1) log, skipn (n - 1) log) else (log, []).
Definition cut (log : list bytes) : list bytes * list bytes :=
  let n := List.length log in
  let k := if (2 <=? n)%nat && includePreviousLine (nth (n - 1) log []) then 2 else 1 in (firstn (n - k) log, lastn k log).
Lemma keep_some : forall b s, statistics s -> keep (b ++ [s]) = (b, [s]).
Proof.
  intros b s H. unfold keep. rewrite app_length. cbn [List.length]. replace (List.length b + 1 - 1)%nat with (List.length b) by lia.
  rewrite app_nth2, Nat.sub_diag by lia. cbn [nth]. rewrite (proj2 (statistics_spec s) H). destruct (Nat.ltb_spec 0 (List.length b + 1)); [|lia]. cbn [andb].
  rewrite firstn_app, firstn_all, skipn_app, skipn_all, Nat.sub_diag. cbn. now rewrite app_nil_r.
Qed.
Lemma keep_none : forall b s, ~ statistics s -> keep (b ++ [s]) = (b ++ [s], []).
Proof.
  intros b s H. unfold keep. rewrite app_length. cbn [List.length]. replace (List.length b + 1 - 1)%nat with (List.length b) by lia.
  rewrite app_nth2, Nat.sub_diag by lia. cbn [nth]. destruct (hasPrefix s (lit "processed ")) eqn:E; [exfalso; apply H; now apply statistics_spec|]. now rewrite andb_false_r.
Qed.
Lemma keep_app : forall log, fst (keep log) ++ snd (keep log) = log.
Proof. intros log. unfold keep. destruct (_ && _); cbn [fst snd]; [apply firstn_skipn|apply app_nil_r]. Qed.
Lemma cut_app : forall log, fst (cut log) ++ snd (cut log) = log.
Proof. intros log. unfold cut, lastn. cbn [fst snd]. apply firstn_skipn. Qed.
Lemma cut_one : forall b l, b = [] \/ ~ dependent l -> cut (b ++ [l]) = (b, [l]).
Proof.
  intros b l H. unfold cut, lastn. rewrite app_length. cbn [List.length].
  replace ((2 <=? List.length b + 1)%nat && includePreviousLine (nth (List.length b + 1 - 1) (b ++ [l]) [])) with false.
  - replace (List.length b + 1 - 1)%nat with (List.length b) by lia. rewrite firstn_app, firstn_all, skipn_app, skipn_all, Nat.sub_diag. cbn. now rewrite app_nil_r.
  - symmetry. destruct H as [-> | H]; [reflexivity|]. replace (List.length b + 1 - 1)%nat with (List.length b) by lia. rewrite app_nth2, Nat.sub_diag by lia. cbn [nth].
    destruct (includePreviousLine l) eqn:E; [exfalso; apply H; now apply dependent_spec|]. apply andb_false_r.
Qed.
Lemma cut_two : forall b p l, dependent l -> cut (b ++ [p; l]) = (b, [p; l]).
Proof.
  intros b p l H. unfold cut, lastn. rewrite app_length. cbn [List.length].
  assert (N : nth (List.length b + 2 - 1) (b ++ [p; l]) [] = l). { rewrite app_nth2 by lia. replace (List.length b + 2 - 1 - List.length b)%nat with 1%nat by lia. reflexivity. }
  rewrite N, (proj2 (dependent_spec l) H). destruct (Nat.leb_spec 2 (List.length b + 2)); [|lia]. cbn [andb].
  replace (List.length b + 2 - 2)%nat with (List.length b) by lia. rewrite firstn_app, firstn_all, skipn_app, skipn_all, Nat.sub_diag. cbn. now rewrite app_nil_r.
Qed.
Lemma shown_fun : forall log b s st, shown log b s st -> keep log = (b ++ s, st) /\ (s = [] /\ b = [] \/ cut (b ++ s) = (b, s) /\ s <> []).
Proof.
  intros log b s st H. inversion H as [stats A L|before l stats A D|before p l stats A D]; subst.
  - split; [|now left]. destruct st as [|s [|? ?]]; cbn in L; try lia; [reflexivity|]. apply (keep_some [] s). apply A. now left.
  - split; [|right; split; [now apply cut_one|discriminate]]. destruct A as [(-> & N)|(x & -> & S)].
    + now apply keep_none.
    + replace (b ++ [l; x]) with ((b ++ [l]) ++ [x]) by (now rewrite <- app_assoc). now apply keep_some.
  - split; [|right; split; [now apply cut_two|discriminate]]. destruct A as [(-> & N)|(x & -> & S)].
    + replace (b ++ [p; l]) with ((b ++ [p]) ++ [l]) by (now rewrite <- app_assoc). now apply keep_none.
    + replace (b ++ [p; l; x]) with ((b ++ [p; l]) ++ [x]) by (now rewrite <- app_assoc). now apply keep_some.
Qed.
Lemma list_end : forall A (l : list A), l = [] \/ exists b x, l = b ++ [x].
Proof. intros A l. destruct l as [|a l]; [now left|right]. destruct (exists_last (l := a :: l)) as (b & x & E); [discriminate|]. eauto. Qed.
Lemma stats_dec : forall l, statistics l \/ ~ statistics l.
Proof. intros l. rewrite <- statistics_spec. destruct (hasPrefix l _); [now left|right; discriminate]. Qed.
Lemma dep_dec : forall l, dependent l \/ ~ dependent l.
Proof. intros l. rewrite <- dependent_spec. destruct (includePreviousLine l); [now left|right; discriminate]. Qed.
Lemma shown_kept : forall k l st, (st = [] /\ ~ statistics l \/ exists s, st = [s] /\ statistics s) -> exists b s, shown (k ++ l :: st) b s st.
Proof.
  intros k l st H. destruct (list_end _ k) as [-> | (k' & p & ->)].
  - exists [], [l]. apply (shown_one [] l st); auto.
  - destruct (dep_dec l) as [D|D].
    + exists k', [p; l]. rewrite <- app_assoc. cbn [app]. now apply shown_two.
    + exists (k' ++ [p]), [l]. apply shown_one; auto.
Qed.
Lemma shown_total : forall log, exists b s st, shown log b s st.
Proof.
  intros log. destruct (list_end _ log) as [-> | (b & x & ->)].
  - exists [], [], []. apply shown_none; [intros s []|cbn; lia].
  - destruct (stats_dec x) as [S|S].
    + destruct (list_end _ b) as [-> | (b' & y & ->)].
      * exists [], [], [x]. apply shown_none; [intros s [<-|[]]; exact S|cbn; lia].
      * destruct (shown_kept b' y [x]) as (b & s & H); [right; eauto|]. exists b, s, [x]. rewrite <- app_assoc. exact H.
    + destruct (shown_kept b x []) as (b' & s & H); [left; auto|]. exists b', s, []. exact H.
Qed.
