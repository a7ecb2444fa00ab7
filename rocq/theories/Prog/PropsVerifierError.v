(** C81: the errors that carry a verifier log. *)
From Coq Require Import List Bool Arith Lia Ascii String.
From Verif Require Import Prog.VerifierError Prog.VerifierErrorSpec Prog.VerifierErrorProof.
Import ListNotations.
Open Scope char_scope. Open Scope list_scope.

(** ** The lines *)
(** [Log] has the lines of the text in the buffer, ... *)
Theorem C81_log : forall C source (cause : C) log,
  let e := ErrorWithLog source cause log in
  ve_source e = source /\ ve_cause e = cause /\ log_lines log (ve_log e) /\ forall ls, log_lines log ls -> ls = ve_log e.
Proof.
  intros C source cause log e. split; [reflexivity|]. split; [reflexivity|]. split; [apply logLines_spec|]. apply log_lines_fun.
Qed.

(** ... so that nothing but white space at the end of lines, and before and after all of
    them, is lost: lines printed by the kernel come back as they were. *)
Fixpoint print (ls : list bytes) : bytes := match ls with [] => [] | l :: ls' => l ++ NL :: print ls' end.
Lemma ends_join : forall l t, t <> [] -> ends_black t -> ends_black (l ++ NL :: t).
Proof.
  intros l t N E t' c H. destruct (list_end _ t) as [-> | (b & x & ->)]; [congruence|]. replace (l ++ NL :: b ++ [x]) with ((l ++ NL :: b) ++ [x]) in H by (now rewrite <- app_assoc).
  apply app_inj_tail in H as (_ & ->). eapply E. reflexivity.
Qed.
Lemma print_joined : forall ls l0, Forall (fun l => ~ In NL l /\ ends_black l) (l0 :: ls) -> last (l0 :: ls) [] <> [] ->
  exists t, print (l0 :: ls) = t ++ [NL] /\ joined t (l0 :: ls) /\ t <> [] /\ ends_black t /\ (starts_black l0 -> l0 <> [] -> starts_black t).
Proof.
  induction ls as [|l1 ls IH]; intros l0 F N; inversion F as [|? ? (A & B) F']; subst.
  - exists l0. cbn [print app]. repeat split; auto.
    rewrite <- (app_nil_r l0) at 1. apply joined_one; [constructor|now rewrite app_nil_r|exact B].
  - destruct (IH l1 F' N) as (t & E & J & T & D & _). exists (l0 ++ NL :: t). repeat split.
    + cbn [print]. cbn [print] in E. rewrite E. now rewrite <- app_assoc.
    + apply (joined_more l0 [] t (l1 :: ls)); [constructor|now rewrite app_nil_r|exact B|exact J].
    + destruct l0; discriminate.
    + now apply ends_join.
    + intros S N0. now apply starts_app.
Qed.
Lemma print_no_nul : forall ls, Forall (fun l => ~ In NUL l) ls -> ~ In NUL (print ls).
Proof.
  induction ls as [|l ls IH]; intros F; [intros []|]. inversion F; subst. cbn [print]. intros I. apply in_app_or in I as [I|[I|I]]; [auto|discriminate|now apply IH].
Qed.
Theorem C81_roundtrip : forall C source (cause : C) first ls rest,
  Forall (fun l => ~ In NL l /\ ~ In NUL l /\ ends_black l) (first :: ls) ->
  first <> [] -> starts_black first -> last (first :: ls) [] <> [] ->
  ve_log (ErrorWithLog source cause (print (first :: ls) ++ NUL :: rest)) = first :: ls.
Proof.
  intros C source cause first ls rest F N S L. symmetry. apply log_lines_fun. exists (print (first :: ls)). split.
  - split; [|right; exists rest; reflexivity]. apply print_no_nul. eapply Forall_impl; [|exact F]. intros a H. apply H.
  - destruct (print_joined ls first) as (t & E & J & T & D & X); [eapply Forall_impl; [|exact F]; intros a H; split; apply H|exact L|]. rewrite E.
    change (t ++ [NL]) with ([] ++ t ++ [NL]). apply lines_some; auto; [constructor|]. constructor; [|constructor]. unfold Ws. tauto.
Qed.

(** ** The summary *)
Lemma isSpace_spec : forall c, isSpace c = true <-> Space c.
Proof.
  intros c. unfold isSpace, Space, Ws. cbn [existsb]. rewrite !orb_true_iff, !Ascii.eqb_eq. intuition discriminate.
Qed.
Lemma trimLeft_space : forall l, exists lead, l = lead ++ trimLeft isSpace l /\ Forall Space lead /\ forall c t, trimLeft isSpace l = c :: t -> ~ Space c.
Proof.
  induction l as [|c l (lead & E & B & S)]; cbn [trimLeft].
  - exists []. repeat split; [constructor|]. discriminate.
  - destruct (isSpace c) eqn:W.
    + exists (c :: lead). repeat split; [cbn; congruence| |exact S]. constructor; [now apply isSpace_spec|exact B].
    + exists []. repeat split; [constructor|]. intros c' t H. injection H as <- <-. rewrite <- isSpace_spec. congruence.
Qed.
Lemma trim_space : forall l, stripped l (trim isSpace l).
Proof.
  intros l. destruct (trimLeft_space l) as (lead & E & B & S). unfold trim, trimRight. set (m := trimLeft isSpace l) in *. destruct (trimLeft_space (rev m)) as (trail & E' & B' & S').
  set (r := trimLeft isSpace (rev m)) in *. assert (Em : m = rev r ++ rev trail). { rewrite <- rev_app_distr, <- E'. now rewrite rev_involutive. }
  exists lead, (rev trail). repeat split; auto.
  - now rewrite <- Em.
  - apply Forall_rev. exact B'.
  - intros c t' H. apply (S c (t' ++ rev trail)). rewrite Em, H. reflexivity.
  - intros t' c H. apply (S' c (rev t')). apply (f_equal (@rev _)) in H. rewrite rev_involutive, rev_app_distr in H. exact H.
Qed.
Lemma stripped_fun : forall l t, stripped l t -> trim isSpace l = t.
Proof.
  assert (TL : forall lead t, Forall Space lead -> (forall c t', t = c :: t' -> ~ Space c) -> trimLeft isSpace (lead ++ t) = t).
  { induction lead as [|c lead IH]; intros t F S; cbn [app trimLeft].
    - destruct t as [|c t]; [reflexivity|]. cbn [trimLeft]. destruct (isSpace c) eqn:W; [|reflexivity]. apply isSpace_spec in W. exfalso. eapply S; eauto.
    - inversion F; subst. assert (W : isSpace c = true) by (now apply isSpace_spec). rewrite W. now apply IH. }
  intros l t (lead & trail & -> & F1 & F2 & S1 & S2). unfold trim, trimRight. destruct t as [|c t].
  - cbn [app]. assert (E : trimLeft isSpace (lead ++ trail) = []). { rewrite <- (app_nil_r (lead ++ trail)). apply TL; [apply Forall_app; auto|discriminate]. } rewrite E. reflexivity.
  - rewrite TL; [|exact F1|intros c' t' H; cbn in H; injection H as <- <-; eapply S1; reflexivity].
    rewrite rev_app_distr, TL; [apply rev_involutive|now apply Forall_rev|]. intros d t' H. apply (f_equal (@rev _)) in H. rewrite rev_involutive in H. cbn [rev] in H. eapply S2. exact H.
Qed.

(** Error shows the last line before the statistics, and the line before it where that
    helps, and says how many lines of the log it leaves out. *)
Theorem C81_summary : forall C (text : C -> bytes) e before show stats texts,
  shown (ve_log e) before show stats -> Forall2 stripped show texts ->
  Error text e = ve_source e ++ lit ": " ++ text (ve_cause e) ++ flat_map (fun t => lit ": " ++ t) texts ++
    match show, before ++ stats with
    | [], _ | _, [] => []
    | _, omitted => lit " (" ++ decimal (List.length omitted) ++ lit " line(s) omitted)"
    end.
Proof.
  intros C text e before show stats texts H F. destruct (shown_fun _ _ _ _ H) as (K & X). unfold Error. cbv zeta. set (log := ve_log e) in *.
  assert (K' : (if (0 <? List.length log)%nat && hasPrefix (nth (List.length log - 1) log []) (lit "processed ") then firstn (List.length log - 1) log else log) = before ++ show).
  { unfold keep in K. destruct (_ && _); now injection K. }
  rewrite K'. destruct X as [(-> & ->)|(X & Ne)].
  - cbn [app List.length Nat.eqb]. inversion F; subst. cbn [flat_map app]. now rewrite app_nil_r.
  - set (kept := before ++ show) in *. assert (Nk : List.length kept <> 0%nat). { subst kept. rewrite app_length. destruct show; [congruence|cbn; lia]. }
    destruct (Nat.eqb_spec (List.length kept) 0) as [E0|_]; [contradiction|].
    assert (S' : (if (2 <=? List.length kept)%nat && includePreviousLine (nth (List.length kept - 1) kept []) then lastn 2 kept else lastn 1 kept) = show).
    { unfold cut in X. injection X as _ X. rewrite <- X at 1. destruct (_ && _); reflexivity. }
    rewrite S'. assert (Fl : flat_map (fun l => lit ": " ++ trim isSpace l) show = flat_map (fun t => lit ": " ++ t) texts).
    { clear - F. induction F as [|l t ls ts A _ IH]; [reflexivity|]. cbn [flat_map]. rewrite IH. now rewrite (stripped_fun l t A). }
    rewrite Fl. assert (Ll : List.length log = (List.length before + List.length show + List.length stats)%nat).
    { rewrite <- (keep_app log), K. cbn [fst snd]. unfold kept. rewrite !app_length. lia. }
    assert (Lo : (List.length log - List.length show)%nat = List.length (before ++ stats)) by (rewrite app_length; lia).
    rewrite Lo. destruct show as [|s0 show']; [congruence|]. destruct (before ++ stats) as [|o os] eqn:Eo.
    + cbn [List.length]. destruct (Nat.ltb_spec 0 0); [lia|]. rewrite app_nil_r. now rewrite <- !app_assoc.
    + destruct (Nat.ltb_spec 0 (List.length (o :: os))) as [_|L]; [|cbn in L; lia]. unfold omittedMsg. rewrite <- !app_assoc. reflexivity.
Qed.
(** What is shown is determined by the log. *)
Theorem C81_shown : forall log, exists before show stats, shown log before show stats /\ log = before ++ show ++ stats /\
  forall b s st, shown log b s st -> b = before /\ s = show /\ st = stats.
Proof.
  intros log. destruct (shown_total log) as (b & s & st & H). exists b, s, st. split; [exact H|]. destruct (shown_fun _ _ _ _ H) as (K & X). split.
  - rewrite <- (keep_app log), K. cbn [fst snd]. now rewrite <- app_assoc.
  - intros b' s' st' H'. destruct (shown_fun _ _ _ _ H') as (K' & X'). rewrite K in K'. injection K' as Ek Est. subst st'.
    destruct X as [(-> & ->)|(X & Ns)], X' as [(-> & ->)|(X' & Ns')]; auto.
    + exfalso. apply Ns'. cbn in Ek. symmetry in Ek. now apply app_eq_nil in Ek.
    + exfalso. apply Ns. cbn in Ek. now apply app_eq_nil in Ek.
    + rewrite Ek, X' in X. injection X as <- <-. auto.
Qed.

(** ** Printing the log *)
Lemma rows_lines : forall ls, Forall (fun l => ~ In NL l) ls -> rows (flat_map (fun l => [NL; TAB] ++ l) ls) ls.
Proof.
  induction ls as [|l ls IH]; intros F; [constructor|]. inversion F; subst. cbn [flat_map app]. apply rows_cons; auto.
Qed.
Lemma rows_app : forall t ls t' ls', rows t ls -> rows t' ls' -> rows (t ++ t') (ls ++ ls').
Proof. intros t ls t' ls' H H'. induction H as [|l t ls N R IH]; [exact H'|]. cbn [app]. rewrite <- app_assoc. now apply rows_cons. Qed.
Lemma nl_free : forall s, (forallb (fun c => negb (Ascii.eqb c NL)) s = true) -> ~ In NL s.
Proof. intros s H I. rewrite forallb_forall in H. specialize (H _ I). rewrite Ascii.eqb_refl in H. discriminate. Qed.
Lemma decimal_nl : forall n, ~ In NL (decimal n).
Proof.
  intros n. unfold decimal. generalize (Nat.to_uint n). intros d. assert (A : ~ In NL (lit (DecimalString.NilEmpty.string_of_uint d))).
  { induction d; cbn; intros I; try contradiction; destruct I as [I|I]; try discriminate; auto. }
  unfold DecimalString.NilZero.string_of_uint. destruct d; auto. intros [I|[]]. discriminate.
Qed.
Lemma omitted_nl : forall n, ~ In NL (omittedMsg n).
Proof.
  intros n. unfold omittedMsg. intros [I|I]; [discriminate|]. apply in_app_or in I as [I|I]; [now apply decimal_nl in I|]. revert I. now apply nl_free.
Qed.
Lemma rows_fun : forall t ls, rows t ls -> forall ls', rows t ls' -> ls = ls'.
Proof.
  assert (C : forall l t l' t', ~ In NL l -> ~ In NL l' -> (t = [] \/ exists x, t = NL :: x) -> (t' = [] \/ exists x, t' = NL :: x) -> l ++ t = l' ++ t' -> l = l' /\ t = t').
  { induction l as [|c l IH]; intros t l' t' N N' B B' E; destruct l' as [|c' l']; cbn in E.
    - auto.
    - exfalso. destruct B as [->|(x & ->)]; [discriminate|]. injection E as <- _. apply N'. now left.
    - exfalso. destruct B' as [->|(x & ->)]; [discriminate|]. injection E as -> _. apply N. now left.
    - injection E as -> E. destruct (IH t l' t') as (-> & ->); auto; intros I; [apply N|apply N']; now right. }
  assert (B : forall t ls, rows t ls -> t = [] \/ exists x, t = NL :: x). { intros t ls [|l t' ls' _ _]; eauto. }
  intros t ls H. induction H as [|l t ls N R IH]; intros ls' H'.
  - inversion H'. reflexivity.
  - remember (NL :: TAB :: l ++ t) as w eqn:Ew. destruct H' as [|l' t' ls' N' R']; [discriminate|]. injection Ew as Ew. apply C in Ew; eauto. destruct Ew as (-> & ->). f_equal. now apply IH.
Qed.

Lemma ex3_intro' : forall T (A B : Prop) (P : T -> Prop), A -> B -> (exists x, P x) -> exists x, A /\ B /\ P x.
Proof. firstorder. Qed.
(** With the flag + the first lines are printed, with - the last ones: as many as the width
    says, or all of them; the number of lines left out is printed in their place. *)
Definition omitted_row (n : nat) : bytes := lit "(" ++ decimal n ++ lit " line(s) omitted)".
Theorem C81_format : forall C (text : C -> bytes) source cause log width (minus : bool),
  let e := ErrorWithLog source cause log in
  let n := match width with Some w => Nat.min w (List.length (ve_log e)) | None => List.length (ve_log e) end in
  exists printed omitted body,
    (if minus then ve_log e = omitted ++ printed else ve_log e = printed ++ omitted) /\ List.length printed = n /\
    Format text e (State width (negb minus) minus) "v" = source ++ lit ": " ++ text cause ++ lit ":" ++ body /\
    rows body (match omitted with
               | [] => printed
               | _ => if minus then omitted_row (List.length omitted) :: printed else printed ++ [omitted_row (List.length omitted)]
               end).
Proof.
  intros C text source cause log width minus e n. pose proof (lines_no_nl log) as F. change (logLines log) with (ve_log e) in F.
  assert (Hn : match width with Some w => if (List.length (ve_log e) <? w)%nat then List.length (ve_log e) else w | None => List.length (ve_log e) end = n).
  { unfold n. destruct width as [w|]; [|reflexivity]. destruct (Nat.ltb_spec (List.length (ve_log e)) w); lia. }
  assert (Ln : n <= List.length (ve_log e)). { unfold n. destruct width; lia. }
  unfold Format. change (Ascii.eqb "v" "s") with false. change (Ascii.eqb "v" "v") with true. cbn [f_width f_plus f_minus].
  change (ve_source e) with source. change (ve_cause e) with cause. cbv zeta iota. rewrite Hn. clearbody n. set (log' := ve_log e) in *. clearbody log'. clear Hn.
  destruct minus; cbn [negb andb].
  - exists (skipn (List.length log' - n) log'), (firstn (List.length log' - n) log'). apply ex3_intro';[symmetry; apply firstn_skipn|rewrite skipn_length; lia|].
    assert (R : rows (flat_map (fun l => [NL; TAB] ++ l) (skipn (List.length log' - n) log')) (skipn (List.length log' - n) log')).
    { apply rows_lines. rewrite <- (firstn_skipn (List.length log' - n) log') in F. now apply Forall_app in F. }
    pose proof (firstn_length (List.length log' - n) log') as Lf. destruct (firstn (List.length log' - n) log') as [|o os] eqn:Eo.
    + cbn [List.length] in Lf. destruct (Nat.ltb_spec 0 (List.length log' - n)); [lia|]. eexists. split; [|exact R]. now rewrite <- !app_assoc.
    + destruct (Nat.ltb_spec 0 (List.length log' - n)) as [_|L]; [|cbn [List.length] in Lf; lia]. replace (List.length (o :: os)) with (List.length log' - n)%nat by (rewrite Lf; lia).
      eexists. split; [rewrite <- !app_assoc; reflexivity|]. cbn [app]. apply (rows_cons _ _ _ (omitted_nl _) R).
  - exists (firstn n log'), (skipn n log'). apply ex3_intro'; [symmetry; apply firstn_skipn|rewrite firstn_length; lia|].
    assert (R : rows (flat_map (fun l => [NL; TAB] ++ l) (firstn n log')) (firstn n log')).
    { apply rows_lines. rewrite <- (firstn_skipn n log') in F. now apply Forall_app in F. }
    pose proof (skipn_length n log') as Lf. destruct (skipn n log') as [|o os] eqn:Eo.
    + cbn [List.length] in Lf. destruct (Nat.ltb_spec 0 (List.length log' - n)); [lia|]. eexists. split; [|exact R]. now rewrite <- !app_assoc.
    + destruct (Nat.ltb_spec 0 (List.length log' - n)) as [_|L]; [|cbn [List.length] in Lf; lia]. replace (List.length (o :: os)) with (List.length log' - n)%nat by exact (eq_sym Lf).
      eexists. split; [rewrite <- !app_assoc; reflexivity|]. apply rows_app; [exact R|]. rewrite <- (app_nil_r ([NL; TAB] ++ _)). cbn [app]. apply (rows_cons _ [] []); [apply omitted_nl|constructor].
Qed.
(** The rows can be told apart: what is printed determines the lines. *)
Theorem C81_rows : forall t ls ls', rows t ls -> rows t ls' -> ls = ls'.
Proof. intros t ls ls' H H'. now apply (rows_fun t ls H). Qed.
(** The other verbs and flags. *)
Theorem C81_verbs : forall C (text : C -> bytes) e,
  (forall f, Format text e f "s" = Error text e) /\
  Format text e (State None false false) "v" = Error text e /\
  (forall w, Format text e (State (Some w) false false) "v" = lit "%!v(BADWIDTH)") /\
  (forall w, Format text e (State w true true) "v" = lit "%!v(BADFLAG)").
Proof. intros C text e. repeat split. Qed.

(** ** An example *)
Definition ex_log : bytes := NL :: lit "func#0 @0" ++ NL :: lit "0: (95) exit" ++ [" "; NL] ++ lit "R0 !read_ok" ++ NL :: lit "processed 1 insns (limit 1000000)" ++ [NL; NUL; "x"].
Definition ex_err := ErrorWithLog (lit "load program") 13 ex_log.
Theorem C81_ex_log : ve_log ex_err = [lit "func#0 @0"; lit "0: (95) exit"; lit "R0 !read_ok"; lit "processed 1 insns (limit 1000000)"].
Proof. vm_compute. reflexivity. Qed.
Theorem C81_ex_summary : Error (fun _ => lit "permission denied") ex_err = lit "load program: permission denied: 0: (95) exit: R0 !read_ok (2 line(s) omitted)".
Proof. vm_compute. reflexivity. Qed.
Example C81_ex_format : Format (fun _ => lit "permission denied") ex_err (State (Some 1) false true) "v" =
  lit "load program: permission denied:" ++ [NL; TAB] ++ lit "(3 line(s) omitted)" ++ [NL; TAB] ++ lit "processed 1 insns (limit 1000000)".
Proof. vm_compute. reflexivity. Qed.
(** A log of statistics only is neither shown nor counted. *)
Theorem C81_only_statistics_refuted : exists (e : verifierError nat),
  ve_log e <> [] /\ Error (fun _ => lit "permission denied") e = ve_source e ++ lit ": permission denied".
Proof. exists (VE (lit "load program") 13 [lit "processed 1 insns"]). split; [discriminate|vm_compute; reflexivity]. Qed.

Print Assumptions C81_log.
Print Assumptions C81_roundtrip.
Print Assumptions C81_summary.
Print Assumptions C81_shown.
Print Assumptions C81_format.
Print Assumptions C81_rows.
Print Assumptions C81_verbs.
