(** C87: trace events. *)
From Verif Require Import Base.GoInt Probe.Event Probe.EventSpec.
Open Scope Z_scope.

(** ** Characters *)
Lemma lower_spec : forall c, lower c = true <-> 97 <= c <= 122.
Proof. intro c. unfold lower. rewrite andb_true_iff, !Z.leb_le. tauto. Qed.
Lemma upper_spec : forall c, upper c = true <-> 65 <= c <= 90.
Proof. intro c. unfold upper. rewrite andb_true_iff, !Z.leb_le. tauto. Qed.
Lemma number_spec : forall c, number c = true <-> 48 <= c <= 57.
Proof. intro c. unfold number. rewrite andb_true_iff, !Z.leb_le. tauto. Qed.
Lemma alnum_spec : forall c, lower c || upper c || number c = true <-> alnum c.
Proof. intro c. rewrite !orb_true_iff, lower_spec, upper_spec, number_spec. unfold alnum, isLetter, isNumber. lia. Qed.
Lemma valid_rest : forall s, validFrom false s = true <-> Forall (fun c => alnum c \/ c = 95 \/ c = 45) s.
Proof.
  induction s as [|c s IH]; cbn; [split; [constructor|reflexivity]|]. rewrite andb_true_iff, IH, !orb_true_iff, lower_spec, upper_spec, number_spec, !Z.eqb_eq.
  unfold alnum, isLetter, isNumber. split; [intros [A B]; constructor; [lia|exact B]|intro H; inversion H; subst; split; [lia|assumption]].
Qed.
Lemma valid_spec : forall s, validIdentifier s = true <-> identifier s.
Proof.
  intros [|c s]; cbn; [split; [discriminate|intros (c & r & E & _); discriminate]|].
  rewrite andb_true_iff, valid_rest, !orb_true_iff, lower_spec, upper_spec, Z.eqb_eq. cbn. split.
  - intros [A B]. exists c, s. split; [reflexivity|]. split; [unfold isLetter; intuition discriminate|exact B].
  - intros (c' & r & E & A & B). injection E as <- <-. split; [unfold isLetter in A; lia|exact B].
Qed.
Lemma kprobe_rest : forall s, kprobeFrom false s = true <-> Forall (fun c => alnum c \/ c = 95 \/ c = 46) s.
Proof.
  induction s as [|c s IH]; cbn; [split; [constructor|reflexivity]|]. rewrite andb_true_iff, IH, !orb_true_iff, lower_spec, upper_spec, number_spec, !Z.eqb_eq.
  unfold alnum, isLetter, isNumber. split; [intros [A B]; constructor; [lia|exact B]|intro H; inversion H; subst; split; [lia|assumption]].
Qed.
Lemma kprobe_spec : forall s, isValidKprobeSymbol s = true <-> kernelSymbol s.
Proof.
  intros [|c s]; cbn; [split; [discriminate|intros (c & r & E & _); discriminate]|].
  rewrite andb_true_iff, kprobe_rest, !orb_true_iff, lower_spec, upper_spec, Z.eqb_eq. cbn. split.
  - intros [A B]. exists c, s. split; [reflexivity|]. split; [unfold isLetter; intuition discriminate|exact B].
  - intros (c' & r & E & A & B). injection E as <- <-. split; [unfold isLetter in A; lia|exact B].
Qed.
(** The checks of names are the regular expressions. *)
Theorem C87_identifier : forall s, validIdentifier s = true <-> identifier s.
Proof. exact valid_spec. Qed.
Theorem C87_symbol : forall s, isValidKprobeSymbol s = true <-> kernelSymbol s.
Proof. exact kprobe_spec. Qed.

(** ** Sanitizing *)
Lemma sanitize_true : forall s, exists run rest, s = run ++ rest /\ Forall (fun c => ~ alnum c) run /\ (rest = [] \/ exists c r, rest = c :: r /\ alnum c) /\ sanitize true s = sanitize false rest.
Proof.
  induction s as [|c s IH]; [exists [], []; auto|]. cbn [sanitize]. destruct (lower c || upper c || number c) eqn:A.
  - apply alnum_spec in A. exists [], (c :: s). split; [reflexivity|]. split; [constructor|]. split; [right; exists c, s; auto|]. cbn [sanitize]. apply alnum_spec in A. rewrite A. reflexivity.
  - assert (N : ~ alnum c) by (intro X; apply alnum_spec in X; congruence). destruct IH as (run & rest & -> & F & B & E). exists (c :: run), rest. split; [reflexivity|]. split; [constructor; auto|]. auto.
Qed.
Theorem C87_sanitize : forall s t, replacedAll s t <-> t = sanitizeIdentifier s.
Proof.
  intros s t. unfold sanitizeIdentifier. split.
  - intro H. induction H as [|c s t A H IH|run s t N F B H IH]; [reflexivity| |].
    + cbn. apply alnum_spec in A. rewrite A. congruence.
    + destruct run as [|c run]; [congruence|]. inversion F as [|x xs NA F']; subst. cbn. destruct (lower c || upper c || number c) eqn:A; [apply alnum_spec in A; tauto|]. f_equal.
      clear - F' B. induction run as [|d run IH]; cbn.
      * destruct B as [->|(c & r & -> & A)]; [reflexivity|]. apply alnum_spec in A. cbn. rewrite A. reflexivity.
      * inversion F' as [|x xs NA F2]; subst. destruct (lower d || upper d || number d) eqn:A; [apply alnum_spec in A; tauto|]. apply IH; auto.
  - intros ->. remember (length s) as n eqn:L. assert (LE : (length s <= n)%nat) by lia. clear L. revert s LE. induction n as [|n IH]; intros s L.
    + destruct s; [constructor|cbn in L; lia].
    + destruct s as [|c s]; [constructor|]. cbn in L. cbn [sanitize]. destruct (lower c || upper c || number c) eqn:A.
      * apply alnum_spec in A. constructor; [exact A|]. apply IH. lia.
      * assert (N : ~ alnum c) by (intro X; apply alnum_spec in X; congruence). destruct (sanitize_true s) as (run & rest & -> & F & B & ->).
        change (c :: run ++ rest) with ((c :: run) ++ rest). constructor; [discriminate|constructor; auto|exact B|]. apply IH. rewrite app_length in L. lia.
Qed.
Lemma sanitize_chars : forall s skip, Forall (fun c => alnum c \/ c = 95) (sanitize skip s).
Proof.
  induction s as [|c s IH]; intro skip; cbn; [constructor|]. destruct (lower c || upper c || number c) eqn:A; [apply alnum_spec in A; constructor; auto|]. destruct skip; auto.
Qed.
(** A symbol has a usable name unless it is empty or begins with a digit. *)
Theorem C87_name : forall s, validIdentifier (sanitizeIdentifier s) = true <-> exists c r, s = c :: r /\ ~ isNumber c.
Proof.
  intros [|c s]; unfold sanitizeIdentifier; [cbn; split; [discriminate|intros (c & r & E & _); discriminate]|]. rewrite valid_spec. cbn [sanitize]. split.
  - intros (d & r & E & D & _). exists c, s. split; [reflexivity|]. destruct (lower c || upper c || number c) eqn:A.
    + injection E as <- _. unfold isLetter, isNumber in *. lia.
    + intro N. apply number_spec in N. rewrite N in A. rewrite orb_true_r in A. discriminate.
  - intros (d & r & E & N). injection E as <- <-. assert (G : forall k, Forall (fun c => alnum c \/ c = 95 \/ c = 45) (sanitize k s)) by (intro k; eapply Forall_impl; [|apply sanitize_chars]; cbn; intros a Ha; destruct Ha; auto).
    destruct (lower c || upper c || number c) eqn:A.
    + apply alnum_spec in A. exists c, (sanitize false s). split; [reflexivity|]. split; [destruct A as [A|A]; [left; exact A|contradiction]|apply G].
    + exists 95, (sanitize true s). split; [reflexivity|]. split; [auto|apply G].
Qed.

(** ** Numbers *)
Definition hexChar (c : Z) : Prop := 48 <= c <= 57 \/ 97 <= c <= 102.
Lemma digit_spec : forall base d, 2 <= base <= 16 -> 0 <= d < base -> digitVal base (digit d) = Some d /\ hexChar (digit d).
Proof.
  intros base d B H. unfold digitVal, digit, hexChar. destruct (Z.ltb_spec d 10).
  - destruct (Z.leb_spec 48 (48 + d)); [|lia]. destruct (Z.leb_spec (48 + d) 57); [|lia]. cbn [andb]. replace (48 + d - 48) with d by lia. destruct (Z.ltb_spec d base); [|lia]. split; [reflexivity|lia].
  - destruct (Z.leb_spec (87 + d) 57); [lia|]. rewrite andb_false_r. destruct (Z.leb_spec 97 (87 + d)); [|lia]. destruct (Z.leb_spec (87 + d) 102); [|lia]. cbn [andb]. replace (87 + d - 87) with d by lia. destruct (Z.ltb_spec d base); [|lia]. split; [reflexivity|lia].
Qed.
Lemma numFrom_app : forall base s t acc, numFrom base acc (s ++ t) = bind (numFrom base acc s) (fun v => numFrom base v t).
Proof. intros base. induction s as [|c s IH]; intros t acc; cbn; [reflexivity|]. destruct (digitVal base c); [apply IH|reflexivity]. Qed.
Lemma digits_spec : forall base fuel n, 2 <= base <= 16 -> 0 <= n < base ^ Z.of_nat fuel -> numFrom base 0 (digits base fuel n) = Some n.
Proof.
  intros base. induction fuel as [|fuel IH]; intros n B H; [cbn in *; f_equal; lia|]. cbn [digits]. destruct (Z.ltb_spec n base).
  - cbn. destruct (digit_spec base n B) as [-> _]; [lia|]. reflexivity.
  - rewrite numFrom_app. rewrite Nat2Z.inj_succ, Z.pow_succ_r in H by lia. rewrite IH; [|exact B|split; [apply Z.div_pos; lia|apply Z.div_lt_upper_bound; lia]].
    cbn. destruct (digit_spec base (n mod base) B) as [-> _]; [apply Z.mod_pos_bound; lia|]. f_equal. pose proof (Z_div_mod_eq_full n base). lia.
Qed.
Lemma digits_chars : forall base fuel n, 2 <= base <= 16 -> 0 <= n -> Forall hexChar (digits base fuel n).
Proof.
  intros base. induction fuel as [|fuel IH]; intros n B H; [constructor|]. cbn [digits]. destruct (Z.ltb_spec n base).
  - constructor; [apply (digit_spec base n B); lia|constructor].
  - apply Forall_app. split; [apply IH; [exact B|apply Z.div_pos; lia]|]. constructor; [apply (digit_spec base); [exact B|apply Z.mod_pos_bound; lia]|constructor].
Qed.
Lemma digits_head : forall base fuel n, 2 <= base <= 16 -> 0 < n < base ^ Z.of_nat fuel -> exists c r, digits base fuel n = c :: r /\ c <> 48.
Proof.
  intros base. induction fuel as [|fuel IH]; intros n B H; [cbn in *; lia|]. cbn [digits]. destruct (Z.ltb_spec n base).
  - exists (digit n), []. split; [reflexivity|]. unfold digit. destruct (n <? 10); lia.
  - rewrite Nat2Z.inj_succ, Z.pow_succ_r in H by lia. destruct (IH (n / base) B) as (c & r & -> & N); [split; [apply Z.div_str_pos; lia|apply Z.div_lt_upper_bound; lia]|]. exists c, (r ++ [digit (n mod base)]). auto.
Qed.
Lemma digits_nonempty : forall base fuel n, digits base (S fuel) n <> [].
Proof. intros base fuel n. cbn. destruct (n <? base); [discriminate|]. destruct (digits base fuel (n / base)); discriminate. Qed.
Lemma num_x : forall n, 0 <= n < 2 ^ 64 -> num (fmt_x n) = Some n.
Proof.
  intros n H. unfold fmt_x. cbn [app]. pose proof (digits_nonempty 16 15 n) as NE. pose proof (digits_spec 16 16 n ltac:(lia) ltac:(cbn; lia)) as E.
  remember (digits 16 16 n) as d eqn:D. clear D. destruct d as [|c d]; [congruence|]. cbn [num]. change (48 =? 48) with true. change (120 =? 120) with true. cbn [andb negb]. exact E.
Qed.
Lemma num_d : forall n, 0 < n < 2 ^ 64 -> num (fmt_d n) = Some n.
Proof.
  intros n H. unfold fmt_d. assert (B : 0 < n < 10 ^ Z.of_nat 20) by (change (10 ^ Z.of_nat 20) with 100000000000000000000; change (2 ^ 64) with 18446744073709551616 in H; lia). assert (B0 : 0 <= n < 10 ^ Z.of_nat 20) by (destruct B; split; [apply Z.lt_le_incl|]; assumption). pose proof (digits_spec 10 20 n ltac:(lia) B0) as E.
  destruct (digits_head 10 20 n ltac:(lia) B) as (c & r & D & N). rewrite D in *. destruct r as [|b r]; [exact E|]. cbn [num]. destruct (Z.eqb_spec c 48); [congruence|]. exact E.
Qed.

(** ** Lines and words *)
Definition okc (c : Z) : Prop := isspace c = false /\ c <> 35.
Lemma okc_range : forall c, (33 <= c < 160 /\ c <> 35) -> okc c.
Proof. intros c H. split; [|lia]. unfold isspace. destruct (Z.leb_spec c 13); [lia|]. rewrite andb_false_r. destruct (Z.eqb_spec c 32); [lia|]. destruct (Z.eqb_spec c 160); [lia|reflexivity]. Qed.
Lemma lines_one : forall s, Forall (fun c => c <> 10) s -> lines s = [s].
Proof. induction s as [|c s IH]; intro H; [reflexivity|]. inversion H as [|x xs N F]; subst. cbn. destruct (Z.eqb_spec c 10); [congruence|]. rewrite IH by auto. reflexivity. Qed.
Lemma before_all : forall x s, Forall (fun c => c <> x) s -> beforeChar x s = s.
Proof. intros x. induction s as [|c s IH]; intro H; [reflexivity|]. inversion H as [|y ys N F]; subst. cbn. destruct (Z.eqb_spec c x); [congruence|]. rewrite IH by auto. reflexivity. Qed.
Lemma words_cons : forall w cur, Forall okc w -> forall rest, words cur (w ++ rest) = words (rev w ++ cur) rest.
Proof.
  induction w as [|c w IH]; intros cur H rest; [reflexivity|]. inversion H as [|x xs [N _] F]; subst. cbn [app words rev]. rewrite N. rewrite IH by auto. rewrite <- app_assoc. reflexivity.
Qed.
Lemma words_two : forall a b, Forall okc a -> Forall okc b -> a <> [] -> b <> [] -> words [] (a ++ [32] ++ b) = [a; b].
Proof.
  intros a b A B NA NB. rewrite words_cons by auto. cbn [app words]. change (isspace 32) with true. cbv iota. rewrite app_nil_r. 
  assert (W : words [] b = [b]).
  { rewrite <- (app_nil_r b) at 1. rewrite words_cons by auto. cbn [words]. rewrite app_nil_r. destruct (rev b) as [|x y] eqn:R; [|rewrite <- R, rev_involutive; reflexivity].
    exfalso. apply NB. rewrite <- (rev_involutive b), R. reflexivity. }
  rewrite W. destruct (rev a) as [|x y] eqn:R; [|rewrite <- R, rev_involutive; reflexivity]. exfalso. apply NA. rewrite <- (rev_involutive a), R. reflexivity.
Qed.
Lemma cutFirst_app : forall x a b, Forall (fun c => c <> x) a -> cutFirst x (a ++ x :: b) = Some (a, b).
Proof. intros x. induction a as [|c a IH]; intros b H; cbn; [rewrite Z.eqb_refl; reflexivity|]. inversion H as [|y ys N F]; subst. destruct (Z.eqb_spec c x); [congruence|]. rewrite IH by auto. reflexivity. Qed.
Lemma cutFirst_none : forall x a, Forall (fun c => c <> x) a -> cutFirst x a = None.
Proof. intros x. induction a as [|c a IH]; intros H; cbn; [reflexivity|]. inversion H as [|y ys N F]; subst. destruct (Z.eqb_spec c x); [congruence|]. rewrite IH by auto. reflexivity. Qed.
Lemma cutLast_none : forall x a, Forall (fun c => c <> x) a -> cutLast x a = None.
Proof. intros x. induction a as [|c a IH]; intros H; cbn; [reflexivity|]. inversion H as [|y ys N F]; subst. rewrite IH by auto. destruct (Z.eqb_spec c x); [congruence|]. reflexivity. Qed.
Lemma cutLast_app : forall x a b, Forall (fun c => c <> x) b -> cutLast x (a ++ x :: b) = Some (a, b).
Proof. intros x. induction a as [|c a IH]; intros b H; cbn; [rewrite cutLast_none by auto; rewrite Z.eqb_refl; reflexivity|]. rewrite IH by auto. reflexivity. Qed.

Lemma identifier_chars : forall s, identifier s -> Forall (fun c => alnum c \/ c = 95 \/ c = 45) s /\ s <> [].
Proof. intros s (c & r & -> & A & B). split; [|discriminate]. constructor; [unfold alnum; tauto|exact B]. Qed.
Lemma symbol_chars : forall s, kernelSymbol s -> Forall (fun c => alnum c \/ c = 95 \/ c = 46) s /\ s <> [].
Proof. intros s (c & r & -> & A & B). split; [|discriminate]. constructor; [unfold alnum; tauto|exact B]. Qed.
Lemma fmt_x_chars : forall n, 0 <= n -> Forall (fun c => hexChar c \/ c = 120) (fmt_x n).
Proof. intros n H. unfold fmt_x. cbn [app]. constructor; [left; left; lia|]. constructor; [auto|]. eapply Forall_impl; [|apply digits_chars; [lia|exact H]]. auto. Qed.
Ltac chars := unfold alnum, isLetter, isNumber, hexChar in *; lia.

Lemma parse_names : forall k t group event w1 pl, Forall (fun c => hexChar c \/ c = 112 \/ c = 114) t -> t <> [] -> identifier group -> Forall (fun c => alnum c \/ c = 95) event ->
  Forall okc w1 -> w1 <> [] -> parsePlace k w1 = Some pl ->
  kernelReads k (t ++ [58] ++ group ++ [47] ++ event ++ [32] ++ w1) =
  [match t with [] => None | c :: n => if c =? 112 then match n with [] => Some (Cmd false 0 group event pl) | _ => None end
     else if c =? 114 then match n with [] => Some (Cmd true 0 group event pl) | _ => bind (num n) (fun v => Some (Cmd true v group event pl)) end else None end].
Proof.
  intros k t group event w1 pl T NT G E W NW P. destruct (identifier_chars _ G) as [GC _].
  set (w0 := t ++ 58 :: group ++ 47 :: event).
  replace (t ++ [58] ++ group ++ [47] ++ event ++ [32] ++ w1) with (w0 ++ [32] ++ w1) by (unfold w0; repeat (rewrite <- app_assoc; cbn [app]); reflexivity).
  assert (OK0 : Forall okc w0).
  { unfold w0. apply Forall_app. split; [eapply Forall_impl; [|exact T]; intros; apply okc_range; chars|]. constructor; [apply okc_range; lia|].
    apply Forall_app. split; [eapply Forall_impl; [|exact GC]; intros; apply okc_range; chars|]. constructor; [apply okc_range; lia|]. eapply Forall_impl; [|exact E]; intros; apply okc_range; chars. }
  assert (N0 : w0 <> []) by (unfold w0; destruct t; discriminate).
  assert (ALL : Forall (fun c => c <> 10 /\ c <> 35) (w0 ++ [32] ++ w1)).
  { assert (Q : forall c, okc c -> c <> 10 /\ c <> 35) by (intros c [X Y]; split; [intros ->; discriminate|exact Y]).
    apply Forall_app. split; [eapply Forall_impl; [|exact OK0]; auto|]. constructor; [lia|]. eapply Forall_impl; [|exact W]; auto. }
  unfold kernelReads. rewrite lines_one by (eapply Forall_impl; [|exact ALL]; intros c [? _]; assumption). cbn [map]. f_equal. unfold parseCmd.
  rewrite before_all by (eapply Forall_impl; [|exact ALL]; intros c [_ ?]; assumption). rewrite words_two by auto.
  unfold w0. rewrite cutFirst_app by (eapply Forall_impl; [|exact T]; intros; chars). cbn [bind].
  rewrite cutFirst_app by (eapply Forall_impl; [|exact GC]; intros; chars). cbn [bind]. rewrite P. cbn [bind]. reflexivity.
Qed.
Lemma prefix_ok : forall ret m, Forall (fun c => hexChar c \/ c = 112 \/ c = 114) (probePrefix ret m) /\ probePrefix ret m <> [].
Proof.
  intros ret m. unfold probePrefix. destruct ret; [|split; [constructor; [lia|constructor]|discriminate]]. destruct (Z.ltb_spec 0 m).
  - split; [|discriminate]. constructor; [lia|]. eapply Forall_impl; [|apply digits_chars; lia]. auto.
  - split; [constructor; [lia|constructor]|discriminate].
Qed.
Lemma prefix_read : forall ret m group event pl, m < 2 ^ 63 -> (ret = false -> m <= 0) ->
  match probePrefix ret m with [] => None | c :: n => if c =? 112 then match n with [] => Some (Cmd false 0 group event pl) | _ => None end
     else if c =? 114 then match n with [] => Some (Cmd true 0 group event pl) | _ => bind (num n) (fun v => Some (Cmd true v group event pl)) end else None end
  = Some (Cmd ret (Z.max 0 m) group event pl).
Proof.
  intros ret m group event pl B R. unfold probePrefix. destruct ret.
  - destruct (Z.ltb_spec 0 m).
    + cbn [Z.eqb Pos.eqb]. pose proof (num_d m ltac:(lia)) as N. pose proof (digits_nonempty 10 19 m) as NE. fold (fmt_d m) in NE. destruct (fmt_d m) as [|c r]; [congruence|].
      rewrite N. cbn [bind]. rewrite Z.max_r by lia. reflexivity.
    + cbn. rewrite Z.max_l by lia. reflexivity.
  - cbn. rewrite Z.max_l by (specialize (R eq_refl); lia). reflexivity.
Qed.
(** ** C87: the kernel reads what was meant, and nothing else *)
Theorem C87_line : forall a l, eventLine a = Ok l -> 0 <= a_offset a < 2 ^ 64 -> 0 <= a_ref a < 2 ^ 64 -> a_maxActive a < 2 ^ 63 ->
  match a_kind a with Kprobe => kernelSymbol (a_symbol a) | Uprobe => plainPath (a_path a) end ->
  kernelReads (a_kind a) l = [Some (wanted a)].
Proof.
  intros a l H O RF M K. unfold eventLine in H.
  destruct (validIdentifier (a_group a)) eqn:G; [|discriminate]. destruct (validIdentifier (sanitizeIdentifier (a_symbol a))) eqn:N; [|discriminate]. cbn [negb orb] in H.
  apply valid_spec in G. assert (E : Forall (fun c => alnum c \/ c = 95) (sanitizeIdentifier (a_symbol a))) by apply sanitize_chars.
  destruct (prefix_ok (a_ret a) (a_maxActive a)) as [P1 P2]. destruct (prefix_ok (a_ret a) 0) as [P3 P4]. unfold wanted. destruct (a_kind a) eqn:KD.
  - destruct (negb (a_maxActive a =? 0) && negb (a_ret a)) eqn:MA; [discriminate|]. injection H as <-.
    destruct (symbol_chars _ K) as [SC SN].
    match goal with |- kernelReads _ ?l = _ => change l with (probePrefix (a_ret a) (a_maxActive a) ++ [58] ++ a_group a ++ [47] ++ sanitizeIdentifier (a_symbol a) ++ [32] ++ KprobeToken a) end.
    rewrite (parse_names Kprobe _ _ _ _ (PSymbol (a_symbol a) (a_offset a)) P1 P2 G E).
    + rewrite prefix_read; [reflexivity|exact M|]. intro R. rewrite R in MA. cbn in MA. rewrite andb_true_r in MA. apply negb_false_iff, Z.eqb_eq in MA. lia.
    + unfold KprobeToken. apply Forall_app. split; [eapply Forall_impl; [|exact SC]; intros; apply okc_range; chars|]. destruct (a_offset a =? 0); [constructor|]. constructor; [apply okc_range; lia|].
      eapply Forall_impl; [|apply fmt_x_chars; lia]. intros. apply okc_range. chars.
    + unfold KprobeToken. destruct (a_symbol a); [congruence|discriminate].
    + unfold parsePlace, KprobeToken. destruct (Z.eqb_spec (a_offset a) 0) as [Z0|Z0].
      * rewrite app_nil_r, cutFirst_none by (eapply Forall_impl; [|exact SC]; intros; chars). rewrite Z0. reflexivity.
      * cbn [app]. rewrite cutFirst_app by (eapply Forall_impl; [|exact SC]; intros; chars). rewrite num_x by lia. reflexivity.
  - destruct (Z.eqb_spec (a_maxActive a) 0) as [MA|MA]; [|discriminate]. cbn [negb] in H. injection H as <-. rewrite MA.
    assert (XC : forall x, x = 40 \/ x = 41 \/ x = 58 -> forall n, 0 <= n -> Forall (fun c => c <> x) (fmt_x n)) by (intros x X n Hn; eapply Forall_impl; [|apply fmt_x_chars; exact Hn]; intros; chars).
    assert (XO : forall n, 0 <= n -> Forall okc (fmt_x n)) by (intros n Hn; eapply Forall_impl; [|apply fmt_x_chars; exact Hn]; intros; apply okc_range; chars).
    match goal with |- kernelReads _ ?l = _ => change l with (probePrefix (a_ret a) 0 ++ [58] ++ a_group a ++ [47] ++ sanitizeIdentifier (a_symbol a) ++ [32] ++ UprobeToken a) end.
    rewrite (parse_names Uprobe _ _ _ _ (PFile (a_path a) (a_offset a) (a_ref a)) P3 P4 G E).
    + rewrite prefix_read; [reflexivity|lia|lia].
    + unfold UprobeToken. apply Forall_app. split; [exact K|]. constructor; [apply okc_range; lia|]. apply Forall_app. split; [apply XO; lia|].
      destruct (a_ref a =? 0); [constructor|]. constructor; [apply okc_range; lia|]. apply Forall_app. split; [apply XO; lia|constructor; [apply okc_range; lia|constructor]].
    + unfold UprobeToken. destruct (a_path a); discriminate.
    + unfold parsePlace, UprobeToken. cbn [app]. rewrite cutLast_app.
      * cbn [bind]. destruct (Z.eqb_spec (a_ref a) 0) as [Z0|Z0].
        -- rewrite app_nil_r, cutFirst_none by (apply XC; [tauto|lia]). rewrite num_x by lia. cbn. rewrite Z0. reflexivity.
        -- rewrite cutFirst_app by (apply XC; [tauto|lia]). rewrite num_x by lia. cbn [bind]. rewrite cutFirst_app by (apply XC; [tauto|lia]). cbn [bind]. rewrite num_x by lia. reflexivity.
      * apply Forall_app. split; [apply XC; [tauto|lia]|]. destruct (a_ref a =? 0); [constructor|]. constructor; [lia|]. apply Forall_app. split; [apply XC; [tauto|lia]|constructor; [lia|constructor]].
Qed.
(** Nothing is refused except invalid groups, symbols without a usable name and the misuse of
    maxactive. *)
Theorem C87_complete : forall a, (exists l, eventLine a = Ok l) <->
  identifier (a_group a) /\ (exists c r, a_symbol a = c :: r /\ ~ isNumber c) /\ (a_maxActive a = 0 \/ a_kind a = Kprobe /\ a_ret a = true).
Proof.
  intro a. unfold eventLine. rewrite <- (valid_spec (a_group a)), <- (C87_name (a_symbol a)).
  destruct (validIdentifier (a_group a)); cbn [negb orb]; [|split; [intros (l & X); discriminate|intros (X & _); discriminate]].
  destruct (validIdentifier (sanitizeIdentifier (a_symbol a))); cbn [negb]; [|split; [intros (l & X); discriminate|intros (_ & X & _); discriminate]].
  destruct (Z.eqb_spec (a_maxActive a) 0) as [Z0|Z0]; cbn [negb andb].
  - destruct (a_kind a); (split; [auto|eauto]).
  - destruct (a_kind a); [|split; [intros (l & X); discriminate|intros (_ & _ & [X|[X _]]); [congruence|discriminate]]].
    destruct (a_ret a); cbn [negb]; [split; [auto|eauto]|split; [intros (l & X); discriminate|intros (_ & _ & [X|[_ X]]); [congruence|discriminate]]].
Qed.
(** ** Groups *)
Lemma hex_inj : forall a b, 0 <= a < 256 -> 0 <= b < 256 -> digit (a / 16) = digit (b / 16) -> digit (a mod 16) = digit (b mod 16) -> a = b.
Proof.
  intros a b A B H1 H2. assert (D : forall x y, 0 <= x < 16 -> 0 <= y < 16 -> digit x = digit y -> x = y) by (intros x y X Y; unfold digit; destruct (Z.ltb_spec x 10), (Z.ltb_spec y 10); lia).
  apply D in H1; [|split; [apply Z.div_pos; lia|apply Z.div_lt_upper_bound; lia]|split; [apply Z.div_pos; lia|apply Z.div_lt_upper_bound; lia]].
  apply D in H2; [|apply Z.mod_pos_bound; lia|apply Z.mod_pos_bound; lia]. rewrite (Z_div_mod_eq_full a 16), (Z_div_mod_eq_full b 16). congruence.
Qed.
Lemma fmt_bytes_inj : forall a b, bytes_ok a -> bytes_ok b -> fmt_bytes a = fmt_bytes b -> a = b.
Proof.
  induction a as [|x a IH]; intros [|y b] A B H; cbn in H; try discriminate; [reflexivity|]. inversion A as [|u us U1 U2]; subst. inversion B as [|v vs V1 V2]; subst.
  injection H as H1 H2 H3. f_equal; [apply hex_inj; auto|apply IH; auto].
Qed.
Lemma fmt_bytes_chars : forall b, bytes_ok b -> Forall hexChar (fmt_bytes b) /\ length (fmt_bytes b) = (2 * length b)%nat.
Proof.
  induction b as [|c b IH]; intro H; [split; [constructor|reflexivity]|]. inversion H as [|x xs X1 X2]; subst. destruct (IH X2) as [F L]. unfold is_byte in X1. split.
  - cbn. constructor; [apply (digit_spec 16); [lia|]; split; [apply Z.div_pos; lia|apply Z.div_lt_upper_bound; lia]|]. constructor; [apply (digit_spec 16); [lia|apply Z.mod_pos_bound; lia]|exact F].
  - unfold fmt_bytes in *. cbn. rewrite L. lia.
Qed.
(** A prefix of up to 46 valid characters gives a valid group of at most 63, a different one for
    different random bytes; all others are refused. *)
Theorem C87_group : forall prefix b, bytes_ok b -> length b = 8%nat ->
  match RandomGroup prefix b with
  | Ok g => identifier g /\ (length g <= 63)%nat /\ identifier prefix /\ exists r, g = prefix ++ r
  | Err _ => ~ identifier prefix \/ (46 < length prefix)%nat
  end.
Proof.
  intros prefix b B L. unfold RandomGroup. destruct (validIdentifier prefix) eqn:V; cbn [negb]; [|left; intro X; apply valid_spec in X; congruence]. apply valid_spec in V.
  destruct (fmt_bytes_chars b B) as [C LN]. destruct (Z.ltb_spec 63 (Z.of_nat (length (prefix ++ [95] ++ fmt_bytes b)))) as [X|X]; rewrite !app_length in X; cbn [length] in X.
  - right. lia.
  - split; [|split; [rewrite !app_length; cbn [length]; lia|split; [exact V|eauto]]]. destruct V as (c & r & -> & A & F). exists c, (r ++ [95] ++ fmt_bytes b). split; [reflexivity|]. split; [exact A|].
    apply Forall_app. split; [exact F|]. constructor; [auto|]. eapply Forall_impl; [|exact C]. intros. chars.
Qed.
Theorem C87_group_distinct : forall prefix b1 b2 g, bytes_ok b1 -> bytes_ok b2 -> RandomGroup prefix b1 = Ok g -> RandomGroup prefix b2 = Ok g -> b1 = b2.
Proof.
  intros prefix b1 b2 g B1 B2 H1 H2. unfold RandomGroup in *. destruct (validIdentifier prefix); [|discriminate]. cbn [negb] in *.
  destruct (63 <? _); [discriminate|]. destruct (63 <? _); [discriminate|]. injection H1 as <-. injection H2 as E. apply app_inv_head in E. injection E as E. symmetry. apply fmt_bytes_inj; auto.
Qed.

(** ** Examples and what does not hold *)
Definition ebpf_ : str := [101; 98; 112; 102; 95; 49].   (* ebpf_1 *)
Definition readline : str := [114; 101; 97; 100; 108; 105; 110; 101].
Definition bash : str := [47; 98; 105; 110; 47; 98; 97; 115; 104].   (* /bin/bash *)
(** r:ebpf_1/readline /bin/bash:0x12345(0x7) *)
Example C87_ex_uprobe : exists l, eventLine (Args Uprobe readline ebpf_ bash 0x12345 7 0 true) = Ok l /\
  l = [114; 58] ++ ebpf_ ++ [47] ++ readline ++ [32] ++ bash ++ [58; 48; 120; 49; 50; 51; 52; 53; 40; 48; 120; 55; 41] /\ plainPath bash.
Proof. eexists. split; [reflexivity|]. split; [reflexivity|]. repeat constructor; discriminate. Qed.
(** r10:ebpf_1/f_isra_5 f.isra.5+0x10 *)
Example C87_ex_kprobe : exists l, eventLine (Args Kprobe [102; 46; 105; 115; 114; 97; 46; 53] ebpf_ [] 16 0 10 true) = Ok l /\
  l = [114; 49; 48; 58] ++ ebpf_ ++ [47; 102; 95; 105; 115; 114; 97; 95; 53; 32; 102; 46; 105; 115; 114; 97; 46; 53; 43; 48; 120; 49; 48] /\ kernelSymbol [102; 46; 105; 115; 114; 97; 46; 53].
Proof. eexists. split; [reflexivity|]. split; [reflexivity|]. apply kprobe_spec. reflexivity. Qed.
(** An address without a symbol, as the documentation of Uprobe suggests, does not work. *)
Theorem C87_no_symbol_refuted : forall group path off ref ret, validIdentifier group = true -> eventLine (Args Uprobe [] group path off ref 0 ret) = Err EName.
Proof. intros group path off ref ret G. unfold eventLine. cbn [a_group a_symbol]. rewrite G. reflexivity. Qed.
(** The kernel does not read what was meant if the path has a space, or a letter like the Latin
    a with grave accent, whose second byte is taken for one. *)
Theorem C87_space_refuted : exists a b l, In a [32; 160] /\ eventLine (Args Uprobe readline ebpf_ (bash ++ [195; a; b]) 0 0 0 false) = Ok l /\ kernelReads Uprobe l = [None].
Proof. exists 160, 47. eexists. split; [cbn; tauto|]. split; reflexivity. Qed.
(** A path with a newline is a second command. *)
Theorem C87_newline_refuted : exists path l c, eventLine (Args Uprobe readline ebpf_ (bash ++ [58; 48; 10] ++ path) 0 0 0 false) = Ok l /\ kernelReads Uprobe l = [Some c; Some (Cmd false 0 [103] [101] (PFile bash 0 0))].
Proof. exists ([112; 58; 103; 47; 101; 32] ++ bash). do 2 eexists. split; reflexivity. Qed.
Print Assumptions C87_identifier.
Print Assumptions C87_symbol.
Print Assumptions C87_sanitize.
Print Assumptions C87_name.
Print Assumptions C87_line.
Print Assumptions C87_complete.
Print Assumptions C87_group.
Print Assumptions C87_group_distinct.
Print Assumptions C87_no_symbol_refuted.
Print Assumptions C87_space_refuted.
Print Assumptions C87_newline_refuted.
