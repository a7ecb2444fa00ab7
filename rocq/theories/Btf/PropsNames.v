(** C43 and C44: accessor strings and essential names. *)
From Coq Require Import ZArith List Lia Bool.
From Verif.Base Require Import GoInt.
From Verif.Btf Require Import Names.
Import ListNotations.
Open Scope Z_scope.

(** ** Specification *)
(** a decimal number and its value *)
Definition digit (c : Z) : Prop := 48 <= c <= 57.
Definition dec_value (s : list Z) : Z := fold_left (fun v c => 10 * v + (c - 48)) s 0.
Definition decimal (s : list Z) (n : Z) : Prop := s <> [] /\ Forall digit s /\ dec_value s = n.
(** [s] is [p1:p2:...:pk], k >= 1 *)
Inductive colon_list : list Z -> list (list Z) -> Prop :=
| cl_one p : colon_list p [p]
| cl_cons p s ps : colon_list s ps -> colon_list (p ++ colon :: s) (p :: ps).
(** the accessors a string may denote *)
Definition denotes (s : list Z) (ns : list Z) : Prop :=
  exists ps, colon_list s ps /\ Forall2 (fun p n => decimal p n /\ n < 2 ^ 31) ps ns.

(** ** Proof *)
Definition nocolon (p : list Z) := Forall (fun c => c <> colon) p.
Lemma split_nonempty s : split s <> [].
Proof. induction s as [|c s IH]; cbn [split]; [discriminate|]. destruct (c =? colon); [discriminate|]. destruct (split s); discriminate. Qed.
Lemma split_nocolon p : nocolon p -> split p = [p].
Proof.
  induction 1 as [|c p Hc Hp IH]; [reflexivity|]. cbn [split]. destruct (Z.eqb_spec c colon); [contradiction|]. now rewrite IH.
Qed.
Lemma split_app p s : nocolon p -> split (p ++ colon :: s) = p :: split s.
Proof.
  induction 1 as [|c p Hc Hp IH]; cbn [split app]; [now rewrite Z.eqb_refl|].
  destruct (Z.eqb_spec c colon); [contradiction|]. now rewrite IH.
Qed.
Lemma split_spec s : colon_list s (split s) /\ Forall nocolon (split s).
Proof.
  induction s as [|c s (IH & N)]; cbn [split]; [split; [constructor|repeat constructor]|].
  destruct (Z.eqb_spec c colon) as [->|Hc].
  - split; [apply (cl_cons [] s _ IH)|constructor; [constructor|exact N]].
  - destruct (split s) as [|p ps] eqn:E; [now apply split_nonempty in E|].
    inversion N as [|? ? N1 N2]; subst. split; [|constructor; [constructor; assumption|assumption]].
    inversion IH; subst; [apply cl_one|]. apply (cl_cons (c :: p)). assumption.
Qed.
Lemma colon_split s ps : colon_list s ps -> Forall nocolon ps -> split s = ps.
Proof.
  induction 1 as [p|p s ps C IH]; intros N; inversion N; subst; [now apply split_nocolon|].
  rewrite split_app by assumption. now rewrite IH.
Qed.
Lemma digits_nocolon p : Forall digit p -> nocolon p.
Proof. apply Forall_impl. intros c H. unfold digit in H. unfold colon. lia. Qed.

Definition dval (v : Z) (s : list Z) := fold_left (fun v c => 10 * v + (c - 48)) s v.
Lemma dval_mono s v : 0 <= v -> Forall digit s -> v <= dval v s.
Proof.
  intros Hv H. revert v Hv. induction H as [|c s Hc Hs IH]; intros v Hv; cbn [dval fold_left]; [lia|].
  unfold digit in Hc. specialize (IH (10 * v + (c - 48)) ltac:(lia)). unfold dval in IH. lia.
Qed.
Lemma u64_small x : 0 <= x < 2 ^ 64 -> u64 x = x.
Proof. apply wrapu_id. Qed.
Lemma parse_digits_spec s n r : 0 <= n <= maxVal ->
  parse_digits s n = Ok r <-> Forall digit s /\ dval n s = r /\ r <= maxVal.
Proof.
  revert n. induction s as [|c s IH]; intros n Hn; cbn [parse_digits].
  - cbn [dval fold_left]. split; [intros E; inversion E; subst; repeat split; [constructor|lia]|intros (_ & -> & _); reflexivity].
  - unfold maxVal in *. destruct (Z.leb_spec 48 c), (Z.leb_spec c 57); cbn [andb].
    2-4: (split; [discriminate|intros (F & _); inversion F as [|? ? D ?]; subst; unfold digit in D; lia]).
    change cutoff with 1844674407370955162. destruct (Z.geb_spec n 1844674407370955162); [lia|].
    rewrite (u64_small (n * 10)) by (change (2 ^ 64) with 18446744073709551616; lia).
    rewrite (u64_small (n * 10 + (c - 48))) by (change (2 ^ 64) with 18446744073709551616; lia).
    destruct (Z.ltb_spec (n * 10 + (c - 48)) (n * 10)); [lia|]. cbn [orb].
    change (dval n (c :: s)) with (dval (10 * n + (c - 48)) s).
    destruct (Z.gtb_spec (n * 10 + (c - 48)) 2147483647).
    + split; [discriminate|]. intros (F & <- & L). inversion F; subst.
      pose proof (dval_mono s (10 * n + (c - 48)) ltac:(lia) ltac:(assumption)). lia.
    + replace (n * 10 + (c - 48)) with (10 * n + (c - 48)) by lia. rewrite IH by lia.
      split; intros (F & E & L); (split; [|tauto]).
      * constructor; [unfold digit; lia|assumption].
      * now inversion F.
Qed.
Lemma ParseUint_spec p n : ParseUint p = Ok n <-> decimal p n /\ n < 2 ^ 31.
Proof.
  unfold ParseUint, decimal. destruct p as [|c p]; [split; [discriminate|intros ((H & _) & _); congruence]|].
  rewrite parse_digits_spec by (unfold maxVal; lia). unfold dec_value, dval, maxVal. change (2 ^ 31) with 2147483648.
  split.
  - intros (F & E & L). repeat split; [discriminate|assumption|assumption|lia].
  - intros ((_ & F & E) & L). repeat split; [assumption|assumption|lia].
Qed.
Lemma parse_parts_spec ps ns : parse_parts ps = Ok ns <-> Forall2 (fun p n => decimal p n /\ n < 2 ^ 31) ps ns.
Proof.
  revert ns. induction ps as [|p ps IH]; intros ns; cbn [parse_parts].
  - split; [intros E; inversion E; constructor|intros F; inversion F; reflexivity].
  - destruct (ParseUint p) as [i|e] eqn:E.
    + apply ParseUint_spec in E. destruct (parse_parts ps) as [r|e] eqn:R.
      * split; [intros X; inversion X; subst; constructor; [assumption|now apply IH]|].
        intros F. inversion F as [|? n ? ns' D F']; subst. apply IH in F'. inversion F'; subst.
        destruct D as ((_ & _ & <-) & _), E as ((_ & _ & <-) & _). reflexivity.
      * split; [discriminate|]. intros F. inversion F as [|? n ? ns' D F']; subst. apply IH in F'. discriminate.
    + split; [discriminate|]. intros F. inversion F as [|? n ? ns' D F']; subst. apply ParseUint_spec in D. congruence.
Qed.

(** ** C43 *)
(** The parser accepts exactly the colon separated lists of decimal numbers below 2^31 and returns the numbers. *)
Theorem C43_parse : forall s ns, parseCOREAccessor s = Ok ns <-> denotes s ns.
Proof.
  intros s ns. unfold denotes. split.
  - intros E. exists (split s). split; [apply split_spec|]. apply parse_parts_spec.
    destruct s; [discriminate|exact E].
  - intros (ps & C & F).
    assert (N : Forall nocolon ps).
    { clear C. induction F as [|p n ps ns ((_ & D & _) & _) F IH]; constructor; [now apply digits_nocolon|assumption]. }
    pose proof (colon_split s ps C N) as E. apply parse_parts_spec in F. rewrite <- E in F.
    destruct s as [|c s]; [|exact F]. cbn [split] in F. discriminate F.
Qed.
(** There is always at least one index and all are in range. *)
Theorem C43_nonempty : forall s ns, parseCOREAccessor s = Ok ns -> ns <> [] /\ Forall (fun n => 0 <= n < 2 ^ 31) ns.
Proof.
  intros s ns E. apply C43_parse in E. destruct E as (ps & C & F). split.
  - intros ->. inversion F; subst. inversion C.
  - clear C. induction F as [|p n ps ns ((_ & D & V) & L) F IH]; constructor; [|assumption].
    pose proof (dval_mono p 0 ltac:(lia) D). unfold dec_value in V. unfold dval in H. lia.
Qed.

Lemma itoa_fuel_spec f n : 0 <= n < 10 ^ Z.of_nat f -> (0 < f)%nat -> decimal (itoa_fuel f n) n.
Proof.
  revert n. induction f as [|f IH]; intros n Hn Hf; [lia|]. cbn [itoa_fuel].
  destruct (Z.ltb_spec n 10) as [L|L].
  - repeat split; [discriminate|repeat constructor; unfold digit; lia|]. unfold dec_value. cbn [fold_left]. lia.
  - rewrite Nat2Z.inj_succ, Z.pow_succ_r in Hn by lia.
    destruct f as [|f]; [cbn in Hn; lia|].
    destruct (IH (n / 10)) as (A & B & C); [lia|lia|]. repeat split.
    + intros X. apply app_eq_nil in X. destruct X; discriminate.
    + apply Forall_app. split; [assumption|]. repeat constructor; unfold digit; lia.
    + unfold dec_value in *. rewrite fold_left_app, C. cbn [fold_left]. lia.
Qed.
Lemma join_colon ps : ps <> [] -> colon_list (join ps) ps.
Proof.
  induction ps as [|p ps IH]; [congruence|]. intros _. destruct ps as [|q ps]; [apply cl_one|].
  cbn [join]. apply cl_cons. apply IH. discriminate.
Qed.
(** Parsing inverts formatting. *)
Theorem C43_format : forall ca, ca <> [] -> Forall (fun n => 0 <= n < 2 ^ 31) ca ->
  parseCOREAccessor (accessorString ca) = Ok ca.
Proof.
  intros ca Hne H. apply C43_parse. exists (map itoa ca). split.
  - apply join_colon. now destruct ca.
  - clear Hne. induction H as [|n ca Hn H IH]; constructor; [|assumption].
    split; [|lia]. apply itoa_fuel_spec; [|lia]. change (10 ^ Z.of_nat 20) with 100000000000000000000. change (2 ^ 31) with 2147483648 in Hn. lia.
Qed.
Example C43_example : denotes [48; 58; 49; 48; 58; 50; 49; 52; 55; 52; 56; 51; 54; 52; 55] [0; 10; 2147483647] /\
  parseCOREAccessor [50; 49; 52; 55; 52; 56; 51; 54; 52; 56] = Err Range /\ parseCOREAccessor [48; 58] = Err Syntax /\
  parseCOREAccessor [45; 49] = Err Syntax /\ accessorString [7; 120] = [55; 58; 49; 50; 48].
Proof. split; [now apply C43_parse|]. repeat split. Qed.

(** ** C44 *)
(** [___] occurs in [s] at position [i] *)
Definition occurs (s : list Z) (i : nat) : Prop :=
  exists p q, s = p ++ [underscore; underscore; underscore] ++ q /\ length p = i.

Lemma flavour_at_occurs s : flavour_at s = true <-> occurs s 0.
Proof.
  unfold occurs. split.
  - destruct s as [|a [|b [|c q]]]; cbn [flavour_at]; try discriminate.
    intros H. apply andb_prop in H as [H H3]. apply andb_prop in H as [H1 H2].
    apply Z.eqb_eq in H1, H2, H3. subst. exists [], q. split; reflexivity.
  - intros (p & q & -> & L). destruct p; [reflexivity|discriminate L].
Qed.
Lemma occurs_cons c s i : occurs (c :: s) (S i) <-> occurs s i.
Proof.
  unfold occurs. split.
  - intros (p & q & E & L). destruct p as [|d p]; [discriminate L|]. inversion E; subst. exists p, q. split; [reflexivity|]. cbn in L. lia.
  - intros (p & q & E & L). exists (c :: p), q. rewrite E. split; [reflexivity|]. cbn. lia.
Qed.
Lemma lastIndex_spec s :
  (lastIndex s = -1 /\ forall i, ~ occurs s i) \/
  (exists i, lastIndex s = Z.of_nat i /\ occurs s i /\ forall j, occurs s j -> (j <= i)%nat).
Proof.
  induction s as [|c s IH]; cbn [lastIndex].
  - left. split; [reflexivity|]. intros i (p & q & E & _). destruct p; discriminate E.
  - destruct IH as [(E & N)|(i & E & O & M)].
    + rewrite E. change (-1 >=? 0) with false. cbv iota.
      destruct (flavour_at (c :: s)) eqn:F.
      * apply flavour_at_occurs in F. right. exists 0%nat. split; [reflexivity|]. split; [exact F|].
        intros [|j] O; [lia|]. apply (proj1 (occurs_cons _ _ _)) in O. exfalso; exact (N _ O).
      * left. split; [reflexivity|]. intros [|i] O; [apply flavour_at_occurs in O; congruence|]. apply (proj1 (occurs_cons _ _ _)) in O. exfalso; exact (N _ O).
    + rewrite E. destruct (Z.geb_spec (Z.of_nat i) 0); [|lia]. right. exists (S i). split; [lia|].
      split; [now apply occurs_cons|]. intros [|j] O'; [lia|]. apply (proj1 (occurs_cons _ _ _)), M in O'. lia.
Qed.

(** The last [___] that is preceded by at least one byte, and everything after it, is removed. *)
Theorem C44_strip : forall base suffix, base <> [] ->
  (forall j, occurs (base ++ [underscore; underscore; underscore] ++ suffix) j -> (j <= length base)%nat) ->
  newEssentialName (base ++ [underscore; underscore; underscore] ++ suffix) = base.
Proof.
  intros base suffix Hb M. set (n := base ++ _).
  assert (On : occurs n (length base)) by (exists base, suffix; split; reflexivity).
  unfold newEssentialName. destruct n as [|c n'] eqn:En; [destruct base; [congruence|discriminate En]|].
  rewrite <- En in *. destruct (lastIndex_spec n) as [(_ & N)|(i & E & O & M')]; [exfalso; exact (N _ On)|].
  assert (i = length base) by (specialize (M i O); specialize (M' _ On); lia). subst i. rewrite E.
  destruct (Z.gtb_spec (Z.of_nat (length base)) 0) as [_|G]; [|destruct base; [congruence|cbn [length] in G; lia]].
  rewrite Nat2Z.id. unfold n. rewrite firstn_app, Nat.sub_diag, firstn_all. cbn [firstn]. apply app_nil_r.
Qed.
(** Every other name is unchanged. *)
Theorem C44_keep : forall n, (forall i, occurs n i -> i = 0%nat) -> newEssentialName n = n.
Proof.
  intros n N. unfold newEssentialName. destruct n as [|c n]; [reflexivity|].
  destruct (lastIndex_spec (c :: n)) as [(E & _)|(i & E & O & _)]; [rewrite E; reflexivity|].
  rewrite E, (N i O). reflexivity.
Qed.
(** In all cases: the result is a non-empty prefix (of a non-empty name) and what is cut off starts with [___]. *)
Theorem C44_total : forall n,
  (newEssentialName n = n /\ forall i, occurs n i -> i = 0%nat) \/
  (exists suffix, newEssentialName n <> [] /\ n = newEssentialName n ++ [underscore; underscore; underscore] ++ suffix /\
     forall j, occurs n j -> (j <= length (newEssentialName n))%nat).
Proof.
  intros n. destruct (lastIndex_spec n) as [(E & N)|(i & E & O & M)].
  - left. assert (H : forall i, occurs n i -> i = 0%nat) by (intros i O; exfalso; exact (N _ O)). split; [now apply C44_keep|exact H].
  - destruct i as [|i].
    + left. assert (H : forall i, occurs n i -> i = 0%nat) by (intros j Oj; apply M in Oj; lia). split; [now apply C44_keep|exact H].
    + right. destruct O as (p & q & -> & L).
      assert (E2 : newEssentialName (p ++ [underscore; underscore; underscore] ++ q) = p).
      { apply C44_strip; [intros ->; discriminate L|]. intros j Oj. apply M in Oj. lia. }
      exists q. rewrite E2. split; [intros ->; discriminate L|]. split; [reflexivity|]. rewrite L. exact M.
Qed.
(** Two flavours of one name match. *)
Corollary C44_flavours_match : forall base s1 s2, base <> [] ->
  (forall j, occurs (base ++ [underscore; underscore; underscore] ++ s1) j -> (j <= length base)%nat) ->
  (forall j, occurs (base ++ [underscore; underscore; underscore] ++ s2) j -> (j <= length base)%nat) ->
  newEssentialName (base ++ [underscore; underscore; underscore] ++ s1) = newEssentialName (base ++ [underscore; underscore; underscore] ++ s2).
Proof. intros. rewrite !C44_strip by assumption. reflexivity. Qed.
Example C44_example :
  newEssentialName [97; 95; 95; 95; 98] = [97] /\ newEssentialName [95; 95; 95; 98] = [95; 95; 95; 98] /\
  newEssentialName [97; 95; 95; 95; 98; 95; 95; 95; 99] = [97; 95; 95; 95; 98] /\ newEssentialName [97; 95; 95; 95; 95] = [97; 95] /\
  (forall j, occurs ([97] ++ [underscore; underscore; underscore] ++ [98]) j -> (j <= length [97])%nat).
Proof.
  repeat split; try reflexivity. intros j O. destruct (lastIndex_spec ([97] ++ [underscore; underscore; underscore] ++ [98])) as [(E & _)|(i & E & _ & M)]; [discriminate E|].
  change (lastIndex _) with 1 in E. specialize (M j O). cbn [length]. lia.
Qed.
