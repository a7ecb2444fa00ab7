(** C75: the type of a program according to the name of its section. *)
From Coq Require Import String Ascii.
From Verif.Base Require Import GoInt.
From Verif.Internal Require Import Kallsyms KallsymsSpec KallsymsProof Kconfig KconfigParse.
From Verif.Elf Require Import Sections.

(** ** Specification *)
(** [admits p n x]: pattern [p] admits the name [n] with the attach target [x].  43: +, 47: / *)
Inductive admits : str -> str -> str -> Prop :=
| ad_bare stem : admits (stem ++ [43]) stem []
| ad_extra stem x : admits (stem ++ [43]) (stem ++ 47 :: x) x
| ad_slash stem x : admits (stem ++ [47]) (stem ++ 47 :: x) x
| ad_prefix p rest : last p 0 <> 43 -> last p 0 <> 47 -> admits p (p ++ rest) [].
(** what a pattern says about the beginning of the name *)
Definition stem (p : str) : str := if (last p 0 =? 43) || (last p 0 =? 47) then removelast p else p.
(** patterns which end in + or / don't contain others *)
Definition well_formed (p : str) : Prop := p <> [] /\ (last p 0 = 43 \/ last p 0 = 47 -> Forall (fun c => c <> 43 /\ c <> 47) (stem p)).

Definition flags_of (e : def) : Z := Z.lor (if Z.testbit (d_flags e) 3 then 16 else 0) (if Z.testbit (d_flags e) 4 then 32 else 0).
Definition result (e : def) (x : str) : ptype := mkPtype (d_type e) (d_attach e) (flags_of e) (if d_type e =? 27 then [] else x).

(** ** Matching *)
Lemma last_snoc_cases : forall p : str, p = [] \/ exists q c, p = q ++ [c].
Proof. intros p. destruct (list_eq_dec Z.eq_dec p []) as [->|H]; auto. right. destruct (exists_last H) as (q & c & ->). eauto. Qed.
Lemma hasSuffix_last : forall p c, c <> 0 -> hasSuffix p c = (last p 0 =? c).
Proof. intros p c Hc. unfold hasSuffix. destruct (last_snoc_cases p) as [->|(q & d & ->)]. - cbn [rev last]. symmetry. apply Z.eqb_neq. congruence. - rewrite rev_app_distr, last_last. reflexivity. Qed.
Lemma trimLeftMarks_id : forall q, Forall (fun c => c <> 43 /\ c <> 47) q -> trimLeftMarks q = q.
Proof. intros [|c q] H; auto. inversion H as [|? ? [H1 H2] _]; subst. cbn [trimLeftMarks]. destruct (Z.eqb_spec c 43), (Z.eqb_spec c 47); try contradiction. reflexivity. Qed.
Lemma trimMarks_snoc : forall q c, c = 43 \/ c = 47 -> Forall (fun c => c <> 43 /\ c <> 47) q -> trimMarks (q ++ [c]) = q.
Proof.
  intros q c Hc H. unfold trimMarks. rewrite rev_app_distr. cbn [rev app trimLeftMarks]. replace ((c =? 43) || (c =? 47)) with true by (destruct Hc; subst; reflexivity).
  rewrite trimLeftMarks_id by now apply Forall_rev. apply rev_involutive.
Qed.
Lemma cutSlash_bare : forall n, Forall (fun c => c <> 47) n -> cutSlash n = (n, [], false).
Proof. intros n H. unfold cutSlash. now rewrite cut_none. Qed.
Lemma cutSlash_extra : forall n x, Forall (fun c => c <> 47) n -> cutSlash (n ++ 47 :: x) = (n, x, true).
Proof. intros n x H. unfold cutSlash. now rewrite cut_first. Qed.
Lemma cutSlash_inv : forall n a b f, cutSlash n = (a, b, f) -> if f then n = a ++ 47 :: b else n = a /\ b = [].
Proof. intros n a b f H. unfold cutSlash in H. destruct (cut 47 n) as [[x y]|] eqn:E; injection H as <- <- <-; auto. now apply cut_inv in E. Qed.

Lemma noslash : forall q : str, Forall (fun c => c <> 43 /\ c <> 47) q -> Forall (fun c => c <> 47) q.
Proof. intros q H. eapply Forall_impl; [|exact H]. now intros a [_ Ha]. Qed.
Theorem C75_match : forall p n x, well_formed p -> matchSectionName n p = (x, true) <-> admits p n x.
Proof.
  intros p n x [Hne Hwf]. destruct (last_snoc_cases p) as [->|(q & c & ->)]; [contradiction|]. unfold stem in Hwf. rewrite last_last, removelast_last in Hwf. unfold matchSectionName.
  destruct (cutSlash n) as [[have extra] found] eqn:Ec. pose proof (cutSlash_inv _ _ _ _ Ec) as Hn. rewrite !hasSuffix_last by lia. rewrite last_last.
  destruct (Z.eqb_spec c 47) as [E47|H47]; [subst c|].
  - assert (F : Forall (fun c => c <> 43 /\ c <> 47) q) by (apply Hwf; auto). rewrite trimMarks_snoc by auto. split.
    + destruct (str_eqb_spec have q) as [->|]; [|discriminate]. destruct found; [|discriminate]. cbn [andb]. intros H. injection H as <-. subst n. constructor.
    + intros H. remember (q ++ [47]) as p eqn:Ep. destruct H as [s|s y|s y|p rest L1 L2]; try (apply app_inj_tail in Ep; destruct Ep as [-> Ec2]; try discriminate).
      * rewrite cutSlash_extra in Ec by now apply noslash. injection Ec as <- <- <-. now rewrite str_eqb_refl.
      * subst p. rewrite last_last in L2. congruence.
  - destruct (Z.eqb_spec c 43) as [E43|H43]; [subst c|].
    + assert (F : Forall (fun c => c <> 43 /\ c <> 47) q) by (apply Hwf; auto). rewrite trimMarks_snoc by auto. split.
      * destruct (str_eqb_spec have q) as [->|]; [|discriminate]. intros H. injection H as <-. destruct found; [subst n; constructor|]. destruct Hn as [-> ->]. constructor.
      * intros H. remember (q ++ [43]) as p eqn:Ep. destruct H as [s|s y|s y|p rest L1 L2]; try (apply app_inj_tail in Ep; destruct Ep as [-> Ec2]; try discriminate).
        -- rewrite cutSlash_bare in Ec by now apply noslash. injection Ec as <- <- <-. now rewrite str_eqb_refl.
        -- rewrite cutSlash_extra in Ec by now apply noslash. injection Ec as <- <- <-. now rewrite str_eqb_refl.
        -- subst p. rewrite last_last in L1. congruence.
    + split.
      * intros H. injection H as <- H. apply hasPrefix_spec in H. destruct H as (t & ->). constructor; rewrite last_last; auto.
      * intros H. remember (q ++ [c]) as p eqn:Ep. destruct H as [s|s y|s y|p rest L1 L2]; try (apply app_inj_tail in Ep; destruct Ep as [-> Ec2]; congruence).
        f_equal. apply hasPrefix_spec. eauto.
Qed.

(** ** The table *)
Definition wfb (p : str) : bool := negb (str_eqb p []) && (negb ((last p 0 =? 43) || (last p 0 =? 47)) || forallb (fun c => negb (c =? 43) && negb (c =? 47)) (stem p)).
Lemma wfb_ok : forall p, wfb p = true -> well_formed p.
Proof.
  intros p H. unfold wfb in H. apply andb_true_iff in H. destruct H as [H1 H2]. split; [destruct (str_eqb_spec p []); [discriminate|auto]|].
  intros H. apply orb_true_iff in H2. destruct H2 as [H2|H2]; [lia|]. rewrite forallb_forall in H2. apply Forall_forall. intros c Hc. specialize (H2 c Hc). lia.
Qed.
Lemma table_wf : forall e, In e elfSectionDefs -> well_formed (lit (d_pattern e)).
Proof.
  assert (H : forallb (fun e => wfb (lit (d_pattern e))) elfSectionDefs = true) by (vm_compute; reflexivity). rewrite forallb_forall in H. intros e He. apply wfb_ok. auto.
Qed.
(** names which are admitted begin with the stem *)
Lemma admits_stem : forall p n x, admits p n x -> exists t, n = stem p ++ t /\ (last p 0 = 43 \/ last p 0 = 47 -> t = [] \/ exists u, t = 47 :: u).
Proof.
  intros p n x H. unfold stem. destruct H as [s|s y|s y|p rest L1 L2]; try (rewrite last_last, removelast_last; cbn [Z.eqb Pos.eqb orb]).
  - exists []. rewrite app_nil_r. auto.
  - exists (47 :: y). eauto.
  - exists (47 :: y). eauto.
  - exists rest. destruct (Z.eqb_spec (last p 0) 43), (Z.eqb_spec (last p 0) 47); try contradiction. split; auto. intros [?|?]; contradiction.
Qed.
(** [a] in front of [b] hides nothing which [b] would describe better *)
Definition order_ok (a b : str) : bool :=
  let sa := stem a in let sb := stem b in
  if hasPrefix sa sb then
    (* a's stem is a prefix of b's: names with b's stem must not be admitted by a *)
    ((last a 0 =? 43) || (last a 0 =? 47)) && match skipn (length sa) sb with c :: _ => negb (c =? 47) | [] => false end
  else true.
Fixpoint sorted (l : list def) : bool := match l with [] => true | e :: l => forallb (fun e' => order_ok (lit (d_pattern e)) (lit (d_pattern e'))) l && sorted l end.
Lemma table_sorted : sorted elfSectionDefs = true. Proof. vm_compute. reflexivity. Qed.
Lemma order_longer : forall a b n x y, order_ok a b = true -> admits a n x -> admits b n y -> (length (stem b) < length (stem a))%nat.
Proof.
  intros a b n x y H Ha Hb. destruct (admits_stem _ _ _ Ha) as (t & E1 & F1). destruct (admits_stem _ _ _ Hb) as (u & E2 & F2). unfold order_ok in H.
  destruct (Nat.le_gt_cases (length (stem a)) (length (stem b))) as [L|L]; [exfalso|auto].
  assert (P : exists v, stem b = stem a ++ v). { exists (skipn (length (stem a)) (stem b)). rewrite <- (firstn_skipn (length (stem a)) (stem b)) at 1. f_equal.
    assert (E : firstn (length (stem a)) n = firstn (length (stem a)) (stem a ++ t)) by now rewrite E1. rewrite E2 in E. rewrite !firstn_app in E. rewrite Nat.sub_diag in E. replace (length (stem a) - length (stem b))%nat with 0%nat in E by lia.
    rewrite !firstn_O, !app_nil_r, firstn_all in E. exact E. }
  destruct P as (v & P). rewrite (proj2 (hasPrefix_spec (stem a) (stem b))) in H by eauto. apply andb_true_iff in H. destruct H as [H1 H2]. rewrite P in H2. rewrite skipn_app, skipn_all, Nat.sub_diag in H2. cbn [skipn app] in H2.
  destruct v as [|c v]; [discriminate|]. rewrite E1, P, <- app_assoc in E2. apply app_inv_head in E2. assert (M : last a 0 = 43 \/ last a 0 = 47) by lia. destruct (F1 M) as [->|(w & ->)]; [discriminate|]. injection E2 as <- _. discriminate.
Qed.

Lemma flags_eq : forall e, 0 <= d_flags e -> (let flags := if 0 <? Z.land (d_flags e) SEC_SLEEPABLE then Z.lor 0 BPF_F_SLEEPABLE else 0 in
        if 0 <? Z.land (d_flags e) SEC_XDP_FRAGS then Z.lor flags BPF_F_XDP_HAS_FRAGS else flags) = flags_of e.
Proof.
  intros e He. cbn zeta. unfold flags_of. assert (L : forall k, 0 <= k -> (0 <? Z.land (d_flags e) (2 ^ k)) = Z.testbit (d_flags e) k).
  { intros k Hk. assert (0 < 2 ^ k) by (apply Z.pow_pos_nonneg; lia). destruct (Z.testbit (d_flags e) k) eqn:E.
    - assert (Z.land (d_flags e) (2 ^ k) = 2 ^ k). { apply Z.bits_inj'. intros n Hn. rewrite Z.land_spec, Z.pow2_bits_eqb by lia. destruct (Z.eqb_spec k n); [subst; now rewrite E|apply andb_false_r]. } lia.
    - assert (Z.land (d_flags e) (2 ^ k) = 0). { apply Z.bits_inj'. intros n Hn. rewrite Z.land_spec, Z.pow2_bits_eqb, Z.bits_0 by lia. destruct (Z.eqb_spec k n); [subst; now rewrite E|apply andb_false_r]. } lia. }
  change SEC_SLEEPABLE with (2 ^ 3). change SEC_XDP_FRAGS with (2 ^ 4). rewrite !L by lia. destruct (Z.testbit (d_flags e) 3), (Z.testbit (d_flags e) 4); reflexivity.
Qed.
Lemma search_spec : forall l n, (forall e, In e l -> well_formed (lit (d_pattern e)) /\ 0 <= d_flags e) -> sorted l = true ->
  (exists e x, In e l /\ admits (lit (d_pattern e)) n x /\ search l n = result e x /\ forall e' x', In e' l -> admits (lit (d_pattern e')) n x' -> e' = e \/ (length (stem (lit (d_pattern e'))) < length (stem (lit (d_pattern e))))%nat) \/
  (search l n = mkPtype 0 0 0 [] /\ forall e x, In e l -> ~ admits (lit (d_pattern e)) n x).
Proof.
  induction l as [|a l IH]; intros n Hwf Hs; [right; split; [reflexivity|intros e x []]|]. cbn [sorted] in Hs. apply andb_true_iff in Hs. destruct Hs as [Hs1 Hs2]. cbn [search].
  destruct (Hwf a (or_introl eq_refl)) as [Wa Fa]. destruct (matchSectionName n (lit (d_pattern a))) as [x ok] eqn:E. destruct ok; cbn [negb].
  - left. exists a, x. apply C75_match in E; auto. split; [now left|]. split; auto. split; [unfold result; rewrite <- (flags_eq a Fa); reflexivity|].
    intros e' x' [<-|He'] Had; [now left|]. right. rewrite forallb_forall in Hs1. eapply order_longer; [apply Hs1; exact He'|exact E|exact Had].
  - assert (NA : forall x', ~ admits (lit (d_pattern a)) n x') by (intros x' H; apply (C75_match _ _ _ Wa) in H; congruence).
    destruct (IH n (fun e He => Hwf e (or_intror He)) Hs2) as [(e & y & He & Had & Hr & Hmax)|[Hr Hno]].
    + left. exists e, y. split; [now right|]. split; auto. split; auto. intros e' x' [<-|He'] H; [now apply NA in H|]. now apply Hmax with x'.
    + right. split; auto. intros e x' [<-|He] H; [now apply NA in H|]. now apply (Hno e x').
Qed.
Lemma table_flags : forall e, In e elfSectionDefs -> 0 <= d_flags e.
Proof. assert (H : forallb (fun e => 0 <=? d_flags e) elfSectionDefs = true) by (vm_compute; reflexivity). rewrite forallb_forall in H. intros e He. specialize (H e He). lia. Qed.

(** ** Theorems *)
(** The type is that of the pattern which describes the name best, independent of the order of the table; names which no
    pattern admits have no type.  A leading question mark is ignored. *)
Theorem C75_best : forall name,
  let n := trimOptional name in
  (exists e x, In e elfSectionDefs /\ admits (lit (d_pattern e)) n x /\ getProgType name = result e x /\
     forall e' x', In e' elfSectionDefs -> admits (lit (d_pattern e')) n x' -> e' = e \/ (length (stem (lit (d_pattern e'))) < length (stem (lit (d_pattern e))))%nat) \/
  (getProgType name = mkPtype 0 0 0 [] /\ forall e x, In e elfSectionDefs -> ~ admits (lit (d_pattern e)) n x).
Proof. intros name n. apply search_spec; [|apply table_sorted]. intros e He. split; [now apply table_wf|now apply table_flags]. Qed.
(** hence each entry is reached by its own name, with and without a target *)
Theorem C75_reachable : forall e, In e elfSectionDefs -> getProgType (stem (lit (d_pattern e))) = result e [] /\
  forall x, last (lit (d_pattern e)) 0 = 43 -> getProgType (stem (lit (d_pattern e)) ++ 47 :: x) = result e x.
Proof.
  intros e He. set (p := lit (d_pattern e)).
  assert (T : forall t, trimOptional (stem p ++ t) = stem p ++ t).
  { assert (H : forallb (fun e => match stem (lit (d_pattern e)) with 63 :: _ => false | [] => false | _ => true end) elfSectionDefs = true) by (vm_compute; reflexivity). rewrite forallb_forall in H. specialize (H e He). fold p in H.
    intros t. destruct (stem p) as [|c s]; [discriminate|]. cbn [app]. unfold trimOptional. destruct (Z.eq_dec c 63) as [->|Hc]; [discriminate H|].
    destruct c as [|c|c]; auto. repeat (destruct c as [c|c|]; auto). now elim Hc. }
  assert (NS : last p 0 <> 47). { assert (H : forallb (fun e => negb (last (lit (d_pattern e)) 0 =? 47)) elfSectionDefs = true) by (vm_compute; reflexivity). rewrite forallb_forall in H. specialize (H e He). fold p in H. lia. }
  assert (Main : forall n x, (exists t, n = stem p ++ t) -> admits p n x -> (forall e' x', In e' elfSectionDefs -> admits (lit (d_pattern e')) n x' -> (length (stem (lit (d_pattern e'))) <= length (stem p))%nat) -> getProgType n = result e x).
  { intros n x (t & Hn) Had Hmax'. destruct (C75_best n) as [(e' & x' & He' & Had' & Hr & Hmax)|[_ Hno]]; rewrite Hn, T, <- Hn in *.
    - destruct (Hmax e x He Had) as [<-|L]; [|specialize (Hmax' e' x' He' Had'); fold p in L; lia]. rewrite Hr. f_equal. apply C75_match in Had; [|now apply table_wf]. apply C75_match in Had'; [|now apply table_wf]. fold p in Had'. congruence.
    - exfalso. now apply (Hno e x He). }
  split.
  - apply Main; [exists []; now rewrite app_nil_r| |].
    + unfold stem. destruct (Z.eqb_spec (last p 0) 43) as [E|E]; cbn [orb].
      * destruct (last_snoc_cases p) as [Hp|(q & c & Hp)]; [rewrite Hp in E; discriminate|]. rewrite Hp in *. rewrite last_last in E. subst c. rewrite removelast_last. constructor.
      * destruct (Z.eqb_spec (last p 0) 47); [contradiction|]. rewrite <- (app_nil_r p) at 2. constructor; auto.
    + intros e' x' _ Had. destruct (admits_stem _ _ _ Had) as (t & E & _). rewrite E, app_length. lia.
  - intros x E. apply Main; [eauto| |].
    + destruct (last_snoc_cases p) as [Hp|(q & c & Hp)]; [rewrite Hp in E; discriminate|]. unfold stem. rewrite E. cbn [Z.eqb Pos.eqb orb]. rewrite Hp in *. rewrite last_last in E. subst c. rewrite removelast_last. constructor.
    + intros e' x' He' Had. destruct (admits_stem _ _ _ Had) as (t & E2 & _).
      assert (H : forallb (fun a => forallb (fun b => negb (last (lit (d_pattern a)) 0 =? 43) || negb (hasPrefix (stem (lit (d_pattern a)) ++ [47]) (stem (lit (d_pattern b))))) elfSectionDefs) elfSectionDefs = true) by (vm_compute; reflexivity).
      rewrite forallb_forall in H. specialize (H e He). rewrite forallb_forall in H. specialize (H e' He'). fold p in H. rewrite E in H. cbn [Z.eqb Pos.eqb negb orb] in H. apply negb_true_iff in H.
      destruct (Nat.le_gt_cases (length (stem (lit (d_pattern e')))) (length (stem p))) as [L|L]; [auto|exfalso]. rewrite (proj2 (hasPrefix_spec _ _)) in H; [discriminate|].
      exists (skipn (length (stem p) + 1) (stem (lit (d_pattern e')))). rewrite <- (firstn_skipn (length (stem p) + 1) (stem (lit (d_pattern e')))) at 1. f_equal.
      assert (F : firstn (length (stem p) + 1) (stem p ++ 47 :: x) = firstn (length (stem p) + 1) (stem (lit (d_pattern e')) ++ t)) by now rewrite E2.
      rewrite !firstn_app in F. replace (length (stem p) + 1 - length (stem (lit (d_pattern e'))))%nat with 0%nat in F by lia. rewrite firstn_O, app_nil_r in F. rewrite <- F. rewrite firstn_all2 by lia. f_equal.
      replace (length (stem p) + 1 - length (stem p))%nat with 1%nat by lia. reflexivity.
Qed.
(** Sleepable variants differ from the others only in the flag. *)
Theorem C75_sleepable : forall e e' x, In e elfSectionDefs -> In e' elfSectionDefs -> stem (lit (d_pattern e')) = stem (lit (d_pattern e)) ++ lit ".s" -> last (lit (d_pattern e)) 0 = 43 ->
  getProgType (stem (lit (d_pattern e)) ++ lit ".s/" ++ x) = let r := getProgType (stem (lit (d_pattern e)) ++ lit "/" ++ x) in mkPtype (p_type r) (p_attach r) (Z.lor (p_flags r) 16) (p_to r).
Proof.
  intros e e' x He He' Es L.
  assert (H : forallb (fun a => forallb (fun b => negb (str_eqb (stem (lit (d_pattern b))) (stem (lit (d_pattern a)) ++ lit ".s")) || ((last (lit (d_pattern b)) 0 =? 43) && (d_type a =? d_type b) && (d_attach a =? d_attach b) && (flags_of b =? Z.lor (flags_of a) 16))) elfSectionDefs) elfSectionDefs = true) by (vm_compute; reflexivity).
  rewrite forallb_forall in H. specialize (H e He). rewrite forallb_forall in H. specialize (H e' He'). rewrite Es, str_eqb_refl in H. cbn [negb orb] in H.
  destruct (C75_reachable e He) as [_ R]. destruct (C75_reachable e' He') as [_ R']. change (lit ".s/" ++ x) with (lit ".s" ++ 47 :: x). rewrite app_assoc, <- Es. rewrite R' by lia. change (lit "/" ++ x) with (47 :: x). rewrite R by auto. cbn zeta. unfold result. cbn [p_type p_attach p_flags p_to].
  assert (d_type e = d_type e' /\ d_attach e = d_attach e' /\ flags_of e' = Z.lor (flags_of e) 16) as (-> & -> & ->) by lia. reflexivity.
Qed.
Theorem C75_ex : getProgType (lit "?fentry.s/foo") = mkPtype 26 24 16 (lit "foo") /\ getProgType (lit "xdp.frags/devmap") = mkPtype 6 33 32 [] /\ getProgType (lit "struct_ops/foo") = mkPtype 27 0 0 []
  /\ getProgType (lit "kprobe.multi/vfs*") = mkPtype 2 42 0 (lit "vfs*") /\ getProgType (lit "foo") = mkPtype 0 0 0 [].
Proof. vm_compute. repeat split. Qed.
(** Patterns without a mark admit every continuation of the name (libbpf, since 1.0, only the name itself): a section whose
    name begins with tc is a classifier. *)
Theorem C75_exact_refuted : exists name e, In e elfSectionDefs /\ getProgType name = result e [] /\ name <> lit (d_pattern e) /\ name = lit "tcp_congestion".
Proof. exists (lit "tcp_congestion"), (mkDef "tc" 3 0 0). split; [cbn; tauto|]. split; [vm_compute; reflexivity|]. split; [discriminate|reflexivity]. Qed.
Print Assumptions C75_match. Print Assumptions C75_best. Print Assumptions C75_reachable. Print Assumptions C75_sleepable. Print Assumptions C75_exact_refuted.
