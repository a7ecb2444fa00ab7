(** C106: the number of CPUs. *)
From Coq Require Import ZArith List Bool Lia.
From Verif Require Import Base.GoInt Sys.Cpus Sys.CpusSpec.
Import ListNotations.
Open Scope Z_scope.

Lemma prints_digits s n : prints s n -> s <> [] /\ Forall (fun c => 48 <= c <= 57) s /\ value s = n /\ 0 <= n.
Proof.
  induction 1 as [c H|s n c H (A & B & C & D) P R].
  - split; [easy|]. split; [now constructor|]. split; [unfold value; cbn [fold_left]; lia|lia].
  - split; [now destruct s|]. split; [apply Forall_app; split; auto|]. split; [|lia]. unfold value in *. rewrite fold_left_app, C. reflexivity.
Qed.
Lemma prints_zero s n : prints s n -> n = 0 -> s = [48].
Proof. induction 1 as [c H|s n c H IH P R]; intros E; [f_equal; lia|lia]. Qed.
Lemma digits_app s t : Forall (fun c => 48 <= c <= 57) s -> match t with c :: _ => isDigit c = false | [] => True end -> digits (s ++ t) = (s, t).
Proof.
  induction 1 as [|c s H F IH]; intros T; cbn [app digits].
  - destruct t; [reflexivity|]. cbn. now rewrite T.
  - assert (D : isDigit c = true) by (unfold isDigit; lia). rewrite D, IH by auto. reflexivity.
Qed.
Lemma scan_prints s n t : prints s n -> n < 2 ^ 63 -> match t with c :: _ => isDigit c = false | [] => True end -> scanInt (s ++ t) = Some (n, t).
Proof.
  intros P L T. apply prints_digits in P as (A & B & C & D). unfold scanInt. destruct s as [|c s]; [easy|].
  assert (K : skipSpace ((c :: s) ++ t) = (c :: s) ++ t) by (cbn [app skipSpace]; inversion B; subst; unfold isSpace; replace (_ || _) with false by lia; reflexivity). rewrite K.
  assert (N : (match (c :: s) ++ t with c0 :: t0 => if c0 =? 43 then (false, t0) else if c0 =? 45 then (true, t0) else (false, (c :: s) ++ t) | [] => (false, (c :: s) ++ t) end) = (false, (c :: s) ++ t)).
  { cbn [app]. inversion B; subst. replace (c =? 43) with false by lia. replace (c =? 45) with false by lia. reflexivity. }
  rewrite N, digits_app by auto. rewrite C. replace (_ && _) with true by lia. reflexivity.
Qed.
Lemma trim_end s : s <> [] -> Forall (fun c => c <> 10) s -> trim (s ++ [10]) = s.
Proof.
  intros N F. unfold trim. assert (L : forall u v, u <> [] -> Forall (fun c => c <> 10) u -> trimLeft (u ++ v) = u ++ v) by (intros [|c u] v NE FU; [easy|]; inversion FU; subst; cbn [app trimLeft]; replace (c =? 10) with false by lia; reflexivity).
  rewrite L by auto. rewrite rev_app_distr. cbn [rev app trimLeft]. change (10 =? 10) with true. cbv iota. rewrite <- (app_nil_r (rev s)), L; [now rewrite app_nil_r, rev_involutive| |now apply Forall_rev]. intros E. apply (f_equal (@rev Z)) in E. rewrite rev_involutive in E. now subst.
Qed.
Lemma range_chars s r : printsRange s r -> s <> [] /\ Forall (fun c => c = 45 \/ 48 <= c <= 57) s.
Proof.
  intros [t n P|t a u b P Q L].
  - apply prints_digits in P as (A & B & _). split; auto. eapply Forall_impl; [|exact B]. auto.
  - apply prints_digits in P as (A & B & _). apply prints_digits in Q as (A' & B' & _). split; [now destruct t|]. apply Forall_app. split; [eapply Forall_impl; [|exact B]; auto|]. constructor; auto. eapply Forall_impl; [|exact B']. auto.
Qed.
Lemma ranges_chars s l : printsRanges s l -> l <> [] /\ exists u, s = u ++ [10] /\ u <> [] /\ Forall (fun c => c <> 10) u.
Proof.
  induction 1 as [s r P|s r t l P Q (N & u & -> & A & B)]; (split; [easy|]); apply range_chars in P as [C D].
  - exists s. repeat split; auto. eapply Forall_impl; [|exact D]. cbn. lia.
  - exists (s ++ 44 :: u). rewrite <- app_assoc. repeat split; auto; [now destruct s|]. apply Forall_app. split; [eapply Forall_impl; [|exact D]; cbn; lia|]. constructor; [lia|auto].
Qed.
(** What is printed for one range, when it is the whole set *)
Lemma parse_one l s : printsRanges s l -> ranges 0 l -> parseCPUs s = match l with [(a, b)] => if a =? 0 then Some (b + 1) else None | _ => None end.
Proof.
  intros P R. unfold parseCPUs. destruct (ranges_chars _ _ P) as (N & u & E & UN & UF). assert (TR : trim s = u) by (rewrite E; apply trim_end; auto). rewrite TR. clear TR.
  assert (W : forall x, 0 <= x < 2 ^ 63 - 1 -> i64 (x + 1) = x + 1) by (intros; unfold i64; apply sext_id; [lia|unfold in_s; change (64 - 1) with 63; lia]).
  destruct P as [s r P|s r t l P Q].
  - apply app_inj_tail in E as [<- _]. destruct P as [s n P|s a t b P Q L]; cbn [ranges] in R.
    + destruct (list_eq_dec _ _ _) as [->|NE].
      * apply prints_digits in P as (_ & _ & V & _). change (value [48]) with 0 in V. subst. reflexivity.
      * unfold sscanf. rewrite (scan_prints s n [10]) by (auto; lia). destruct (Z.eqb_spec n 0) as [Z0|]; [|reflexivity]. now apply prints_zero in P.
    + destruct (list_eq_dec _ _ _) as [C|NE].
      * apply prints_digits in P as (A & _). destruct s as [|c s]; [easy|]. injection C as _ C. now destruct s.
      * unfold sscanf. rewrite <- app_assoc. cbn [app]. rewrite (scan_prints s a (45 :: t ++ [10])) by (auto; lia). change (45 =? 45) with true. cbv iota. rewrite (scan_prints t b [10]) by (auto; lia). change (scanNewline [10]) with true. cbv iota.
        destruct (a =? 0); [|reflexivity]. cbn [negb]. rewrite W by lia. reflexivity.
  - destruct l as [|r' l]; [now apply ranges_chars in Q as [NN _]|]. destruct (list_eq_dec _ _ _) as [C|NE].
    + subst u. apply range_chars in P as [A B]. destruct s as [|c s]; [easy|]. injection E as E1 E2. destruct s as [|c' s]; cbn in E2; [injection E2 as E2 _; lia|]. injection E2 as E2 E3. now destruct s.
    + assert (G : sscanf (s ++ 44 :: t) = None); [|rewrite G; now destruct r].
      unfold sscanf. destruct P as [s n P|s a v b P P' L]; cbn [ranges] in R.
      * rewrite (scan_prints s n (44 :: t)) by (auto; lia). reflexivity.
      * rewrite <- app_assoc. cbn [app]. rewrite (scan_prints s a (45 :: v ++ 44 :: t)) by (auto; lia). change (45 =? 45) with true. cbv iota. rewrite (scan_prints v b (44 :: t)) by (auto; lia). reflexivity.
Qed.
Lemma ranges_le f l a b : ranges f l -> In (a, b) l -> f <= a.
Proof. revert f. induction l as [|[c d] l IH]; intros f R I; [easy|]. cbn [ranges] in R. destruct I as [I|I]; [injection I as -> ->; lia|]. specialize (IH (d + 2)). assert (d + 2 <= a) by tauto. lia. Qed.
(** Of what the kernel prints for a set of CPUs, it is the number of CPUs that is told, and it is told exactly for sets that have all CPUs below it; others are refused. *)
Theorem C106_number : forall l s, ranges 0 l -> printsRanges s l -> forall n, 0 < n -> (parseCPUs s = Some n <-> forall c, contains l c <-> 0 <= c < n).
Proof.
  intros l s R P n N. rewrite (parse_one l s P R). split.
  - intros E. destruct l as [|[a b] [|]]; try discriminate. destruct (Z.eqb_spec a 0); [|discriminate]. injection E as <-. intros c. split.
    + intros (x & y & [I|[]] & H). injection I as <- <-. lia.
    + intros H. exists a, b. split; [now left|lia].
  - intros E. assert (C0 : contains l 0) by (apply E; lia). destruct l as [|[a b] l]; [destruct C0 as (? & ? & [] & _)|]. cbn [ranges] in R. destruct R as (Ra & Rb & R).
    assert (A0 : a = 0). { destruct C0 as (x & y & [I|I] & H); [injection I as <- <-; lia|]. pose proof (ranges_le _ _ _ _ R I). lia. }
    subst a. assert (B : b + 1 = n).
    { assert (L : b < n) by (apply E; exists 0, b; split; [now left|lia]). destruct (Z.eq_dec (b + 1) n); auto. assert (C : contains ((0, b) :: l) (b + 1)) by (apply E; lia).
      destruct C as (x & y & [I|I] & H); [injection I as <- <-; lia|]. pose proof (ranges_le _ _ _ _ R I). lia. }
    destruct l as [|[x y] l]; [rewrite Z.eqb_refl, B; reflexivity|]. exfalso. cbn [ranges] in R. assert (C : contains ((0, b) :: (x, y) :: l) x) by (exists x, y; split; [right; now left|lia]). apply E in C. lia.
Qed.
(** Nothing else than a number is told of what the kernel prints. *)
Theorem C106_positive : forall l s n, ranges 0 l -> printsRanges s l -> parseCPUs s = Some n -> 0 < n.
Proof. intros l s n R P E. rewrite (parse_one l s P R) in E. destruct l as [|[a b] [|]]; try discriminate. cbn in R. destruct (Z.eqb_spec a 0); [|discriminate]. injection E as <-. lia. Qed.
(** For any text: one CPU, or a number one more than that after the dash *)
Theorem C106_any : forall s n, parseCPUs s = Some n -> (trim s = [48] /\ n = 1) \/ exists u high t, scanInt s = Some (0, 45 :: u) /\ scanInt u = Some (high, t) /\ n = i64 (high + 1).
Proof.
  intros s n. unfold parseCPUs. destruct (list_eq_dec _ _ _) as [T|T]; [intros H; injection H as <-; now left|]. unfold sscanf. destruct (scanInt s) as [[low [|c u]]|]; try discriminate. destruct (Z.eqb_spec c 45) as [->|]; [|discriminate].
  destruct (scanInt u) as [[high t]|] eqn:S; [|discriminate]. destruct (scanNewline t); [|discriminate]. destruct (Z.eqb_spec low 0) as [->|]; [|discriminate]. cbn. intros H. injection H as <-. right. eauto 6.
Qed.
(** 0-127; 0-3,8-11; 1-3; 0 *)
Theorem C106_example : ranges 0 [(0, 127)] /\ printsRanges [48; 45; 49; 50; 55; 10] [(0, 127)] /\ parseCPUs [48; 45; 49; 50; 55; 10] = Some 128 /\
  ranges 0 [(0, 3); (8, 11)] /\ printsRanges [48; 45; 51; 44; 56; 45; 49; 49; 10] [(0, 3); (8, 11)] /\ parseCPUs [48; 45; 51; 44; 56; 45; 49; 49; 10] = None /\
  parseCPUs [49; 45; 51; 10] = None /\ parseCPUs [48; 10] = Some 1.
Proof.
  assert (D : forall c, 48 <= c <= 57 -> prints [c] (c - 48)) by (intros; now constructor).
  assert (P11 : prints [49; 49] 11) by (apply (printsMore [49] 1 49); [apply (D 49); lia|lia|lia]).
  assert (P127 : prints [49; 50; 55] 127) by (apply (printsMore [49; 50] 12 55); [apply (printsMore [49] 1 50); [apply (D 49); lia|lia|lia]|lia|lia]).
  split; [cbn; lia|]. split; [apply (printsLast [48; 45; 49; 50; 55]); apply (printsTwo [48] 0 [49; 50; 55] 127); [apply (D 48); lia|auto|lia]|]. split; [vm_compute; reflexivity|].
  split; [cbn; lia|]. split.
  { apply (printsNext [48; 45; 51] (0, 3) [56; 45; 49; 49; 10]); [apply (printsTwo [48] 0 [51] 3); [apply (D 48); lia|apply (D 51); lia|lia]|]. apply (printsLast [56; 45; 49; 49]). apply (printsTwo [56] 8 [49; 49] 11); [apply (D 56); lia|auto|lia]. }
  repeat split; vm_compute; reflexivity.
Qed.
(** Texts that aren't of that form, and are taken nevertheless: 0--5 is -4 CPUs; a second line isn't looked at; the greatest int is one less than the least. *)
Theorem C106_lax_refuted : parseCPUs [48; 45; 45; 53; 10] = Some (-4) /\ (forall t, parseCPUs ([48; 45; 49; 10] ++ t) = Some 2) /\
  parseCPUs ([48; 45] ++ [57;50;50;51;51;55;50;48;51;54;56;53;52;55;55;53;56;48;55]) = Some (- 2 ^ 63).
Proof.
  split; [vm_compute; reflexivity|]. split; [|vm_compute; reflexivity]. intros t. unfold parseCPUs. destruct (list_eq_dec _ _ _) as [C|_]; [|reflexivity].
  exfalso. unfold trim in C. cbn [app trimLeft] in C. change (48 =? 10) with false in C. cbv iota in C. apply (f_equal (@rev Z)) in C. rewrite rev_involutive in C. cbn [rev] in C.
  assert (G : forall u, In 45 u -> In 45 (trimLeft u)). { induction u as [|x u IH]; intros I; [easy|]. cbn [trimLeft]. destruct (Z.eqb_spec x 10); [|auto]. apply IH. destruct I as [->|I]; [lia|auto]. }
  specialize (G ((((rev t ++ [10]) ++ [49]) ++ [45]) ++ [48])). rewrite C in G. destruct G as [G|[]]; [rewrite !in_app_iff; left; right; now left|lia].
Qed.

Print Assumptions C106_number.
Print Assumptions C106_positive.
Print Assumptions C106_any.
Print Assumptions C106_example.
Print Assumptions C106_lax_refuted.
