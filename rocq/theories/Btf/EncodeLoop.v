(** deflatePending: every type and tag is written once, in order of the IDs. *)
From Coq Require Import ZArith List Lia Bool.
From Verif.Base Require Import GoInt ListExtra.
From Verif.Btf Require Import Strings StringsProof Wire WireSpec Types TypesSpec TypesProof PropsTypes Encode EncodeSpec EncodeProof EncodeRun EncodeImage.
Import ListNotations.
Open Scope Z_scope.

Section Loop.
  Variable o : mopts.
  Variable h : heap.
  Variable roots : list ref.
  Hypothesis Hroots : forall t, In t roots -> complete h t.
  Hypothesis Huser : forall t x n, In t roots -> reach h t x -> deref h x = Some n -> user_type n.

  Definition written (e' : enc) (F : list pitem) (p : pitem) (r : wrec) : Prop :=
    exists ph, r = item_image h o (off (e_strings e')) (idz (e_ids e')) ph p /\
      (forall int, item_ints h o p = [int] -> 1 <= ph /\ nth_error F (Z.to_nat (ph - 1)) = Some int) /\
      (o = noOpts -> Forall (stored (e_strings e')) (item_names h o p)).

  (** writing the type taken from the queue *)
  Lemma write_step e D p rest e1 e2 r : EI h roots e D -> e_pending e = p :: rest ->
    allocate_for h (bump e rest) p = Some (Ok e1) -> deflateType o h e1 p = Ok (e2, r) ->
    EI h roots e2 (D ++ [p]) /\ (exists new, items e2 (D ++ [p]) = items e D ++ new) /\ ids_ext (e_ids e) (e_ids e2) /\ strs_ext (e_strings e) (e_strings e2) /\
    (forall S, incl (item_names h o p) ([] :: S) -> total ([] :: S) < 2 ^ 32 -> SI S (e_strings e) -> SI S (e_strings e2)) /\
    (forall q, In q (items e2 (D ++ [p])) -> match q with PInt _ _ _ => In q (items e D) \/ item_ints h o p = [q] | _ => True end) /\
    (forall int, item_ints h o p = [int] -> 1 <= e_lastID e2 /\ nth_error (items e2 (D ++ [p])) (Z.to_nat (e_lastID e2 - 1)) = Some int) /\
    forall bF idsF, strs_ext (e_strings e2) bF -> ids_ext (e_ids e2) idsF -> r = item_image h o (off bF) (idz idsF) (e_lastID e2) p.
  Proof.
    intros J P A T. destruct (shift_ok h roots Hroots e D p rest _ J P A e1 eq_refl) as (J1 & (new & N1) & X1 & S1 & Vp & V1 & I1).
    assert (Hp : In p (items e D)) by (unfold items; rewrite P; apply in_or_app; right; now left). pose proof (ei_root _ _ _ _ J _ Hp) as Rp.
    assert (Np : p <> PDummy) by (intros ->; exact Rp).
    assert (U : forall t n, p = PType t -> deref h t = Some n -> user_type n).
    { intros t n -> Dt. destruct Rp as (_ & t0 & H0 & R0). eapply Huser; eassumption. }
    destruct (deflateType_ok o h e1 p e2 r U Np T) as [W1 W2 W3 W4 W5 W6 W7].
    assert (It : items e2 (D ++ [p]) = items e1 (D ++ [p]) ++ item_ints h o p) by (unfold items; rewrite W3, app_assoc; reflexivity).
    assert (Nt : exists new1, items e1 (D ++ [p]) = items e D ++ new1) by eauto.
    assert (NoInts1 : forall q, In q (items e1 (D ++ [p])) -> match q with PInt _ _ _ => In q (items e D) | _ => True end).
    { intros q Hq. destruct q as [|?|s z en|]; auto. rewrite N1 in Hq. apply in_app_or in Hq as [Hq|Hq]; [exact Hq|]. exfalso. rewrite N1, ints_app in I1.
      assert (Z0 : ints new = 0%nat) by lia. unfold ints in Z0. apply length_zero_iff_nil in Z0. assert (Hf : In (PInt s z en) (filter (fun p => match p with PInt _ _ _ => true | _ => false end) new)) by (apply filter_In; auto). rewrite Z0 in Hf. destruct Hf. }
    assert (J2 : EI h roots e2 (D ++ [p])).
    { destruct J1 as [A1 A2 A3 A4 A5 A6 A7 A8 A9]. destruct W4 as [(Ni & L)|((s & z & en & Ni) & L & NL)].
      - rewrite Ni, app_nil_r in It. constructor; rewrite ?It, ?W1, ?W2, ?L; assumption.
      - rewrite Ni in It. destruct (next_id _ _ A1 A2) as [X|(X & Y & _)]; [contradiction|]. constructor; rewrite ?W1, ?W2, ?It, ?L.
        + rewrite X. unfold in_u in *. lia.
        + rewrite X, app_length. cbn. reflexivity.
        + apply numbered_items_other; [exact A3|discriminate].
        + exact A4.
        + exact A5.
        + intros x. rewrite ptags_app. cbn [ptags flat_map]. rewrite !app_nil_r. apply A6.
        + exact A7.
        + intros q Hq. apply in_app_or in Hq as [Hq|[<-|[]]]; [now apply A8|exact I].
        + assert (E : exists t, p = PType t) by (unfold item_ints in Ni; destruct p; try discriminate Ni; eauto). destruct E as (t & ->).
          rewrite ints_app, I1, ntypes_app. pose proof (ei_ints _ _ _ _ J). unfold ints at 2, ntypes at 2. cbn. lia. }
    split; [exact J2|]. split; [|split; [|split; [|split; [|split; [|split]]]]].
    - destruct Nt as (new1 & E1). exists (new1 ++ item_ints h o p). rewrite It, E1. now rewrite app_assoc.
    - rewrite W1. exact X1.
    - rewrite <- S1. exact W5.
    - intros S Hn Ht HS. apply W6; auto. rewrite S1. exact HS.
    - intros q Hq. rewrite It in Hq. apply in_app_or in Hq as [Hq|Hq]; [apply NoInts1 in Hq; destruct q; auto|].
      destruct q as [| |s z en|]; auto. right. destruct W4 as [(Ni & _)|((s' & z' & en' & Ni) & _)]; rewrite Ni in *; [destruct Hq|]. destruct Hq as [->|[]]. reflexivity.
    - intros int Ei. rewrite It, Ei. destruct W4 as [(Ni & _)|(_ & L & NL)]; [congruence|]. destruct (next_id _ _ (ei_u32 _ _ _ _ J1) (ei_last _ _ _ _ J1)) as [X|(X & Y & _)]; [contradiction|].
      rewrite L, X. split; [lia|]. rewrite nth_error_app2 by lia. replace (Z.to_nat _ - _)%nat with 0%nat by lia. reflexivity.
    - intros bF idsF XF XI. apply W7; [exact XF|]. rewrite <- W1. exact XI.
  Qed.

  Lemma pending_ok : forall fuel e D, EI h roots e D -> (bound h - length D < fuel)%nat ->
    exists res, deflatePending fuel o h e = Some res /\ forall e' rs, res = Ok (e', rs) ->
      exists X, EI h roots e' (D ++ X) /\ e_pending e' = [] /\ (exists new, D ++ X = items e D ++ new) /\
        ids_ext (e_ids e) (e_ids e') /\ strs_ext (e_strings e) (e_strings e') /\
        (forall S, (forall p, In p X -> incl (item_names h o p) ([] :: S)) -> total ([] :: S) < 2 ^ 32 -> SI S (e_strings e) -> SI S (e_strings e')) /\
        (forall q, In q (D ++ X) -> match q with PInt _ _ _ => In q (items e D) \/ exists p, In p X /\ item_ints h o p = [q] | _ => True end) /\
        Forall2 (written e' (D ++ X)) X rs.
  Proof.
    induction fuel as [|f IH]; intros e D J B; [lia|]. cbn [deflatePending]. destruct (e_pending e) as [|p rest] eqn:P.
    - eexists. split; [reflexivity|]. intros e' rs E. injection E as <- <-. exists []. rewrite app_nil_r. split; [exact J|]. split; [exact P|].
      split; [exists []; unfold items; rewrite P, !app_nil_r; reflexivity|]. split; [apply ids_ext_refl|]. split; [apply strs_ext_refl|]. split; [auto|]. split; [|constructor].
      intros q Hq. destruct q; auto. left. unfold items. apply in_or_app. now left.
    - fold (bump e rest). destruct (shift_total h roots Hroots e D p rest J P) as (r1 & E1). rewrite E1. destruct r1 as [e1|x]; [|eexists; split; [reflexivity|discriminate]].
      destruct (deflateType o h e1 p) as [[e2 r]|x] eqn:T; [|eexists; split; [reflexivity|discriminate]].
      destruct (write_step e D p rest e1 e2 r J P E1 T) as (J2 & (n2 & N2) & X2 & S2 & SI2 & Q2 & I2 & W2).
      assert (Lb : (length D < bound h)%nat).
      { pose proof (EI_bound h roots Hroots _ _ J) as L. unfold items in L. rewrite app_length, P in L. cbn [length] in L. lia. }
      destruct (IH e2 (D ++ [p]) J2) as (res & E3 & K); [rewrite app_length; cbn [length]; lia|]. rewrite E3.
      destruct res as [[e3 rs]|x]; [|eexists; split; [reflexivity|discriminate]]. eexists. split; [reflexivity|]. intros e' rs' E. injection E as <- <-.
      destruct (K e3 rs eq_refl) as (X & J3 & P3 & (n3 & N3) & X3 & S3 & SI3 & Q3 & F3). exists (p :: X).
      assert (Ea : D ++ p :: X = (D ++ [p]) ++ X) by (rewrite <- app_assoc; reflexivity). rewrite Ea.
      split; [exact J3|]. split; [exact P3|]. split; [exists (n2 ++ n3); rewrite N3, N2; now rewrite app_assoc|]. split; [intros y i Hy; auto|]. split; [eapply strs_ext_trans; eassumption|]. split; [|split].
      + intros S Hn Ht HS. apply SI3; [intros q Hq; apply Hn; now right|exact Ht|]. apply SI2; [apply Hn; now left|exact Ht|exact HS].
      + intros q Hq. specialize (Q3 q Hq). destruct q as [| |s z en|]; auto. destruct Q3 as [Q3|(p' & Hp' & Ep')]; [|right; exists p'; split; [now right|exact Ep']].
        apply Q2 in Q3. destruct Q3 as [Q3|Q3]; [now left|]. right. exists p. split; [now left|exact Q3].
      + constructor; [|exact F3]. exists (e_lastID e2). split; [now apply W2|]. split.
        * intros int Ei. destruct (I2 int Ei) as (L & Ne). split; [exact L|]. rewrite N3. rewrite nth_error_app1; [exact Ne|]. apply nth_error_Some. congruence.
        * intros Eo. pose proof T as T'. rewrite Eo in T'. apply type_stored in T'; [|intros t n -> Dn; assert (Hp : In (PType t) (items e D)) by (unfold items; rewrite P; apply in_or_app; right; now left); destruct (ei_root _ _ _ _ J _ Hp) as (_ & t0 & H0 & R0); eapply Huser; eassumption].
          rewrite <- Eo in T'. eapply Forall_impl; [|exact T']. intros s. now apply stored_ext.
  Qed.
End Loop.
