(** The encoder's queue: what is written, in which order, with which IDs. *)
From Coq Require Import ZArith List Lia Bool.
From Verif.Base Require Import GoInt ListExtra.
From Verif.Btf Require Import Strings StringsProof Wire WireSpec Types TypesSpec TypesProof PropsTypes Encode EncodeSpec EncodeProof.
Import ListNotations.
Open Scope Z_scope.

Definition ptags (x : ref) (all : list pitem) : list (str * Z) :=
  flat_map (fun p => match p with PTag o v k => if ref_eq_dec o x then [(v, k)] else [] | _ => [] end) all.
Lemma ptags_app x a b : ptags x (a ++ b) = ptags x a ++ ptags x b.
Proof. apply flat_map_app. Qed.
Definition numbered_items (ids : list (ref * Z)) (all : list pitem) : Prop :=
  forall r i, id_of ids r = Some i <-> 1 <= i /\ nth_error all (Z.to_nat (i - 1)) = Some (PType r).

Lemma numbered_items_new ids all t : numbered_items ids all -> id_of ids t = None ->
  numbered_items ((t, Z.of_nat (length all) + 1) :: ids) (all ++ [PType t]).
Proof.
  intros N E r i. cbn [id_of]. rewrite nth_snoc. destruct (ref_eq_dec t r) as [->|Ne].
  - split.
    + intros X. inversion X. split; [lia|]. right. split; [|reflexivity]. lia.
    + intros (H & [X|(X & _)]); [|f_equal; lia]. assert (id_of ids r = Some i) by (apply N; auto). congruence.
  - rewrite (N r i). split; [tauto|]. intros (H & [X|(_ & X)]); [auto|congruence].
Qed.
Lemma numbered_items_other ids all p : numbered_items ids all -> (forall r, p <> PType r) -> numbered_items ids (all ++ [p]).
Proof. intros N E r i. rewrite (N r i), nth_snoc. split; [tauto|]. intros (H & [X|(_ & X)]); [auto|destruct (E r X)]. Qed.

Definition ids_ext (a b : list (ref * Z)) : Prop := forall r i, id_of a r = Some i -> id_of b r = Some i.

Lemma next_id l n : in_u 32 l -> l = Z.of_nat n -> u32 (l + 1) < l \/ (u32 (l + 1) = Z.of_nat (n + 1) /\ in_u 32 (l + 1) /\ ~ u32 (l + 1) < l).
Proof.
  unfold in_u. intros U E. destruct (Z.eq_dec (l + 1) (2 ^ 32)) as [X|X].
  - left. rewrite X. change (u32 (2 ^ 32)) with 0. lia.
  - right. unfold u32. rewrite wrapu_id by (unfold in_u; lia). lia.
Qed.

(** one yielded type *)
Lemma allocate_ok (D : list pitem) e it e' : allocate e it = Ok e' ->
  in_u 32 (e_lastID e) -> e_lastID e = Z.of_nat (length (D ++ e_pending e)) -> numbered_items (e_ids e) (D ++ e_pending e) ->
  exists new, e_pending e' = e_pending e ++ new /\ e_strings e' = e_strings e /\ e_visited e' = e_visited e /\
    in_u 32 (e_lastID e') /\ e_lastID e' = Z.of_nat (length (D ++ e_pending e')) /\ numbered_items (e_ids e') (D ++ e_pending e') /\
    ids_ext (e_ids e) (e_ids e') /\
    (forall x, it = IType x -> x = RVoid \/ exists i, id_of (e_ids e') x = Some i) /\
    (forall x, ptags x new = owned x [it]) /\ (forall p, In p new -> match p with PType r => it = IType r /\ r <> RVoid | PTag _ _ _ => True | _ => False end).
Proof.
  intros E U L N. unfold allocate in E.
  assert (Same : e' = e -> (forall x, it = IType x -> x = RVoid \/ exists i, id_of (e_ids e) x = Some i) -> (forall x, owned x [it] = []) -> exists new, e_pending e' = e_pending e ++ new /\ e_strings e' = e_strings e /\ e_visited e' = e_visited e /\
    in_u 32 (e_lastID e') /\ e_lastID e' = Z.of_nat (length (D ++ e_pending e')) /\ numbered_items (e_ids e') (D ++ e_pending e') /\
    ids_ext (e_ids e) (e_ids e') /\
    (forall x, it = IType x -> x = RVoid \/ exists i, id_of (e_ids e') x = Some i) /\
    (forall x, ptags x new = owned x [it]) /\ (forall p, In p new -> match p with PType r => it = IType r /\ r <> RVoid | PTag _ _ _ => True | _ => False end)).
  { intros -> I O. exists []. rewrite app_nil_r. repeat (split; [first [reflexivity|assumption|intros ? ? X; exact X]|]). split; [intros x; now rewrite O|intros p []]. }
  destruct it as [r|o v k].
  - assert (New : id_of (e_ids e) r = None -> r <> RVoid -> (if u32 (e_lastID e + 1) <? e_lastID e then Err IDOverflow
       else Ok (mkEnc (e_pending e ++ [PType r]) (e_strings e) ((r, u32 (e_lastID e + 1)) :: e_ids e) (e_visited e) (u32 (e_lastID e + 1)))) = Ok e' ->
       exists new, e_pending e' = e_pending e ++ new /\ e_strings e' = e_strings e /\ e_visited e' = e_visited e /\
    in_u 32 (e_lastID e') /\ e_lastID e' = Z.of_nat (length (D ++ e_pending e')) /\ numbered_items (e_ids e') (D ++ e_pending e') /\
    ids_ext (e_ids e) (e_ids e') /\
    (forall x, IType r = IType x -> x = RVoid \/ exists i, id_of (e_ids e') x = Some i) /\
    (forall x, ptags x new = owned x [IType r]) /\ (forall p, In p new -> match p with PType r0 => IType r = IType r0 /\ r0 <> RVoid | PTag _ _ _ => True | _ => False end)).
    { intros F Nv E'. destruct (next_id _ _ U L) as [X|(X & Y & Z)]; [apply Z.ltb_lt in X; rewrite X in E'; discriminate E'|]. apply Z.ltb_nlt in Z. rewrite Z in E'. injection E' as <-.
      cbn [e_pending e_strings e_visited e_lastID e_ids]. exists [PType r]. rewrite !app_assoc.
      split; [reflexivity|]. split; [reflexivity|]. split; [reflexivity|]. split; [rewrite X; rewrite L in Y; unfold in_u in *; lia|]. split; [rewrite X, (app_length (D ++ e_pending e)); cbn; lia|].
      split; [rewrite X; replace (Z.of_nat (length (D ++ e_pending e) + 1)) with (Z.of_nat (length (D ++ e_pending e)) + 1) by lia; now apply numbered_items_new|].
      split; [intros x i H; cbn [id_of]; destruct (ref_eq_dec r x) as [->|]; [congruence|exact H]|].
      split; [intros x H; injection H as <-; right; cbn [id_of]; destruct (ref_eq_dec r r); [eauto|contradiction]|]. split; [reflexivity|]. intros p [<-|[]]. auto. }
    destruct r as [| |a]; [|apply Same; [congruence|intros x H; left; congruence|reflexivity]|].
    + destruct (id_of (e_ids e) RNil) as [i|] eqn:F; [|apply New; [reflexivity|discriminate|exact E]]. apply Same; [congruence| |reflexivity]. intros x H. injection H as <-. eauto.
    + destruct (id_of (e_ids e) (RPtr a)) as [i|] eqn:F; [|apply New; [reflexivity|discriminate|exact E]]. apply Same; [congruence| |reflexivity]. intros x H. injection H as <-. eauto.
  - destruct (next_id _ _ U L) as [X|(X & Y & Z)]; [apply Z.ltb_lt in X; rewrite X in E; discriminate E|]. apply Z.ltb_nlt in Z. rewrite Z in E. injection E as <-.
    cbn [e_pending e_strings e_visited e_lastID e_ids]. exists [PTag o v k]. rewrite !app_assoc.
    split; [reflexivity|]. split; [reflexivity|]. split; [reflexivity|]. split; [rewrite X; rewrite L in Y; unfold in_u in *; lia|]. split; [rewrite X, (app_length (D ++ e_pending e)); cbn; lia|].
    split; [apply numbered_items_other; [exact N|discriminate]|]. split; [intros x i H; exact H|]. split; [discriminate|]. split; [reflexivity|]. intros p [<-|[]]. exact I.
Qed.
Lemma allocate_all_ok (D : list pitem) its : forall e e', allocate_all e its = Ok e' ->
  in_u 32 (e_lastID e) -> e_lastID e = Z.of_nat (length (D ++ e_pending e)) -> numbered_items (e_ids e) (D ++ e_pending e) ->
  exists new, e_pending e' = e_pending e ++ new /\ e_strings e' = e_strings e /\ e_visited e' = e_visited e /\
    in_u 32 (e_lastID e') /\ e_lastID e' = Z.of_nat (length (D ++ e_pending e')) /\ numbered_items (e_ids e') (D ++ e_pending e') /\
    ids_ext (e_ids e) (e_ids e') /\
    (forall x, In x (types its) -> x = RVoid \/ exists i, id_of (e_ids e') x = Some i) /\
    (forall x, ptags x new = owned x its) /\ (forall p, In p new -> match p with PType r => In r (types its) /\ r <> RVoid | PTag _ _ _ => True | _ => False end).
Proof.
  induction its as [|it its IH]; intros e e' E U L N; cbn [allocate_all] in E.
  - injection E as <-. exists []. rewrite app_nil_r. repeat (split; [first [reflexivity|assumption|intros ? ? X; exact X]|]). split; [intros x []|]. split; [reflexivity|intros p []].
  - destruct (allocate e it) as [e1|] eqn:E1; [|discriminate E].
    destruct (allocate_ok D e it e1 E1 U L N) as (n1 & P1 & S1 & V1 & U1 & L1 & N1 & X1 & I1 & T1 & Q1).
    destruct (IH e1 e' E U1 L1 N1) as (n2 & P2 & S2 & V2 & U2 & L2 & N2 & X2 & I2 & T2 & Q2).
    exists (n1 ++ n2). split; [rewrite P2, P1; now rewrite app_assoc|]. split; [congruence|]. split; [congruence|]. split; [exact U2|]. split; [exact L2|]. split; [exact N2|].
    split; [intros r i H; auto|]. split; [|split].
    + intros x H. change (it :: its) with ([it] ++ its) in H. rewrite types_app in H. apply in_app_or in H as [H|H]; [|auto].
      destruct it as [r|]; [|destruct H]. destruct H as [->|[]]. destruct (I1 x eq_refl) as [|(i & Hi)]; [auto|]. right. exists i. auto.
    + intros x. rewrite ptags_app, T1, T2. change (it :: its) with ([it] ++ its). now rewrite owned_app.
    + intros p H. apply in_app_or in H as [H|H].
      * apply Q1 in H. destruct p; auto. destruct H as (-> & H). split; [|exact H]. change (IType r :: its) with ([IType r] ++ its). rewrite types_app. apply in_or_app. left. now left.
      * apply Q2 in H. destruct p; auto. destruct H as (H & H'). split; [|exact H']. change (it :: its) with ([it] ++ its). rewrite types_app. apply in_or_app. now right.
Qed.

Section Run.
  Variable h : heap.
  Variable roots : list ref.
  Hypothesis Hroots : forall t, In t roots -> complete h t.

  Definition items (e : enc) (D : list pitem) : list pitem := D ++ e_pending e.
  Definition ints (l : list pitem) : nat := length (filter (fun p => match p with PInt _ _ _ => true | _ => false end) l).
  Definition ntypes (l : list pitem) : nat := length (filter (fun p => match p with PType _ => true | _ => false end) l).
  (** the state between two iterations; [D] has been written *)
  Record EI (e : enc) (D : list pitem) : Prop := {
    ei_u32 : in_u 32 (e_lastID e);
    ei_last : e_lastID e = Z.of_nat (length (items e D));
    ei_ids : numbered_items (e_ids e) (items e D);
    ei_closed : forall x c, In x (e_visited e) -> edge h x c -> In c (e_visited e);
    ei_vids : forall x, In x (e_visited e) -> x = RVoid \/ exists i, id_of (e_ids e) x = Some i;
    ei_tags : forall x, ptags x (items e D) = if ref_in x (e_visited e) then tags_at h x else [];
    ei_done : forall r, In (PType r) D -> In r (e_visited e);
    ei_root : forall p, In p (items e D) -> match p with PType r => r <> RVoid /\ exists t, In t roots /\ reach h t r | PDummy => False | _ => True end;
    ei_ints : (ints (items e D) <= ntypes D)%nat }.

  Lemma ei_present e D r : EI e D -> In (PType r) (items e D) -> exists a, r = RPtr a /\ (a < length h)%nat.
  Proof.
    intros I H. apply (ei_root _ _ I) in H as (N & t & Ht & R). apply Hroots in Ht. apply Ht in R. destruct r; [destruct R|contradiction|eauto].
  Qed.
  Lemma EI_ids_in e D r : EI e D -> In (PType r) (items e D) -> exists i, id_of (e_ids e) r = Some i.
  Proof. intros I H. apply In_nth_error in H as (k & H). exists (Z.of_nat k + 1). apply (ei_ids _ _ I). split; [lia|]. replace (Z.to_nat _) with k by lia. exact H. Qed.
  Lemma ei_owner e D o v k : EI e D -> In (PTag o v k) (items e D) -> In o (e_visited e).
  Proof.
    intros I H. pose proof (ei_tags _ _ I o) as T. destruct (ref_in o (e_visited e)) eqn:R; [now apply ref_in_In|].
    exfalso. assert (X : In (v, k) (ptags o (items e D))); [|rewrite T in X; destruct X]. unfold ptags. apply in_flat_map. exists (PTag o v k). split; [exact H|]. destruct (ref_eq_dec o o); [now left|contradiction].
  Qed.

  Definition bump (e : enc) (rest : list pitem) : enc := mkEnc rest (e_strings e) (e_ids e) (e_visited e) (e_lastID e).
  Lemma ints_app a b : ints (a ++ b) = (ints a + ints b)%nat.
  Proof using. unfold ints. now rewrite filter_app', app_length. Qed.
  Lemma ntypes_app a b : ntypes (a ++ b) = (ntypes a + ntypes b)%nat.
  Proof using. unfold ntypes. now rewrite filter_app', app_length. Qed.

  (** taking a type from the queue: everything reachable from it gets an ID *)
  Lemma shift_ok e D p rest r : EI e D -> e_pending e = p :: rest -> allocate_for h (bump e rest) p = Some r ->
    forall e', r = Ok e' -> EI e' (D ++ [p]) /\ (exists new, items e' (D ++ [p]) = items e D ++ new) /\ ids_ext (e_ids e) (e_ids e') /\ e_strings e' = e_strings e /\
      (forall t, p = PType t -> In t (e_visited e')) /\ (forall x, In x (e_visited e) -> In x (e_visited e')) /\
      (ints (items e' (D ++ [p])) = ints (items e D)).
  Proof.
    intros J P A e' ->. assert (It : items (bump e rest) (D ++ [p]) = items e D) by (unfold items; cbn; rewrite P, <- app_assoc; reflexivity).
    assert (Hp : In p (items e D)) by (unfold items; rewrite P; apply in_or_app; right; now left).
    assert (Keep : match p with PType _ => False | _ => True end -> @Ok eerr enc (bump e rest) = Ok e' -> EI e' (D ++ [p]) /\ (exists new, items e' (D ++ [p]) = items e D ++ new) /\ ids_ext (e_ids e) (e_ids e') /\ e_strings e' = e_strings e /\
      (forall t, p = PType t -> In t (e_visited e')) /\ (forall x, In x (e_visited e) -> In x (e_visited e')) /\ (ints (items e' (D ++ [p])) = ints (items e D))).
    { intros Np E. injection E as <-. split; [|split; [exists []; now rewrite app_nil_r|split; [intros ? ? X; exact X|split; [reflexivity|split; [intros t ->; destruct Np|split; [auto|now rewrite It]]]]]].
      destruct J as [U L N C V T Dn R Ni]. constructor; rewrite ?It; cbn [bump e_lastID e_ids e_visited]; auto.
      - intros x H. apply in_app_or in H as [H|[->|[]]]; [auto|destruct Np].
      - rewrite ntypes_app. lia. }
    destruct p as [t|o v k|s z en|].
    - cbn [allocate_for] in A. unfold allocateIDs in A. cbn [bump e_visited e_pending e_strings e_ids e_lastID] in A.
      destruct (postorder h (e_visited e) t) as [[vis its]|] eqn:Po; [|discriminate A]. injection A as A.
      set (e0 := mkEnc rest (e_strings e) (e_ids e) vis (e_lastID e)) in *.
      destruct J as [U L N C V T Dn R Ni].
      destruct (C34_resumed h (e_visited e) t vis its C Po) as (_ & HT & HV & HC).
      destruct (visit_good h _ _ _ _ _ Po) as ([S _ _ _ _] & Rv & _ & _ & Ow & _).
      destruct (allocate_all_ok (D ++ [PType t]) its e0 e' A) as (new & P' & S' & V' & U' & L' & N' & X' & I' & T' & Q').
      + exact U.
      + change (D ++ [PType t]) with (D ++ [PType t]). unfold items in L. rewrite P in L. cbn [e0 e_pending e_lastID]. rewrite <- app_assoc. exact L.
      + unfold items in N. rewrite P in N. cbn [e0 e_pending e_ids]. rewrite <- app_assoc. exact N.
      + assert (It' : items e' (D ++ [PType t]) = items e D ++ new) by (unfold items; rewrite P', P; cbn [e0 e_pending]; rewrite <- !app_assoc; reflexivity).
        assert (Nn : ints new = 0%nat).
        { clear -Q'. induction new as [|p new IH]; [reflexivity|]. pose proof (Q' p (or_introl eq_refl)). unfold ints in *. cbn [filter]. destruct p; try contradiction; apply IH; intros q Hq; apply Q'; now right. }
        split; [|split; [eauto|split; [exact X'|split; [rewrite S'; reflexivity|split; [intros t0 E; injection E as <-; rewrite V'; exact Rv|split; [intros x Hx; rewrite V'; apply HV; now left|rewrite It', ints_app; lia]]]]]].
        constructor.
        * exact U'.
        * exact L'.
        * exact N'.
        * rewrite V'. cbn [e0 e_visited]. exact HC.
        * rewrite V'. cbn [e0 e_visited]. intros x Hx. apply HV in Hx. destruct (in_dec ref_eq_dec x (e_visited e)) as [Hv|Hv].
          -- destruct (V x Hv) as [|(i & Hi)]; [auto|]. right. exists i. apply X'. exact Hi.
          -- destruct Hx as [Hx|Hx]; [contradiction|]. apply I'. apply HT. auto.
        * intros x. rewrite It', ptags_app, T, T', Ow, V'. cbn [e0 e_visited].
          destruct (ref_in x (e_visited e)) eqn:R1.
          -- apply ref_in_In in R1. assert (R2 : ref_in x (types its) = false) by (apply ref_in_false; intros H; apply HT in H; tauto). assert (R3 : ref_in x vis = true) by (apply ref_in_In, HV; auto). rewrite R2, R3. apply app_nil_r.
          -- apply ref_in_false in R1. cbn [app]. destruct (ref_in x (types its)) eqn:R2.
             ++ apply ref_in_In in R2. assert (R3 : ref_in x vis = true) by (apply ref_in_In, S; auto). now rewrite R3.
             ++ apply ref_in_false in R2. assert (R3 : ref_in x vis = false) by (apply ref_in_false; intros H; apply S in H; tauto). now rewrite R3.
        * rewrite V'. cbn [e0 e_visited]. intros x H. apply in_app_or in H as [H|[H|[]]]; [apply HV; left; auto|]. injection H as ->. exact Rv.
        * rewrite It'. intros p Hi. apply in_app_or in Hi as [Hi|Hi]; [now apply R|]. apply Q' in Hi. destruct p; try contradiction; [|exact I]. destruct Hi as (Hi & Nv). split; [exact Nv|].
          apply HT in Hi as (Hi & _). destruct (R _ Hp) as (_ & t0 & H0 & R0). exists t0. split; [exact H0|]. eapply reach_trans; eassumption.
        * rewrite It', ints_app, ntypes_app. lia.
    - apply Keep; [exact I|]. cbn in A. congruence.
    - apply Keep; [exact I|]. cbn in A. congruence.
    - destruct (ei_root _ _ J _ Hp).
  Qed.
  Lemma shift_total e D p rest : EI e D -> e_pending e = p :: rest -> exists r, allocate_for h (bump e rest) p = Some r.
  Proof.
    intros I P. assert (Hp : In p (items e D)) by (unfold items; rewrite P; apply in_or_app; right; now left). pose proof (ei_root _ _ I _ Hp) as R.
    destruct p as [t|o v k|s z en|]; [|cbn; eauto..]. cbn [allocate_for]. unfold allocateIDs. cbn [bump e_visited]. destruct R as (_ & t0 & H0 & R).
    destruct (C34_terminates h (e_visited e) t) as (vis & its & ->); [|eauto]. intros x Hx. apply (Hroots _ H0). eapply reach_trans; eassumption.
  Qed.

  (** the number of items is bounded *)
  Definition total_tags : nat := fold_right (fun n k => node_tags h n + k)%nat 0%nat h.
  Definition bound : nat := (2 * length h + total_tags)%nat.
  Lemma NoDup_bounded (l : list ref) : NoDup l -> (forall r, In r l -> exists a, r = RPtr a /\ (a < length h)%nat) -> (length l <= length h)%nat.
  Proof using. clear Hroots roots.
    intros N H. rewrite <- (seq_length (length h) 0), <- (map_length RPtr). apply NoDup_incl_length; [exact N|]. intros r Hr. destruct (H r Hr) as (a & -> & La). apply in_map. apply in_seq. lia.
  Qed.
  Definition ptypes (l : list pitem) : list ref := flat_map (fun p => match p with PType r => [r] | _ => [] end) l.
  Lemma ptypes_length l : length (ptypes l) = ntypes l.
  Proof using. induction l as [|p l IH]; [reflexivity|]. unfold ntypes, ptypes in *. destruct p; cbn [flat_map filter app length]; rewrite ?IH; reflexivity. Qed.
  Lemma ptypes_In l r : In r (ptypes l) <-> In (PType r) l.
  Proof using.
    unfold ptypes. rewrite in_flat_map. split; [intros (p & H & I); destruct p; [|destruct I..]; destruct I as [->|[]]; exact H|]. intros H. exists (PType r). split; [exact H|now left].
  Qed.
  Lemma numbered_NoDup ids : forall all, numbered_items ids all -> NoDup (ptypes all).
  Proof using. clear Hroots roots h.
    intros all N.
    assert (G : forall j k r, nth_error all j = Some (PType r) -> nth_error all k = Some (PType r) -> j = k).
    { intros j k r Hj Hk. assert (A : id_of ids r = Some (Z.of_nat j + 1)) by (apply N; split; [lia|]; replace (Z.to_nat _) with j by lia; exact Hj).
      assert (B : id_of ids r = Some (Z.of_nat k + 1)) by (apply N; split; [lia|]; replace (Z.to_nat _) with k by lia; exact Hk). rewrite A in B. injection B. lia. }
    clear N. induction all as [|p all IH]; [constructor|]. assert (IH' : NoDup (ptypes all)) by (apply IH; intros j k r Hj Hk; assert (S j = S k) by (eapply G; cbn; eassumption); lia).
    destruct p; try exact IH'. cbn [ptypes flat_map app]. constructor; [|exact IH']. intros H. apply ptypes_In, In_nth_error in H as (k & H). assert (0 = S k)%nat by (eapply G; [reflexivity|exact H]). discriminate.
  Qed.
  Definition tag_items_of (l : list pitem) : nat := length (filter (fun p => match p with PTag _ _ _ => true | _ => false end) l).
  Lemma tags_sum (l : list pitem) (univ : list ref) : NoDup univ -> (forall o v k, In (PTag o v k) l -> In o univ) ->
    (tag_items_of l = fold_right (fun x n => length (ptags x l) + n) 0 univ)%nat.
  Proof using. clear Hroots roots h.
    intros Nd H. induction l as [|p l IH].
    - clear. unfold tag_items_of. cbn. induction univ; cbn; congruence.
    - assert (IH' := IH (fun o v k Hi => H o v k (or_intror Hi))). destruct p as [r|o v k|s z en|]; try exact IH'.
      assert (Ho : In o univ) by (apply (H o v k); now left). change (tag_items_of (PTag o v k :: l)) with (S (tag_items_of l)). rewrite IH'. clear -Nd Ho.
      induction univ as [|x univ IH]; [destruct Ho|]. inversion Nd as [|? ? Nx Nu]; subst. cbn [fold_right]. change (ptags x (PTag o v k :: l)) with ((if ref_eq_dec o x then [(v, k)] else []) ++ ptags x l).
      destruct (ref_eq_dec o x) as [->|Ne].
      + cbn [app length]. assert (G : fold_right (fun y n => (length (ptags y (PTag x v k :: l)) + n)%nat) 0%nat univ = fold_right (fun y n => (length (ptags y l) + n)%nat) 0%nat univ); [|rewrite G; lia].
        clear -Nx. induction univ as [|y univ IH]; [reflexivity|]. cbn [fold_right]. change (ptags y (PTag x v k :: l)) with ((if ref_eq_dec x y then [(v, k)] else []) ++ ptags y l).
        destruct (ref_eq_dec x y) as [->|]; [destruct Nx; now left|]. cbn [app]. rewrite IH; [reflexivity|]. intros Hx. apply Nx. now right.
      + cbn [app]. destruct Ho as [->|Ho]; [contradiction|]. rewrite <- (IH Nu Ho). lia.
  Qed.
  Lemma node_tags_length n : node_tags h n = length (decl_tags h n).
  Proof using. clear Hroots roots.
    unfold node_tags. rewrite <- children_tags. induction (children h n) as [|[r|v i] l IH]; cbn; auto.
  Qed.
  Lemma tags_total (V : list ref) : (fold_right (fun x n => length (if ref_in x V then tags_at h x else []) + n) 0 (map RPtr (seq 0 (length h))) <= total_tags)%nat.
  Proof using. clear Hroots roots.
    unfold total_tags. assert (G : forall pre l, h = pre ++ l -> (fold_right (fun x n => length (if ref_in x V then tags_at h x else []) + n) 0 (map RPtr (seq (length pre) (length l))) <= fold_right (fun n k => node_tags h n + k) 0 l)%nat).
    { intros pre l. revert pre. induction l as [|n l IH]; intros pre E; [cbn; lia|]. cbn [length seq map fold_right].
      specialize (IH (pre ++ [n])). rewrite app_length in IH. cbn [length] in IH. rewrite Nat.add_1_r in IH. specialize (IH ltac:(rewrite <- app_assoc; exact E)).
      assert (X : (length (if ref_in (RPtr (length pre)) V then tags_at h (RPtr (length pre)) else []) <= node_tags h n)%nat); [|lia].
      destruct (ref_in _ V); [|cbn; lia]. unfold tags_at. cbn [deref]. rewrite E at 1. rewrite nth_error_app2, Nat.sub_diag by lia. cbn [nth_error]. rewrite node_tags_length. lia. }
    exact (G [] h eq_refl).
  Qed.
  Lemma kinds_count l : (forall p, In p l -> p <> PDummy) -> (length l = ntypes l + tag_items_of l + ints l)%nat.
  Proof using. clear Hroots roots h.
    induction l as [|p l IH]; [reflexivity|]. intros H. unfold ntypes, tag_items_of, ints in *. assert (X := H p (or_introl eq_refl)). specialize (IH (fun q Hq => H q (or_intror Hq))). destruct p; cbn [filter length]; try lia. contradiction.
  Qed.
  Lemma EI_bound e D : EI e D -> (length (items e D) <= bound)%nat.
  Proof.
    intros I. rewrite kinds_count by (intros p Hp ->; exact (ei_root _ _ I _ Hp)).
    assert (A : (ntypes (items e D) <= length h)%nat).
    { rewrite <- ptypes_length. apply NoDup_bounded; [exact (numbered_NoDup _ _ (ei_ids _ _ I))|]. intros r Hr. apply ptypes_In in Hr. eapply ei_present; eassumption. }
    assert (B : (tag_items_of (items e D) <= total_tags)%nat).
    { rewrite (tags_sum _ (map RPtr (seq 0 (length h)))).
      - eapply Nat.le_trans; [|apply (tags_total (e_visited e))]. apply Nat.eq_le_incl. generalize (map RPtr (seq 0 (length h))). intros l. induction l as [|x l IH]; [reflexivity|]. cbn [fold_right]. rewrite (ei_tags _ _ I x), IH. reflexivity.
      - apply FinFun.Injective_map_NoDup; [intros a b E; congruence|apply seq_NoDup].
      - intros o v k Ho. pose proof (ei_owner _ _ _ _ _ I Ho) as Hv. destruct (ei_vids _ _ I _ Hv) as [->|(i & Hi)].
        + exfalso. assert (X : In (v, k) (ptags RVoid (items e D))). { unfold ptags. apply in_flat_map. exists (PTag RVoid v k). split; [exact Ho|]. destruct (ref_eq_dec RVoid RVoid); [now left|contradiction]. }
          rewrite (ei_tags _ _ I) in X. destruct (ref_in RVoid (e_visited e)); exact X.
        + apply (ei_ids _ _ I) in Hi as (_ & Hi). apply nth_error_In in Hi. destruct (ei_present _ _ _ I Hi) as (a & -> & La). apply in_map, in_seq. lia. }
    assert (C : (ints (items e D) <= length h)%nat).
    { pose proof (ei_ints _ _ I) as X. assert (ntypes D <= ntypes (items e D))%nat by (unfold items; rewrite ntypes_app; lia). lia. }
    unfold bound. lia.
  Qed.
End Run.
