(** Proofs about btf.Copy. *)
From Coq Require Import ZArith List Lia Bool.
From Verif.Base Require Import GoInt ListExtra.
From Verif.Btf Require Import Types TypesSpec TypesProof.
Import ListNotations.
Open Scope nat_scope.

Definition keys (m : copies) : list ref := map fst m.
Definition F (m : copies) (r : ref) : ref :=
  match r with RNil => RNil | _ => match lookup_copy m r with Some c => c | None => RNil end end.

Lemma lookup_In m r v : lookup_copy m r = Some v -> In (r, v) m.
Proof.
  induction m as [|[k w] m IH]; [discriminate|]. cbn [lookup_copy]. destruct (ref_eq_dec k r) as [->|]; [intros E; inversion E; now left|].
  intros E. right. auto.
Qed.
Lemma lookup_None m r : lookup_copy m r = None <-> ~ In r (keys m).
Proof.
  induction m as [|[k w] m IH]; [cbn; tauto|]. cbn [lookup_copy keys map fst In]. destruct (ref_eq_dec k r) as [->|N]; [split; [discriminate|tauto]|].
  rewrite IH. cbn. tauto.
Qed.
Lemma lookup_key m r : In r (keys m) -> exists v, lookup_copy m r = Some v.
Proof. intros H. destruct (lookup_copy m r) eqn:E; [eauto|]. apply lookup_None in E. contradiction. Qed.
Lemma lookup_app a m r : (forall k, In k (keys a) -> ~ In k (keys m)) -> In r (keys m) -> lookup_copy (a ++ m) r = lookup_copy m r.
Proof.
  intros D I. induction a as [|[k w] a IH]; [reflexivity|]. cbn [app lookup_copy]. destruct (ref_eq_dec k r) as [->|].
  - exfalso. apply (D r); [now left|exact I].
  - apply IH. intros x Hx. apply D. now right.
Qed.
Lemma F_app a m r : (forall k, In k (keys a) -> ~ In k (keys m)) -> r = RNil \/ In r (keys m) -> F (a ++ m) r = F m r.
Proof. intros D [->|I]; [reflexivity|]. unfold F. rewrite lookup_app by assumption. reflexivity. Qed.
Lemma keys_app a m : keys (a ++ m) = keys a ++ keys m.
Proof. apply map_app. Qed.

(** copying a list of references *)
Fixpoint copy_refs (copy : heap * copies -> ref -> option (heap * copies * ref)) (st : heap * copies) (rs : list ref) :=
  match rs with
  | [] => Some (st, [])
  | r :: rs' =>
      match copy st r with
      | None => None
      | Some (st, r') =>
          match copy_refs copy st rs' with
          | None => None
          | Some (st, out) => Some (st, r' :: out)
          end
      end
  end.
Lemma copy_children_refs copy cs : forall st, copy_children copy st cs = copy_refs copy st (crefs cs).
Proof.
  induction cs as [|c cs IH]; intros st; [reflexivity|]. destruct c as [r|v i]; cbn [copy_children].
  - change (crefs (CRef r :: cs)) with (r :: crefs cs). cbn [copy_refs]. destruct (copy st r) as [[st' r']|]; [|reflexivity]. now rewrite IH.
  - apply IH.
Qed.

Section Copy.
  Variable h : heap.
  Definition entry_ok (lo : nat) (H : heap) (m : copies) (kv : ref * ref) : Prop :=
    (fst kv = RVoid /\ snd kv = RVoid) \/
    exists a c n, fst kv = RPtr a /\ snd kv = RPtr c /\ lo <= c < length H /\ nth_error h a = Some n /\
      nth_error H c = Some (set_children n (map (F m) (refs n))) /\ forall r, In r (refs n) -> r = RNil \/ In r (keys m).
  (** [news] and [ext] are what copying the types [rs] added to the state *)
  Record post (H : heap) (m : copies) (rs : list ref) (H' : heap) (m' : copies) (out : list ref) : Prop := {
    po_news : exists news, m' = news ++ m /\ (forall k, In k (keys news) -> ~ In k (keys m)) /\ NoDup (keys news) /\
                NoDup (map snd news) /\ (forall kv, In kv news -> entry_ok (length H) H' m' kv) /\
                (forall k, In k (keys news) -> exists r, In r rs /\ reach h r k);
    po_ext : exists ext, H' = H ++ ext;
    po_out : out = map (F m') rs;
    po_in : forall r, In r rs -> r = RNil \/ In r (keys m') }.

  Lemma post_nil H m : post H m [] H m [].
  Proof.
    constructor; [exists []|exists []; now rewrite app_nil_r|reflexivity|intros r []].
    split; [reflexivity|]. split; [intros k []|]. split; [constructor|]. split; [constructor|]. split; [intros kv []|intros k []].
  Qed.
  Lemma entry_mono lo lo' H m ext news kv : lo' <= lo -> (forall k, In k (keys news) -> ~ In k (keys m)) ->
    entry_ok lo H m kv -> entry_ok lo' (H ++ ext) (news ++ m) kv.
  Proof.
    intros L D [E|(a & c & n & E1 & E2 & B & N & S & K)]; [now left|right]. exists a, c, n. rewrite app_length. repeat split; try assumption; try lia.
    - rewrite nth_error_app1 by lia. rewrite S. do 2 f_equal. apply map_ext_in. intros r Hr. symmetry. apply F_app; auto.
    - intros r Hr. destruct (K r Hr); [auto|]. right. rewrite keys_app. apply in_or_app. auto.
  Qed.
  (** values of new entries are above the heap they started from *)
  Lemma entry_value lo H m kv : entry_ok lo H m kv -> snd kv = RVoid /\ fst kv = RVoid \/ exists c, snd kv = RPtr c /\ lo <= c < length H.
  Proof. intros [(E1 & E2)|(a & c & n & E1 & E2 & B & _)]; [auto|right; eauto]. Qed.

  Lemma post_cons H m r H1 m1 out1 rs H2 m2 out2 :
    post H m [r] H1 m1 out1 -> post H1 m1 rs H2 m2 out2 -> post H m (r :: rs) H2 m2 (out1 ++ out2).
  Proof.
    intros [(n1 & -> & D1 & N1 & V1 & E1 & R1) (e1 & ->) O1 I1] [(n2 & -> & D2 & N2 & V2 & E2 & R2) (e2 & ->) O2 I2].
    constructor.
    - exists (n2 ++ n1). split; [apply app_assoc|]. split; [|split; [|split; [|split]]].
      + intros k. rewrite keys_app. intros K X. apply in_app_or in K as [K|K]; [|now apply (D1 k)].
        apply (D2 k K). rewrite keys_app. apply in_or_app. auto.
      + rewrite keys_app. apply NoDup_app_intro; [assumption|assumption|]. intros k K1 K2. apply (D2 k K1). rewrite keys_app. apply in_or_app. auto.
      + rewrite map_app. apply NoDup_app_intro; [assumption|assumption|]. intros v Kv1 Kv2.
        apply in_map_iff in Kv1 as (kv1 & <- & A1). apply in_map_iff in Kv2 as (kv2 & Ev & A2).
        destruct (entry_value _ _ _ _ (E2 _ A1)) as [(B1 & B1')|(c1 & B1 & B1')], (entry_value _ _ _ _ (E1 _ A2)) as [(B2 & B2')|(c2 & B2 & B2')]; try congruence.
        * apply (D2 RVoid); [rewrite <- B1'; now apply in_map|]. rewrite keys_app. apply in_or_app. left. rewrite <- B2'. now apply in_map.
        * rewrite B1, B2 in Ev. inversion Ev; subst. lia.
      + intros kv K. apply in_app_or in K as [K|K].
        * specialize (E2 kv K). destruct E2 as [E|(a & c & n & X1 & X2 & B & Y)]; [now left|right]. exists a, c, n. rewrite !app_length in *.
          split; [assumption|]. split; [assumption|]. split; [lia|exact Y].
        * apply (entry_mono (length H)); [lia|assumption|]. now apply E1.
      + intros k. rewrite keys_app. intros K. apply in_app_or in K as [K|K].
        * destruct (R2 k K) as (x & Hx & Rx). exists x. split; [now right|exact Rx].
        * destruct (R1 k K) as (x & Hx & Rx). exists x. split; [destruct Hx as [->|[]]; now left|exact Rx].
    - exists (e1 ++ e2). now rewrite app_assoc.
    - rewrite O1, O2. cbn [map app]. f_equal. symmetry. apply F_app; [assumption|]. apply I1. now left.
    - intros x [<-|Hx]; [|auto]. destruct (I1 r (or_introl eq_refl)); [auto|]. right. rewrite keys_app. apply in_or_app. auto.
  Qed.

  Lemma set_nth_app {A} (a : list A) x y b : set_nth (a ++ x :: b) (length a) y = a ++ y :: b.
  Proof. induction a; cbn; [reflexivity|]. now f_equal. Qed.

  (** references of the original graph *)
  Definition original (r : ref) : Prop := forall x, reach h r x -> x = RNil \/ present h x.
  Lemma original_edge r c : original r -> edge h r c -> original c.
  Proof. intros O E x R. apply O. econstructor; eassumption. Qed.

  Lemma copy_good f : forall H m r H' m' r', (exists e, H = h ++ e) -> original r ->
    copyType f (H, m) r = Some ((H', m'), r') -> post H m [r] H' m' [r'].
  Proof.
    induction f as [|f IH]; intros H m r H' m' r' (e & HH) O E; [discriminate E|]. cbn [copyType fst snd] in E.
    assert (Refs : forall rs H0 m0 H1 m1 out, (exists e0, H0 = h ++ e0) -> (forall x, In x rs -> original x) ->
      copy_refs (copyType f) (H0, m0) rs = Some ((H1, m1), out) -> post H0 m0 rs H1 m1 out).
    { induction rs as [|x rs IHr]; intros H0 m0 H1 m1 out X Ox Ex; cbn [copy_refs] in Ex; [inversion Ex; subst; apply post_nil|].
      destruct (copyType f (H0, m0) x) as [[[Ha ma] xa]|] eqn:Ea; [|discriminate].
      destruct (copy_refs (copyType f) (Ha, ma) rs) as [[[Hb mb] outb]|] eqn:Eb; [|discriminate]. inversion Ex; subst.
      apply IH in Ea; [|assumption|apply Ox; now left]. change (xa :: outb) with ([xa] ++ outb). eapply post_cons; [exact Ea|].
      apply IHr in Eb; [exact Eb| |intros y Hy; apply Ox; now right].
      destruct Ea as [_ (e1 & ->) _ _]. destruct X as (e0 & ->). exists (e0 ++ e1). now rewrite app_assoc. }
    destruct r as [| |a].
    - inversion E; subst H' m' r'. destruct (post_nil H m) as [A B _ _]. constructor; [|exact B|reflexivity|intros x [<-|[]]; auto].
      destruct A as (news & A1 & A2 & A3 & A4 & A5 & A6). exists news. repeat (split; [assumption|]). intros k Hk. destruct (A6 k Hk) as (x & [] & _).
    - destruct (lookup_copy m RVoid) as [c|] eqn:L.
      + inversion E; subst H' m' r'. destruct (post_nil H m) as [A B _ _]. constructor; [|exact B|cbn [map F]; now rewrite L|].
        * destruct A as (news & A1 & A2 & A3 & A4 & A5 & A6). exists news. repeat (split; [assumption|]). intros k Hk. destruct (A6 k Hk) as (x & [] & _).
        * intros x [<-|[]]. right. apply lookup_In in L. now apply (in_map fst) in L.
      + inversion E; subst H' m' r'. constructor.
        * exists [(RVoid, RVoid)]. split; [reflexivity|]. split; [intros k [<-|[]]; now apply lookup_None|].
          split; [repeat constructor; intros []|]. split; [repeat constructor; intros []|]. split; [intros kv [<-|[]]; left; split; reflexivity|].
          intros k [<-|[]]. exists RVoid. split; [now left|constructor].
        * exists []. now rewrite app_nil_r.
        * cbn [map F lookup_copy]. destruct (ref_eq_dec RVoid RVoid); [reflexivity|congruence].
        * intros x [<-|[]]. right. now left.
    - destruct (lookup_copy m (RPtr a)) as [c|] eqn:L.
      + inversion E; subst H' m' r'. destruct (post_nil H m) as [A B _ _]. constructor; [|exact B|cbn [map F]; now rewrite L|].
        * destruct A as (news & A1 & A2 & A3 & A4 & A5 & A6). exists news. repeat (split; [assumption|]). intros k Hk. destruct (A6 k Hk) as (x & [] & _).
        * intros x [<-|[]]. right. apply lookup_In in L. now apply (in_map fst) in L.
      + destruct (nth_error H a) as [n|] eqn:Na; [|discriminate].
        assert (Nh : nth_error h a = Some n).
        { destruct (O (RPtr a) (reach_refl _ _)) as [X|X]; [discriminate|]. cbn in X. rewrite HH, nth_error_app1 in Na by exact X. exact Na. }
        set (c := length H) in *. rewrite copy_children_refs, children_refs in E.
        destruct (copy_refs (copyType f) (H ++ [n], (RPtr a, RPtr c) :: m) (refs n)) as [[[H1 m1] rs]|] eqn:Er; [|discriminate].
        inversion E; subst H' m' r'; clear E.
        apply Refs in Er; [|exists (e ++ [n]); rewrite HH; now rewrite app_assoc|].
        2:{ intros x Hx. apply (original_edge (RPtr a)); [exact O|]. exists n. split; [exact Nh|exact Hx]. }
        destruct Er as [(news & -> & D & N & V & En & R) (ext & ->) Out Inn].
        assert (Hl : forall x, In x (keys news) -> x <> RPtr a) by (intros x Hx ->; apply (D _ Hx); now left).
        assert (Set1 : set_nth ((H ++ [n]) ++ ext) c (set_children n rs) = H ++ [set_children n rs] ++ ext).
        { rewrite <- app_assoc. cbn [app]. apply set_nth_app. }
        rewrite Set1. set (m1 := news ++ (RPtr a, RPtr c) :: m) in *.
        assert (Rn : forall k, In k (keys news) -> reach h (RPtr a) k).
        { intros k Hk. destruct (R k Hk) as (x & Hx & Rx). eapply reach_step; [|exact Rx]. exists n. split; [exact Nh|exact Hx]. }
        assert (Lv : forall kv, In kv news -> entry_ok (S c) (H ++ [set_children n rs] ++ ext) m1 kv).
        { intros kv Hk. specialize (En kv Hk). destruct En as [En|(a0 & c0 & n0 & X1 & X2 & B & Y1 & Y2 & Y3)]; [now left|right]. exists a0, c0, n0.
          rewrite !app_length in B. cbn [length] in B. repeat split; try assumption; try (unfold c; lia).
          - rewrite !app_length. cbn [length]. lia.
          - rewrite <- Y2. rewrite <- app_assoc. rewrite !(nth_error_app2 H) by lia. cbn [app].
            destruct (c0 - length H) eqn:Z; [lia|]. reflexivity. }
        constructor.
        * exists (news ++ [(RPtr a, RPtr c)]). split; [unfold m1; now rewrite <- app_assoc|]. split; [|split; [|split; [|split]]].
          -- intros k. rewrite keys_app. intros K. apply in_app_or in K as [K|[<-|[]]]; [|now apply lookup_None].
             intros X. apply (D k K). now right.
          -- rewrite keys_app. apply NoDup_app_intro; [assumption|repeat constructor; intros []|]. intros k K [X|[]]. apply (Hl k K). now symmetry.
          -- rewrite map_app. apply NoDup_app_intro; [assumption|repeat constructor; intros []|]. intros v K [X|[]]. cbn [snd] in X.
             apply in_map_iff in K as (kv & Ev & K). destruct (entry_value _ _ _ _ (Lv kv K)) as [(B1 & _)|(c1 & B1 & B2)]; rewrite Ev, <- X in B1; [discriminate|].
             inversion B1; subst c1. lia.
          -- intros kv K. apply in_app_or in K as [K|[<-|[]]].
             ++ specialize (Lv kv K). destruct Lv as [X|(a0 & c0 & n0 & X1 & X2 & B & Y)]; [now left|right]. exists a0, c0, n0. repeat split; try tauto; lia.
             ++ right. exists a, c, n. cbn [fst snd]. split; [reflexivity|]. split; [reflexivity|]. split; [rewrite !app_length; cbn [length]; unfold c; lia|].
                split; [exact Nh|]. split; [|exact Inn]. rewrite nth_error_app2 by (unfold c; lia). unfold c. rewrite Nat.sub_diag. cbn [nth_error app]. now rewrite Out.
          -- intros k. rewrite keys_app. intros K. exists (RPtr a). split; [now left|]. apply in_app_or in K as [K|[<-|[]]]; [auto|constructor].
        * eexists. reflexivity.
        * cbn [map F]. f_equal. unfold m1.
          assert (X : lookup_copy (news ++ (RPtr a, RPtr c) :: m) (RPtr a) = lookup_copy ((RPtr a, RPtr c) :: m) (RPtr a)).
          { apply lookup_app; [exact D|now left]. }
          rewrite X. cbn [lookup_copy]. destruct (ref_eq_dec (RPtr a) (RPtr a)); [reflexivity|congruence].
        * intros x [<-|[]]. right. unfold m1. rewrite keys_app. apply in_or_app. right. now left.
  Qed.
  Lemma copy_refs_good f rs : forall H m H' m' out, (exists e, H = h ++ e) -> (forall x, In x rs -> original x) ->
    copy_refs (copyType f) (H, m) rs = Some ((H', m'), out) -> post H m rs H' m' out.
  Proof.
    induction rs as [|x rs IHr]; intros H0 m0 H1 m1 out X Ox Ex; cbn [copy_refs] in Ex; [inversion Ex; subst; apply post_nil|].
    destruct (copyType f (H0, m0) x) as [[[Ha ma] xa]|] eqn:Ea; [|discriminate].
    destruct (copy_refs (copyType f) (Ha, ma) rs) as [[[Hb mb] outb]|] eqn:Eb; [|discriminate]. inversion Ex; subst.
    apply copy_good in Ea; [|assumption|apply Ox; now left]. change (xa :: outb) with ([xa] ++ outb). eapply post_cons; [exact Ea|].
    apply IHr in Eb; [exact Eb| |intros y Hy; apply Ox; now right].
    destruct Ea as [_ (e1 & ->) _ _]. destruct X as (e0 & ->). exists (e0 ++ e1). now rewrite app_assoc.
  Qed.

  (** *** termination *)
  Lemma copy_total f : forall H m r, (exists e, H = h ++ e) -> original r -> unvisited h (keys m) < f ->
    exists H' m' r', copyType f (H, m) r = Some ((H', m'), r').
  Proof.
    induction f as [|f IH]; intros H m r HH O L; [lia|]. cbn [copyType fst snd]. destruct r as [| |a]; [eauto| |].
    - destruct (lookup_copy m RVoid); eauto.
    - destruct (lookup_copy m (RPtr a)) eqn:Lk; [eauto|]. apply lookup_None in Lk.
      destruct (O (RPtr a) (reach_refl _ _)) as [X|P]; [discriminate|]. pose proof P as P'. cbn in P'.
      destruct (nth_error h a) as [n|] eqn:Nh; [|apply nth_error_None in Nh; lia].
      assert (Na : nth_error H a = Some n) by (destruct HH as (e & ->); now rewrite nth_error_app1).
      rewrite Na. rewrite copy_children_refs, children_refs.
      assert (G : forall rs H0 m0, (exists e, H0 = h ++ e) -> (forall x, In x rs -> original x) -> unvisited h (keys m0) < f ->
        exists H1 m1 out, copy_refs (copyType f) (H0, m0) rs = Some ((H1, m1), out)).
      { induction rs as [|x rs IHr]; intros H0 m0 X Ox L0; cbn [copy_refs]; [eauto|].
        destruct (IH H0 m0 x X (Ox x (or_introl eq_refl)) L0) as (Ha & ma & xa & Ea). rewrite Ea.
        apply copy_good in Ea; [|exact X|apply Ox; now left]. destruct Ea as [(news & -> & _) (ext & ->) _ _].
        destruct (IHr (H0 ++ ext) (news ++ m0)) as (Hb & mb & ob & Eb).
        - destruct X as (e & ->). exists (e ++ ext). now rewrite app_assoc.
        - intros y Hy. apply Ox. now right.
        - assert (unvisited h (keys (news ++ m0)) <= unvisited h (keys m0)); [|lia]. apply unvisited_mono. rewrite keys_app. apply incl_appr, incl_refl.
        - match goal with |- context [copy_refs ?c ?s rs] => replace (copy_refs c s rs) with (Some ((Hb, mb), ob)) by (symmetry; exact Eb) end. eauto. }
      destruct (G (refs n) (H ++ [n]) ((RPtr a, RPtr (length H)) :: m)) as (H1 & m1 & out & E).
      + destruct HH as (e & ->). exists (e ++ [n]). now rewrite app_assoc.
      + intros x Hx. apply (original_edge (RPtr a)); [exact O|]. exists n. split; [exact Nh|exact Hx].
      + cbn [keys map fst]. pose proof (unvisited_lt h (keys m) (RPtr a) P Lk). unfold keys in *. lia.
      + match goal with |- context [copy_refs ?c ?s ?l] => replace (copy_refs c s l) with (Some ((H1, m1), out)) by (symmetry; exact E) end. eauto.
  Qed.
  Lemma copy_refs_total f rs : forall H m, (exists e, H = h ++ e) -> (forall x, In x rs -> original x) -> unvisited h (keys m) < f ->
    exists H' m' out, copy_refs (copyType f) (H, m) rs = Some ((H', m'), out).
  Proof.
    induction rs as [|x rs IHr]; intros H0 m0 X Ox L0; cbn [copy_refs]; [eauto|].
    destruct (copy_total f H0 m0 x X (Ox x (or_introl eq_refl)) L0) as (Ha & ma & xa & Ea). rewrite Ea.
    apply copy_good in Ea; [|exact X|apply Ox; now left]. destruct Ea as [(news & -> & _) (ext & ->) _ _].
    destruct (IHr (H0 ++ ext) (news ++ m0)) as (Hb & mb & ob & Eb).
    - destruct X as (e & ->). exists (e ++ ext). now rewrite app_assoc.
    - intros y Hy. apply Ox. now right.
    - assert (unvisited h (keys (news ++ m0)) <= unvisited h (keys m0)); [|lia]. apply unvisited_mono. rewrite keys_app. apply incl_appr, incl_refl.
    - match goal with |- context [copy_refs ?c ?s rs] => replace (copy_refs c s rs) with (Some ((Hb, mb), ob)) by (symmetry; exact Eb) end. eauto.
  Qed.
End Copy.

(** *** set_children is renaming, except for explicit tags and cycle markers *)
Definition plain (n : node) : Prop := match n with NDeclTag _ _ _ | NCycle _ => False | _ => True end.
Lemma set_members_map f ms : set_members ms (map f (map m_type ms)) = map (fun m => mkMember (m_name m) (f (m_type m)) (m_offset m) (m_bits m) (m_tags m)) ms.
Proof. induction ms as [|m ms IH]; [reflexivity|]. cbn. now rewrite IH. Qed.
Lemma set_params_map f ps : set_params ps (map f (map p_type ps)) = map (fun p => mkParam (p_name p) (f (p_type p))) ps.
Proof. induction ps as [|m ms IH]; [reflexivity|]. cbn. now rewrite IH. Qed.
Lemma set_vars_map f ps : set_vars ps (map f (map vs_type ps)) = map (fun v => mkVS (f (vs_type v)) (vs_offset v) (vs_size v)) ps.
Proof. induction ps as [|m ms IH]; [reflexivity|]. cbn. now rewrite IH. Qed.
Lemma set_children_rename f n : plain n -> set_children n (map f (refs n)) = rename f n.
Proof.
  destruct n; cbn [plain refs map set_children rename]; intros H; try reflexivity; try contradiction.
  - now rewrite set_members_map.
  - now rewrite set_members_map.
  - now rewrite set_params_map.
  - now rewrite set_vars_map.
Qed.
