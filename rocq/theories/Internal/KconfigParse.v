(** Proofs about the kernel's configuration file (property C74). *)
From Verif.Base Require Import GoInt.
From Verif.Internal Require Import Kallsyms KallsymsSpec KallsymsProof Kconfig KconfigSpec.

Lemma dropCR_id : forall l, last l 0 <> 13 -> dropCR l = l.
Proof. intros l H. unfold dropCR. destruct l as [|x l _] using rev_ind; auto. rewrite last_last in H. rewrite rev_app_distr. cbn [rev app]. destruct (Z.eqb_spec x 13); [contradiction|reflexivity]. Qed.
Lemma scan_unlines : forall ls, Forall line_ok ls -> scan [] (unlines ls) = (ls, false).
Proof.
  intros ls H. induction H as [|l ls (H1 & H2 & H3) _ IH]; [reflexivity|]. unfold unlines. cbn [map concat]. rewrite <- app_assoc. cbn [app]. fold (unlines ls).
  rewrite scan_line by auto. rewrite IH. cbn [rev app]. now rewrite dropCR_id.
Qed.
Lemma cut_inv : forall sep l x y, cut sep l = Some (x, y) -> l = x ++ sep :: y /\ Forall (fun b => b <> sep) x.
Proof.
  induction l as [|b l IH]; intros x y H; [discriminate|]. cbn [cut] in H. destruct (Z.eqb_spec b sep) as [->|Hb]; [injection H as <- <-; auto|].
  destruct (cut sep l) as [[x' y']|] eqn:E; [|discriminate]. injection H as <- <-. destruct (IH _ _ eq_refl) as [-> H]. split; auto.
Qed.
Lemma cut_none_inv : forall sep l, cut sep l = None -> Forall (fun b => b <> sep) l.
Proof. induction l as [|b l IH]; intros H; auto. cbn [cut] in H. destruct (Z.eqb_spec b sep); [discriminate|]. destruct (cut sep l) as [[]|]; [discriminate|]. constructor; auto. Qed.
Lemma hasPrefix_spec : forall p l, hasPrefix p l = true <-> exists t, l = p ++ t.
Proof.
  induction p as [|a p IH]; intros l; cbn [hasPrefix]; [split; [intros _; now exists l|reflexivity]|]. destruct l as [|b l]; [split; [discriminate|intros (t & H); discriminate]|].
  rewrite andb_true_iff, Z.eqb_eq, IH. split; [intros [-> (t & ->)]; now exists t|]. intros (t & H). injection H as -> ->. split; auto. now exists t.
Qed.
(** the key of a line has the prefix iff the line has *)
Lemma prefix_key : forall k v, Forall (fun b => b <> 61) k -> hasPrefix CONFIG (k ++ 61 :: v) = hasPrefix CONFIG k.
Proof.
  intros k v H. assert (G : forall p q, Forall (fun b => b <> 61) p -> Forall (fun b => b <> 61) q -> hasPrefix p (q ++ 61 :: v) = hasPrefix p q).
  { induction p as [|a p IH]; intros q Hp Hq; [reflexivity|]. inversion Hp; subst. destruct q as [|b q]; cbn [app hasPrefix]. - destruct (Z.eqb_spec a 61); [contradiction|reflexivity]. - inversion Hq; subst. now rewrite IH. }
  apply G; auto. unfold CONFIG. repeat constructor; lia.
Qed.

Fixpoint findFirst (ls : list str) (k : str) : option str :=
  match ls with
  | [] => None
  | l :: ls => match cut 61 l with Some (k', v) => if str_eqb k' k then Some v else findFirst ls k | None => findFirst ls k end
  end.
Lemma findFirst_app : forall a b k, findFirst (a ++ b) k = match findFirst a k with Some v => Some v | None => findFirst b k end.
Proof. induction a as [|l a IH]; intros b k; [reflexivity|]. cbn [app findFirst]. destruct (cut 61 l) as [[k' v]|]; auto. destruct (str_eqb k' k); auto. Qed.
Lemma findFirst_none : forall ls k, Forall (fun b => b <> 61) k -> findFirst ls k = None <-> forall v, ~ In (k ++ 61 :: v) ls.
Proof.
  intros ls k Hk. induction ls as [|l ls IH]; cbn [findFirst In]; [split; auto; tauto|]. split.
  - intros H v [->|Hin]. + rewrite cut_first, str_eqb_refl in H by auto. discriminate.
    + destruct (cut 61 l) as [[k' v']|]; [destruct (str_eqb k' k); [discriminate|]|]; exact (proj1 IH H v Hin).
  - intros H. destruct (cut 61 l) as [[k' v']|] eqn:E. + destruct (str_eqb_spec k' k) as [->|]. * exfalso. apply cut_inv in E. destruct E as [-> _]. apply (H v'). auto. * apply IH. intros v Hv. apply (H v). auto.
    + apply IH. intros v Hv. apply (H v). auto.
Qed.
Lemma valid_value : forall k v, option_name k -> valid_line (k ++ 61 :: v) -> v <> [].
Proof.
  intros k v [P1 P2] H. destruct H as (k2 & v2 & E & E2 & E3); [now rewrite prefix_key|].
  assert (C : cut 61 (k ++ 61 :: v) = cut 61 (k2 ++ 61 :: v2)) by now rewrite E. rewrite !cut_first in C by auto. congruence.
Qed.
Lemma first_value_find : forall ls k v, Forall valid_line ls -> first_value ls k v <-> option_name k /\ findFirst ls k = Some v.
Proof.
  intros ls k v Hls. split.
  - intros ([P1 P2] & Hv & pre & post & -> & Hno). split; [split; auto|]. rewrite findFirst_app. rewrite (proj2 (findFirst_none pre k P2)) by auto. cbn [findFirst]. now rewrite cut_first, str_eqb_refl.
  - intros [P Hf]. split; [exact P|]. assert (P2 : Forall (fun b => b <> 61) k) by apply P. induction Hls as [|l ls Hl Hls IH]; [discriminate|]. cbn [findFirst] in Hf.
    assert (Rec : findFirst ls k = Some v -> (forall v', l <> k ++ 61 :: v') -> v <> [] /\ exists pre post, l :: ls = pre ++ (k ++ 61 :: v) :: post /\ (forall v', ~ In (k ++ 61 :: v') pre)).
    { intros Hf' Hne. destruct (IH Hf') as (Hv & pre & post & -> & Hno). split; auto. exists (l :: pre), post. split; auto. intros v' [Hl'|Hi]; [now apply (Hne v')|now apply (Hno v')]. }
    destruct (cut 61 l) as [[k' v']|] eqn:E.
    + destruct (str_eqb_spec k' k) as [->|Hk].
      * injection Hf as ->. apply cut_inv in E. destruct E as [-> _]. split; [now apply valid_value with k|exists [], ls; split; auto].
      * apply Rec; auto. intros v'' ->. rewrite cut_first in E by auto. congruence.
    + apply Rec; auto. intros v'' ->. rewrite cut_first in E by auto. congruence.
Qed.

Definition wanted (filter : option (list str)) (k : str) : bool := match filter with None => true | Some f => mem f k end.
Lemma mem_spec : forall f k, mem f k = true <-> In k f.
Proof. intros f k. unfold mem. rewrite existsb_exists. split; [intros (x & H1 & H2); destruct (str_eqb_spec k x); [now subst|discriminate]|]. intros H. exists k. split; auto. apply str_eqb_refl. Qed.
Lemma cget_app : forall a b k, cget (a ++ b) k = match cget a k with Some v => Some v | None => cget b k end.
Proof. induction a as [|[x y] a IH]; intros b k; [reflexivity|]. cbn [app cget]. destruct (str_eqb x k); auto. Qed.
Lemma cget_none : forall m k, cget m k = None <-> ~ In k (map fst m).
Proof. induction m as [|[x y] m IH]; intros k; cbn [cget map fst In]; [tauto|]. destruct (str_eqb_spec x k) as [->|]; [split; [discriminate|tauto]|]. rewrite IH. split; intros H; tauto. Qed.

Record inv (filter : option (list str)) (pre : list str) (m : cmap) : Prop := {
  inv_get : forall k, cget m k = if wanted filter k && hasPrefix CONFIG k then findFirst pre k else None;
  inv_keys : NoDup (map fst m) }.
Lemma not_valid : forall l, hasPrefix CONFIG l = true -> (cut 61 l = None \/ exists k, cut 61 l = Some (k, [])) -> ~ valid_line l.
Proof.
  intros l Hl H V. destruct (V Hl) as (k & v & -> & Hk & Hv). rewrite cut_first in H by auto. destruct H as [H|(k' & H)]; [discriminate|congruence].
Qed.
Lemma processLine_ok : forall filter pre m l, inv filter pre m ->
  match processLine l m filter with
  | Ok m' => valid_line l /\ inv filter (pre ++ [l]) m'
  | Err e => ~ valid_line l
  end.
Proof.
  intros filter pre m l [I1 I2]. unfold processLine. destruct (hasPrefix CONFIG l) eqn:El; cbn [negb].
  2:{ split; [intros H; congruence|]. constructor; auto. intros k. rewrite I1. destruct (wanted filter k && hasPrefix CONFIG k) eqn:E; auto. rewrite findFirst_app. destruct (findFirst pre k); auto. cbn [findFirst].
      destruct (cut 61 l) as [[k' v]|] eqn:Ec; auto. destruct (str_eqb_spec k' k) as [->|]; auto. apply cut_inv in Ec. destruct Ec as [-> Hk]. rewrite prefix_key in El by auto. rewrite El, andb_false_r in E. discriminate. }
  destruct (cut 61 l) as [[k v]|] eqn:Ec; [|apply not_valid; auto].
  destruct v as [|c v0]; [apply not_valid; eauto|]. set (v := c :: v0) in *. pose proof (cut_inv _ _ _ _ Ec) as [-> Hk]. rewrite prefix_key in El by auto.
  assert (V : valid_line (k ++ 61 :: v)) by (intros _; exists k, v; repeat split; auto; discriminate).
  assert (F : forall k', findFirst (pre ++ [k ++ 61 :: v]) k' = match findFirst pre k' with Some x => Some x | None => if str_eqb k k' then Some v else None end).
  { intros k'. rewrite findFirst_app. destruct (findFirst pre k'); auto. cbn [findFirst]. now rewrite cut_first. }
  destruct (match filter with None => false | Some f => negb (mem f k) end) eqn:Ef.
  { split; auto. constructor; auto. intros k'. rewrite I1, F. destruct (wanted filter k' && hasPrefix CONFIG k') eqn:E; auto. destruct (findFirst pre k'); auto. destruct (str_eqb_spec k k') as [<-|]; auto.
    unfold wanted in E. destruct filter as [f|]; [|discriminate]. destruct (mem f k); discriminate. }
  assert (W : wanted filter k = true) by (unfold wanted; destruct filter; auto; now destruct (mem l k)).
  pose proof (I1 k) as Ik. rewrite W, El in Ik. cbn [andb] in Ik. destruct (cget m k) as [old|] eqn:Eg.
  - split; auto. constructor; auto. intros k'. rewrite I1, F. destruct (wanted filter k' && hasPrefix CONFIG k'); auto. destruct (findFirst pre k') eqn:Ek; auto. destruct (str_eqb_spec k k') as [<-|]; auto. congruence.
  - split; auto. constructor.
    + intros k'. rewrite cget_app, I1, F. cbn [cget]. destruct (str_eqb_spec k k') as [<-|Hne].
      * rewrite W, El. cbn [andb]. now rewrite <- Ik.
      * destruct (wanted filter k' && hasPrefix CONFIG k'); [now destruct (findFirst pre k')|reflexivity].
    + rewrite map_app. cbn [map fst]. apply cget_none in Eg. apply NoDup_Add with (1 := Add_app k (map fst m) []). rewrite app_nil_r. auto.
Qed.
Lemma inv_incl : forall f pre m, inv (Some f) pre m -> incl (map fst m) f.
Proof.
  intros f pre m [I1 _] k Hk. specialize (I1 k). cbn [wanted] in I1. destruct (mem f k) eqn:E; [now apply mem_spec|]. cbn [andb] in I1. apply cget_none in I1. contradiction.
Qed.
(** the filter is exhausted *)
Lemma inv_full : forall f pre m, NoDup f -> inv (Some f) pre m -> (length m = length f <-> forall k, In k f -> cget m k <> None).
Proof.
  intros f pre m Hf I. pose proof (inv_incl _ _ _ I) as Hi. split.
  - intros Hl k Hk Hn. apply cget_none in Hn. apply Hn. apply (NoDup_length_incl (inv_keys _ _ _ I)) in Hi; auto. rewrite map_length. lia.
  - intros H. apply Nat.le_antisymm. + rewrite <- (map_length fst). apply NoDup_incl_length; auto. apply I. + rewrite <- (map_length fst m). apply NoDup_incl_length; auto. intros k Hk. specialize (H k Hk). rewrite cget_none in H. destruct (in_dec (list_eq_dec Z.eq_dec) k (map fst m)); tauto.
Qed.
(** all the options of the filter are found *)
Definition complete (filter : option (list str)) (ls : list str) : Prop := match filter with None => False | Some f => forall k, In k f -> exists v, first_value ls k v end.

Lemma first_value_app : forall a b k v, first_value a k v -> first_value (a ++ b) k v.
Proof. intros a b k v (H1 & H2 & pre & post & -> & H3). split; auto. split; auto. exists pre, (post ++ b). split; auto. now rewrite <- app_assoc. Qed.
Lemma inv_first : forall filter pre m, Forall valid_line pre -> inv filter pre m -> forall k v, cget m k = Some v <-> wanted filter k = true /\ first_value pre k v.
Proof.
  intros filter pre m V I k v. rewrite first_value_find by auto. rewrite (inv_get _ _ _ I). split.
  - destruct (wanted filter k) eqn:W; [|discriminate]. destruct (hasPrefix CONFIG k) eqn:P; [|discriminate]. cbn [andb]. intros H. split; auto. split; auto. split; auto.
    clear - H. induction pre as [|l pre IH]; [discriminate|]. cbn [findFirst] in H. destruct (cut 61 l) as [[k' v']|] eqn:E; auto. destruct (str_eqb_spec k' k) as [<-|]; auto. now apply cut_inv in E.
  - intros (W & [P _] & H). now rewrite W, P.
Qed.
Lemma inv_complete : forall f pre m, NoDup f -> Forall valid_line pre -> inv (Some f) pre m -> length m = length f <-> complete (Some f) pre.
Proof.
  intros f pre m Hf V I. rewrite (inv_full f pre m Hf I). cbn [complete]. split; intros H k Hk; specialize (H k Hk).
  - destruct (cget m k) as [v|] eqn:E; [|contradiction]. exists v. now apply (inv_first _ _ _ V I) in E.
  - destruct H as (v & H). intros E. assert (E' : cget m k = Some v) by (apply (inv_first _ _ _ V I); split; auto; now apply mem_spec). congruence.
Qed.
(** [stop]: a non-empty beginning of the file has all the options *)
Definition stops (filter : option (list str)) (done ls : list str) : Prop := exists pre post, ls = pre ++ post /\ pre <> [] /\ Forall valid_line pre /\ complete filter (done ++ pre).
Lemma parseLines_spec : forall filter ls done m, match filter with Some f => NoDup f | None => True end -> Forall valid_line done -> inv filter done m ->
  match parseLines ls m filter with
  | Ok (m', true) => stops filter done ls /\ (forall k v, cget m' k = Some v <-> wanted filter k = true /\ first_value (done ++ ls) k v)
  | Ok (m', false) => Forall valid_line ls /\ ~ stops filter done ls /\ (forall k v, cget m' k = Some v <-> wanted filter k = true /\ first_value (done ++ ls) k v)
  | Err e => ~ Forall valid_line ls /\ ~ stops filter done ls
  end.
Proof.
  intros filter ls. induction ls as [|l ls IH]; intros done m Hf V I; cbn [parseLines].
  { split; auto. split; [|rewrite app_nil_r; now apply inv_first]. intros (pre & post & E & Hne & _). destruct pre; [now apply Hne|discriminate]. }
  pose proof (processLine_ok filter done m l I) as P. destruct (processLine l m filter) as [m1|e].
  2:{ split; [intros H; inversion H; contradiction|]. intros (pre & post & E & Hne & Hv & _). destruct pre as [|x pre]; [now apply Hne|]. injection E as -> ->. inversion Hv; contradiction. }
  destruct P as [Vl I1]. assert (V1 : Forall valid_line (done ++ [l])) by (apply Forall_app; auto).
  assert (S1 : stops filter done (l :: ls) <-> complete filter (done ++ [l]) \/ stops filter (done ++ [l]) ls).
  { split.
    - intros (pre & post & E & Hne & Hv & Hc). destruct pre as [|x pre]; [now elim Hne|]. injection E as -> ->. inversion Hv; subst. destruct pre as [|y pre]; [auto|]. right. exists (y :: pre), post. repeat split; auto; [discriminate|]. now rewrite <- app_assoc.
    - intros [H|(pre & post & -> & Hne & Hv & Hc)]; [exists [l], ls; repeat split; auto; discriminate|]. exists (l :: pre), post. repeat split; auto; [discriminate|]. now rewrite <- app_assoc in Hc. }
  destruct (match filter with None => false | Some f => Nat.eqb (length m1) (length f) end) eqn:Estop.
  - destruct filter as [f|]; [|discriminate]. apply Nat.eqb_eq in Estop. assert (C : complete (Some f) (done ++ [l])) by (apply (inv_complete f _ m1); auto). split; [apply S1; auto|].
    intros k v. change (l :: ls) with ([l] ++ ls). rewrite app_assoc. rewrite (inv_first _ _ _ V1 I1). split; [intros [H1 H2]; split; auto; now apply first_value_app|].
    intros [H1 H2]. split; auto. cbn [wanted] in H1. apply mem_spec in H1. destruct (C k H1) as (v' & Hv'). replace v with v'; auto.
    destruct Hv' as ((_ & Hk) & _ & a & b & E1 & A1). destruct H2 as (_ & _ & a' & b' & E2 & A2). rewrite E1 in E2.
    assert (F : forall x w, findFirst (x ++ (k ++ 61 :: w) :: b ++ ls) k = match findFirst x k with Some z => Some z | None => Some w end) by (intros x w; rewrite findFirst_app; cbn [findFirst]; now rewrite cut_first, str_eqb_refl).
    assert (F2 : findFirst (a' ++ (k ++ 61 :: v) :: b') k = Some v) by (rewrite findFirst_app, (proj2 (findFirst_none a' k Hk) A2); cbn [findFirst]; now rewrite cut_first, str_eqb_refl).
    rewrite <- E2, <- app_assoc in F2. cbn [app] in F2. rewrite F, (proj2 (findFirst_none a k Hk) A1) in F2. congruence.
  - assert (NC : ~ complete filter (done ++ [l])). { destruct filter as [f|]; [|auto]. rewrite <- (inv_complete f _ m1); auto. apply Nat.eqb_neq in Estop. exact Estop. }
    specialize (IH (done ++ [l]) m1 Hf V1 I1). rewrite <- app_assoc in IH. cbn [app] in IH. destruct (parseLines ls m1 filter) as [[m2 []]|e].
    + split; [apply S1; right|]; apply IH.
    + destruct IH as (A & B & C). split; [constructor; auto|]. split; auto. rewrite S1. tauto.
    + destruct IH as (A & B). split; [intros H; inversion H; auto|]. rewrite S1. tauto.
Qed.

Theorem Parse_spec : forall ls rerr filter, Forall line_ok ls -> match filter with Some f => NoDup f | None => True end ->
  match Parse (unlines ls) rerr filter with
  | Ok m => (Forall valid_line ls /\ rerr = false \/ stops filter [] ls) /\ (forall k v, cget m k = Some v <-> wanted filter k = true /\ first_value ls k v)
  | Err _ => ~ (Forall valid_line ls /\ rerr = false) /\ ~ stops filter [] ls
  end.
Proof.
  intros ls rerr filter H Hf. unfold Parse. rewrite scan_unlines by auto. assert (I : inv filter [] []) by (constructor; [intros k; cbn; now destruct (_ && _)|constructor]).
  pose proof (parseLines_spec filter ls [] [] Hf (Forall_nil _) I) as P. cbn [app] in P. destruct (parseLines ls [] filter) as [[m []]|e].
  - split; [right|]; apply P.
  - destruct P as (A & B & C). cbn [orb]. destruct rerr; [split; auto; intros [_ ?]; discriminate|]. split; auto.
  - destruct P as (A & B). tauto.
Qed.
