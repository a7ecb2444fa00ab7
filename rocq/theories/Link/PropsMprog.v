(** C100: attaching relative to others *)
From Coq Require Import List Bool Arith NArith ZArith Lia Permutation.
From Verif Require Import Link.Mprog Link.MprogSpec.
Import ListNotations.

(** ** Bits *)
Lemma clean u : N.land u anchorFlags = 0%N -> N.testbit u bREPLACE = false /\ N.testbit u bBEFORE = false /\ N.testbit u bAFTER = false /\ N.testbit u bID = false /\ N.testbit u bLINK = false.
Proof.
  intros H. assert (G : forall b, N.testbit anchorFlags b = true -> N.testbit u b = false).
  { intros b B. assert (X : N.testbit (N.land u anchorFlags) b = false) by (rewrite H; apply N.bits_0). rewrite N.land_spec, B, andb_true_r in X. exact X. }
  repeat split; apply G; reflexivity.
Qed.
Lemma zero_clean : N.land 0 anchorFlags = 0%N. Proof. reflexivity. Qed.
(** ** Lists *)
Lemma index_some {A} (f : A -> bool) l i : index f l = Some i -> exists l1 x l2, l = l1 ++ x :: l2 /\ length l1 = i /\ f x = true.
Proof.
  revert i. induction l as [|y l IH]; cbn; intros i H; [discriminate|]. destruct (f y) eqn:F.
  - injection H as <-. exists [], y, l. auto.
  - destruct (index f l) as [j|]; [|discriminate]. injection H as <-. destruct (IH j eq_refl) as (l1 & x & l2 & -> & <- & X). exists (y :: l1), x, l2. auto.
Qed.
Lemma index_none {A} (f : A -> bool) l : index f l = None -> forall x, In x l -> f x = false.
Proof. induction l as [|y l IH]; cbn; intros H x I; [easy|]. destruct (f y) eqn:F; [discriminate|]. destruct (index f l); [discriminate|]. destruct I as [<-|I]; auto. Qed.
Lemma firstn_mid {A} (l1 l2 : list A) : firstn (length l1) (l1 ++ l2) = l1.
Proof. rewrite firstn_app, Nat.sub_diag, firstn_all. cbn. apply app_nil_r. Qed.
Lemma skipn_mid {A} (l1 l2 : list A) : skipn (length l1) (l1 ++ l2) = l2.
Proof. rewrite skipn_app, Nat.sub_diag, skipn_all. reflexivity. Qed.
Lemma insertAt_mid n l1 l2 : insertAt (length l1) n (l1 ++ l2) = l1 ++ n :: l2.
Proof. unfold insertAt. now rewrite firstn_mid, skipn_mid. Qed.
Lemma skipn_mid_S {A} (l1 : list A) x l2 : skipn (S (length l1)) (l1 ++ x :: l2) = l2.
Proof. change (l1 ++ x :: l2) with (l1 ++ [x] ++ l2). rewrite app_assoc. replace (S (length l1)) with (length (l1 ++ [x])) by (rewrite app_length; cbn; lia). apply skipn_mid. Qed.
Lemma replaceAt_mid n l1 x l2 : replaceAt (length l1) n (l1 ++ x :: l2) = l1 ++ n :: l2.
Proof. unfold replaceAt. now rewrite firstn_mid, skipn_mid_S. Qed.
Lemma deleteAt_mid l1 x l2 : deleteAt (length l1) (l1 ++ x :: l2) = l1 ++ l2.
Proof. unfold deleteAt. now rewrite firstn_mid, skipn_mid_S. Qed.
Lemma mem_in n l : mem n l = true <-> In n l.
Proof. unfold mem. rewrite existsb_exists. split; [intros (x & A & B); apply Nat.eqb_eq in B; now subst|intros A; exists n; split; auto; apply Nat.eqb_refl]. Qed.
Lemma optEqb_eq a b : optEqb a b = true <-> a = b.
Proof. destruct a, b; cbn; try easy. rewrite Nat.eqb_eq. split; [now intros ->|now injection 1]. Qed.
Lemma assoc_in {A} n (l : list (nat * A)) a : assoc n l = Some a -> In (n, a) l.
Proof. unfold assoc. destruct (find _ l) as [[k b]|] eqn:F; cbn; [|discriminate]. injection 1 as <-. apply find_some in F. cbn in F. destruct F as (F & E). apply Nat.eqb_eq in E. now subst. Qed.
Lemma in_assoc {A} n (l : list (nat * A)) a : NoDup (map fst l) -> In (n, a) l -> assoc n l = Some a.
Proof.
  unfold assoc. induction l as [|[k b] l IH]; cbn; intros N I; [easy|]. inversion N; subst. destruct I as [I|I].
  - injection I as -> ->. now rewrite Nat.eqb_refl.
  - destruct (Nat.eqb_spec k n) as [-> |]; [|auto]. exfalso. apply H1. apply in_map_iff. now exists (n, a).
Qed.
Lemma once s l1 e l2 f : wf s -> ents s = l1 ++ e :: l2 -> In f (ents s) -> e_prog f = e_prog e -> f = e.
Proof.
  intros W E I P. pose proof (wf_once _ W) as N. rewrite E in N, I. rewrite map_app in N. cbn in N. apply NoDup_remove_2 in N. apply in_app_or in I. destruct I as [I|[I|I]]; auto; exfalso; apply N; rewrite <- P; apply in_or_app; [left|right]; now apply in_map.
Qed.
Lemma exists_prog s p : existsb (fun e => Nat.eqb (e_prog e) p) (ents s) = false <-> ~ In p (map e_prog (ents s)).
Proof.
  split.
  - intros H I. apply in_map_iff in I. destruct I as (e & <- & I). assert (X : existsb (fun x => Nat.eqb (e_prog x) (e_prog e)) (ents s) = true) by (apply existsb_exists; exists e; split; auto; apply Nat.eqb_refl). congruence.
  - intros H. apply not_true_is_false. rewrite existsb_exists. intros (e & I & E). apply Nat.eqb_eq in E. apply H. apply in_map_iff. now exists e.
Qed.
(** ** What an anchor refers to *)
Definition tupleOf (s : st) (t : target) : option tuple :=
  match t with
  | TProgram (Some f) => option_map (fun p => T (Some p) None) (progFd s f)
  | TProgramID p => if mem p (progs s) then Some (T (Some p) None) else None
  | TLink (Some f) => match linkFd s f with Some l => option_map (fun p => T (Some p) (Some l)) (assoc l (links s)) | None => None end
  | TLinkID l => option_map (fun p => T (Some p) (Some l)) (assoc l (links s))
  | _ => None
  end.
Lemma tuple_target s t p u v f : N.land u anchorFlags = 0%N -> fdOf (Some (At t p)) <> Some 0 -> anchorOf (At t p) = Some (v, f) -> tupleRelative s v (N.lor u f) = tupleOf s t.
Proof.
  intros U Z H. destruct (clean u U) as (U1 & U2 & U3 & U4 & U5). unfold tupleRelative. rewrite !N.lor_spec, U4, U5.
  destruct t as [[g|]|g|[g|]|g|]; cbn [anchorOf] in H; try discriminate; injection H as <- <-; rewrite !N.lor_spec; cbn [tupleOf].
  - assert (B : (if N.testbit (posFlag p) bID then true else false) = false) by (now destruct p). replace (N.testbit (posFlag p) bLINK) with false by (now destruct p). replace (N.testbit (posFlag p) bID) with false by (now destruct p). change (N.testbit 0 bLINK) with false. change (N.testbit 0 bID) with false. cbn [orb negb andb].
    destruct (Nat.eqb_spec g 0) as [-> |]; [now cbn in Z|]. now destruct (progFd s g).
  - replace (N.testbit (posFlag p) bLINK) with false by (now destruct p). change (N.testbit (bit bID) bLINK) with false. change (N.testbit (bit bID) bID) with true. rewrite orb_true_r. cbn [orb negb andb]. now destruct (mem g (progs s)).
  - change (N.testbit (bit bLINK) bLINK) with true. rewrite orb_true_r. replace (N.testbit (posFlag p) bID) with false by (now destruct p). change (N.testbit (bit bLINK) bID) with false. cbn [orb]. now destruct (linkFd s g) as [l|].
  - change (N.testbit (bit bLINK) bLINK) with true. change (N.testbit (bit bID) bID) with true. cbn [orb]. rewrite !orb_true_r. reflexivity.
Qed.
Lemma tuple_none s u : N.land u anchorFlags = 0%N -> tupleRelative s 0 u = Some (T None None).
Proof. intros U. destruct (clean u U) as (U1 & U2 & U3 & U4 & U5). unfold tupleRelative. now rewrite U4, U5. Qed.
Lemma tuple_end s u f : N.land u anchorFlags = 0%N -> f = bit bBEFORE \/ f = bit bAFTER \/ f = bit bREPLACE -> tupleRelative s 0 (N.lor u f) = Some (T None None).
Proof. intros U F. destruct (clean u U) as (U1 & U2 & U3 & U4 & U5). unfold tupleRelative. rewrite !N.lor_spec, U4, U5. destruct F as [-> |[-> | ->]]; reflexivity. Qed.
(** The tuple of a target matches the entries the target is. *)
Lemma tuple_is s t tu : tupleOf s t = Some tu -> isSome (t_prog tu) = true /\ forall e, matches tu e = true -> is s t e.
Proof.
  destruct t as [[g|]|g|[g|]|g|]; cbn [tupleOf]; try discriminate; unfold matches.
  - destruct (progFd s g) as [p|] eqn:P; [|discriminate]. injection 1 as <-. split; auto. intros e M. cbn in M. apply andb_prop in M. destruct M as (M & _). apply Nat.eqb_eq in M. cbn. congruence.
  - destruct (mem g (progs s)); [|discriminate]. injection 1 as <-. split; auto. intros e M. cbn in M. apply andb_prop in M. destruct M as (M & _). apply Nat.eqb_eq in M. cbn. congruence.
  - destruct (linkFd s g) as [l|] eqn:L; [|discriminate]. destruct (assoc l (links s)); [|discriminate]. injection 1 as <-. split; auto. intros e M. apply andb_prop in M. destruct M as (_ & M). apply optEqb_eq in M. cbn in M. exists l. split; auto.
  - destruct (assoc g (links s)); [|discriminate]. injection 1 as <-. split; auto. intros e M. apply andb_prop in M. destruct M as (_ & M). apply optEqb_eq in M. cbn in M. cbn. auto.
Qed.
Lemma is_tuple s t e : wf s -> In e (ents s) -> is s t e -> exists tu, tupleOf s t = Some tu /\ matches tu e = true.
Proof.
  intros W I H. destruct t as [[g|]|g|[g|]|g|]; cbn [is] in H; try easy; cbn [tupleOf]; unfold matches.
  - rewrite H. eexists. split; [reflexivity|]. cbn. now rewrite Nat.eqb_refl.
  - subst g. pose proof (wf_attached _ W e I) as M. apply mem_in in M. rewrite M. eexists. split; [reflexivity|]. cbn. now rewrite Nat.eqb_refl.
  - destruct H as (l & -> & L). rewrite (in_assoc l _ (e_prog e) (wf_links _ W) (wf_link _ W e l I L)). eexists. split; [reflexivity|]. cbn. rewrite Nat.eqb_refl, L. cbn. apply Nat.eqb_refl.
  - rewrite (in_assoc g _ (e_prog e) (wf_links _ W) (wf_link _ W e g I H)). eexists. split; [reflexivity|]. cbn. rewrite Nat.eqb_refl, H. cbn. apply Nat.eqb_refl.
Qed.
(** ** mprogAttach, by where *)
Lemma attach_notuple s n old flags v r : tupleRelative s v flags = None -> mprogAttach s n old flags v r = None.
Proof. intros TT. unfold mprogAttach. rewrite TT. destruct (stale s r); auto. now destruct (existsb _ (ents s)). Qed.
Definition free (s : st) (p r : nat) : Prop := stale s r = false /\ ~ In p (map e_prog (ents s)).
Lemma attach_none s n u r l' : N.land u anchorFlags = 0%N -> wf s -> (mprogAttach s n None u 0 r = Some l' <-> free s (e_prog n) r /\ length (ents s) < 64 /\ u = 0%N /\ l' = ents s ++ [n]).
Proof.
  intros U W. pose proof (wf_max _ W) as MX. unfold mprogAttach, free. rewrite (tuple_none s u U). destruct (clean u U) as (-> & U2 & U3 & _ & _). rewrite <- exists_prog.
  destruct (stale s r); [split; [discriminate|easy]|]. destruct (existsb _ (ents s)); [split; [discriminate|easy]|]. unfold maxProgs. destruct (Nat.eqb_spec (length (ents s)) 64); [split; [discriminate|lia]|].
  unfold place. rewrite U2, U3. cbn [isSome orb t_prog]. destruct (N.eqb_spec u 0); cbn [negb]; [|split; [discriminate|easy]]. unfold insert. rewrite Z.eqb_refl. split; [injection 1 as <-; repeat split; auto; lia|intros (_ & _ & _ & ->); auto].
Qed.
Lemma attach_before s n u f tu v r l' : N.land u anchorFlags = 0%N -> wf s -> N.testbit f bREPLACE = false -> N.testbit f bBEFORE = true -> N.testbit f bAFTER = false -> tupleRelative s v (N.lor u f) = Some tu ->
  mprogAttach s n None (N.lor u f) v r = Some l' -> free s (e_prog n) r /\ length (ents s) < 64 /\
  (t_prog tu = None /\ l' = n :: ents s \/ exists l1 e l2, ents s = l1 ++ e :: l2 /\ matches tu e = true /\ l' = l1 ++ n :: e :: l2).
Proof.
  intros U W F1 F2 F3 TU. pose proof (wf_max _ W) as MX. unfold mprogAttach, free. rewrite TU. destruct (clean u U) as (U1 & U2 & U3 & _ & _). unfold place. rewrite !N.lor_spec, U1, U2, U3, F1, F2, F3. cbn [orb]. rewrite <- exists_prog.
  destruct (stale s r); [discriminate|]. destruct (existsb _ (ents s)); [discriminate|]. unfold maxProgs. destruct (Nat.eqb_spec (length (ents s)) 64); [discriminate|].
  intros H. split; auto. split; [lia|]. unfold posBefore in H. destruct (index (matches tu) (ents s)) as [i|] eqn:IX.
  - destruct (index_some _ _ _ IX) as (l1 & e & l2 & E & L & M). right. exists l1, e, l2. split; auto. split; auto. cbn [meet] in H. assert (LE : length (ents s) = length l1 + S (length l2)) by (rewrite E, app_length; reflexivity).
    destruct (Z.leb_spec (Z.of_nat 64) (Z.of_nat i - 1)) as [X|X]; [lia|]. injection H as <-. unfold insert. destruct (Z.eqb_spec (Z.of_nat i - 1) (Z.of_nat (length (ents s)))) as [Y|Y]; [lia|]. replace (Z.to_nat (Z.of_nat i - 1 + 1)) with (length l1) by lia. rewrite E. apply insertAt_mid.
  - destruct (t_prog tu); cbn [isSome] in H; [discriminate|]. cbn [meet] in H. left. split; auto. destruct (Z.leb_spec (Z.of_nat 64) (-1)) as [X|X]; [lia|]. injection H as <-. unfold insert. destruct (Z.eqb_spec (-1) (Z.of_nat (length (ents s)))) as [Y|Y]; [lia|]. reflexivity.
Qed.
Lemma attach_after s n u f tu v r l' : N.land u anchorFlags = 0%N -> wf s -> N.testbit f bREPLACE = false -> N.testbit f bBEFORE = false -> N.testbit f bAFTER = true -> tupleRelative s v (N.lor u f) = Some tu ->
  mprogAttach s n None (N.lor u f) v r = Some l' -> free s (e_prog n) r /\ length (ents s) < 64 /\
  (t_prog tu = None /\ l' = ents s ++ [n] \/ exists l1 e l2, ents s = l1 ++ e :: l2 /\ matches tu e = true /\ l' = l1 ++ e :: n :: l2).
Proof.
  intros U W F1 F2 F3 TU. pose proof (wf_max _ W) as MX. unfold mprogAttach, free. rewrite TU. destruct (clean u U) as (U1 & U2 & U3 & _ & _). unfold place. rewrite !N.lor_spec, U1, U2, U3, F1, F2, F3. cbn [orb]. rewrite <- exists_prog.
  destruct (stale s r); [discriminate|]. destruct (existsb _ (ents s)); [discriminate|]. unfold maxProgs. destruct (Nat.eqb_spec (length (ents s)) 64); [discriminate|].
  intros H. split; auto. split; [lia|]. unfold posAfter in H. destruct (index (matches tu) (ents s)) as [i|] eqn:IX.
  - destruct (index_some _ _ _ IX) as (l1 & e & l2 & E & L & M). right. exists l1, e, l2. split; auto. split; auto. cbn [meet] in H. assert (LE : length (ents s) = length l1 + S (length l2)) by (rewrite E, app_length; reflexivity).
    destruct (Z.leb_spec (Z.of_nat 64) (Z.of_nat i + 1)) as [X|X]; [lia|]. injection H as <-. unfold insert. destruct (Z.eqb_spec (Z.of_nat i + 1) (Z.of_nat (length (ents s)))) as [Y|Y].
    + destruct l2; [|cbn in LE; lia]. rewrite E, <- app_assoc. reflexivity.
    + replace (Z.to_nat (Z.of_nat i + 1)) with (length (l1 ++ [e])) by (rewrite app_length; cbn; lia). rewrite E. change (l1 ++ e :: l2) with (l1 ++ [e] ++ l2). rewrite app_assoc, insertAt_mid, <- app_assoc. reflexivity.
  - destruct (t_prog tu); cbn [isSome] in H; [discriminate|]. cbn [meet] in H. left. split; auto. destruct (Z.leb_spec (Z.of_nat 64) (Z.of_nat (length (ents s)))) as [X|X]; [lia|]. injection H as <-. unfold insert. now rewrite Z.eqb_refl.
Qed.
Lemma posExact_some p lk l i : posExact p lk l = Some i -> exists l1 e l2, l = l1 ++ e :: l2 /\ length l1 = i /\ e_prog e = p /\ e_link e = lk.
Proof.
  unfold posExact. destruct (index _ l) as [j|] eqn:IX; [|discriminate]. destruct (index_some _ _ _ IX) as (l1 & e & l2 & -> & <- & M). rewrite nth_error_app2, Nat.sub_diag by lia. cbn [nth_error].
  destruct (optEqb lk (e_link e)) eqn:O; [|discriminate]. injection 1 as <-. apply optEqb_eq in O. apply Nat.eqb_eq in M. exists l1, e, l2. auto.
Qed.
Lemma mid_len e l1 : forall k1 l2 k2, NoDup (map e_prog (l1 ++ e :: l2)) -> l1 ++ e :: l2 = k1 ++ e :: k2 -> length k1 = length l1.
Proof.
  induction l1 as [|x l1 IH]; intros [|y k1] l2 k2 N K; cbn in *; auto; inversion N; subst.
  - injection K as <- ->. exfalso. apply H1. apply in_map. apply in_elt.
  - injection K as -> <-. exfalso. apply H1. apply in_map. apply in_elt.
  - injection K as -> K. f_equal. eapply IH; eauto.
Qed.
Lemma posExact_ok s p lk l1 e l2 : wf s -> ents s = l1 ++ e :: l2 -> e_prog e = p -> e_link e = lk -> posExact p lk (ents s) = Some (length l1).
Proof.
  intros W E P L. unfold posExact. destruct (index _ (ents s)) as [j|] eqn:IX.
  - destruct (index_some _ _ _ IX) as (k1 & f & k2 & K & <- & M). rewrite K, nth_error_app2, Nat.sub_diag by lia. cbn [nth_error]. apply Nat.eqb_eq in M.
    assert (f = e). { eapply once; eauto. rewrite K. apply in_elt. congruence. } subst f. subst lk. assert (O : optEqb (e_link e) (e_link e) = true) by now apply optEqb_eq. rewrite O. f_equal.
    pose proof (wf_once _ W) as N. rewrite E in K, N. eapply mid_len; eauto.
  - pose proof (index_none _ _ IX e) as X. cbn in X. rewrite P, Nat.eqb_refl in X. discriminate X. rewrite E. apply in_elt.
Qed.
Lemma attach_replace s n u f tu v r old l' : N.land u anchorFlags = 0%N -> wf s -> N.testbit f bREPLACE = true -> N.testbit f bBEFORE = false -> N.testbit f bAFTER = false -> tupleRelative s v (N.lor u f) = Some tu ->
  mprogAttach s n old (N.lor u f) v r = Some l' -> free s (e_prog n) r /\
  exists o l1 e l2, old = Some o /\ ents s = l1 ++ e :: l2 /\ e_prog e = o /\ e_link e = e_link n /\ l' = l1 ++ n :: l2.
Proof.
  intros U W F1 F2 F3 TU. pose proof (wf_max _ W) as MX. unfold mprogAttach, free. rewrite TU. destruct (clean u U) as (U1 & U2 & U3 & _ & _). unfold place. rewrite !N.lor_spec, U1, U2, U3, F1, F2, F3. cbn [orb]. rewrite <- exists_prog.
  destruct (stale s r); [discriminate|]. destruct (existsb _ (ents s)); [discriminate|]. intros H. split; auto. destruct old as [o|]; [|discriminate]. destruct (posExact o (e_link n) (ents s)) as [i|] eqn:PE; [|discriminate]. cbn [option_map] in H.
  destruct (posExact_some _ _ _ _ PE) as (l1 & e & l2 & E & L & P & LK). exists o, l1, e, l2. repeat split; auto.
  destruct (Z.leb_spec (Z.of_nat maxProgs) (Z.of_nat i)) as [X|X]; [discriminate|]. injection H as <-. rewrite Nat2Z.id, <- L, E. apply replaceAt_mid.
Qed.
(** ** Descriptors that are kept *)
Lemma sameFd_prog s s' f : sameFd s s' (Some f) -> progFd s f = progFd s' f.
Proof. intros H. unfold progFd. cbn in H. now rewrite H. Qed.
Lemma sameFd_link s s' f : sameFd s s' (Some f) -> linkFd s f = linkFd s' f.
Proof. intros H. unfold linkFd. cbn in H. now rewrite H. Qed.
Lemma is_kept s s' t p e : sameFd s s' (fdOf (Some (At t p))) -> is s' t e -> is s t e.
Proof. destruct t as [[g|]|g|[g|]|g|]; cbn [fdOf is]; auto; intros K; [rewrite (sameFd_prog s s' g K)|rewrite (sameFd_link s s' g K)]; auto. Qed.
Lemma stale_expected o s : stale s (o_rev o) = false -> expected o s.
Proof. unfold stale, expected. destruct (Nat.eqb_spec (o_rev o) 0); auto. destruct (Nat.eqb_spec (o_rev o) (rev s)); auto. discriminate. Qed.
Lemma expected_stale o s : expected o s -> stale s (o_rev o) = false.
Proof. unfold stale, expected. intros [-> | ->]; [reflexivity|]. rewrite Nat.eqb_refl. apply andb_false_r. Qed.
Lemma at_pos t p v f : anchorOf (At t p) = Some (v, f) -> N.testbit f bREPLACE = match p with Replace => true | _ => false end /\ N.testbit f bBEFORE = match p with Before => true | _ => false end /\ N.testbit f bAFTER = match p with After => true | _ => false end.
Proof. destruct t as [[g|]|g|[g|]|g|]; cbn [anchorOf]; try discriminate; injection 1 as <- <-; destruct p; repeat split; reflexivity. Qed.
Lemma rev_commit s l : l <> [] -> rev (commit s l) = S (rev s).
Proof. destruct l; [easy|reflexivity]. Qed.
Lemma placed_len s n a l l' : placed s n a l l' -> l' <> [].
Proof. destruct 1; try discriminate; apply app_cons_not_nil || (intros X; symmetry in X; revert X; apply app_cons_not_nil). Qed.
(** ** Attaching *)
Theorem C100_link : forall sys o s0 s s' l, wf s -> valid o -> kept o s0 s -> attachLink sys o s = Some (s', l) ->
  exists f p, o_prog o = Some f /\ progFd s0 f = Some p /\ ~ In p (map e_prog (ents s)) /\ expected o s /\
    placed s0 (Ent p (Some l)) (o_anchor o) (ents s) (ents s') /\ rev s' = S (rev s) /\
    ~ In l (map fst (links s)) /\ links s' = (l, p) :: links s /\ ~ In l (map fst (fdt s)) /\ fdt s' = (l, OLink l) :: fdt s.
Proof.
  intros sys o s0 s s' l W (P & _) (K1 & K2) H. unfold attachLink in H. destruct (tcxAttr o) as [a|] eqn:TA; [|discriminate]. destruct sys; [|discriminate].
  destruct (match a_prog a with Some f => progFd s f | None => None end) as [p|] eqn:PF; [|discriminate]. cbv zeta in H. destruct (mprogAttach s (Ent p (Some (next s))) None (a_flags a) (a_rel a) (a_rev a)) as [es|] eqn:MA; [|discriminate]. injection H as <- <-.
  unfold tcxAttr in TA. destruct (N.eqb_spec (N.land (o_flags o) anchorFlags) 0) as [U|]; [|discriminate]. cbn [negb] in TA.
  assert (AP : a_prog a = o_prog o /\ a_rev a = o_rev o). { destruct (o_anchor o) as [an|]; [destruct (anchorOf an) as [(v, f)|]; [|discriminate]|]; injection TA as <-; auto. }
  destruct AP as (AP & AR). rewrite AP in PF. destruct (o_prog o) as [f|] eqn:OP; [|discriminate]. exists f, p. split; auto. rewrite (sameFd_prog _ _ _ K1). split; auto.
  assert (G : free s p (o_rev o) /\ placed s0 (Ent p (Some (next s))) (o_anchor o) (ents s) es).
  { rewrite AR in MA. destruct (o_anchor o) as [an|].
    - destruct (anchorOf an) as [(v, fl)|] eqn:AO; [|discriminate]. injection TA as <-. cbn [a_flags a_rel] in MA. destruct an as [ | |t po].
      + cbn [anchorOf] in AO. injection AO as <- <-. destruct (attach_before _ _ _ (bit bBEFORE) _ _ _ _ U W eq_refl eq_refl eq_refl (tuple_end s _ (bit bBEFORE) U (or_introl eq_refl)) MA) as (A & B & [(_ & ->)|(l1 & e & l2 & E & M & ->)]); [split; [exact A|constructor]|discriminate M].
      + cbn [anchorOf] in AO. injection AO as <- <-. destruct (attach_after _ _ _ (bit bAFTER) _ _ _ _ U W eq_refl eq_refl eq_refl (tuple_end s _ (bit bAFTER) U (or_intror (or_introl eq_refl))) MA) as (A & B & [(_ & ->)|(l1 & e & l2 & E & M & ->)]); [split; [exact A|constructor]|discriminate M].
      + destruct (at_pos _ _ _ _ AO) as (F1 & F2 & F3). pose proof (tuple_target s t po _ _ _ U P AO) as TT. destruct (tupleOf s t) as [tu|] eqn:TO; [|rewrite (attach_notuple _ _ _ _ _ _ TT) in MA; discriminate].
        destruct (tuple_is _ _ _ TO) as (T1 & T2). destruct po.
        * destruct (attach_before _ _ _ _ _ _ _ _ U W F1 F2 F3 TT MA) as (A & B & [(C & _)|(l1 & e & l2 & E & M & ->)]); [rewrite C in T1; discriminate|]. split; [exact A|]. rewrite E. constructor. eapply is_kept; eauto.
        * destruct (attach_after _ _ _ _ _ _ _ _ U W F1 F2 F3 TT MA) as (A & B & [(C & _)|(l1 & e & l2 & E & M & ->)]); [rewrite C in T1; discriminate|]. split; [exact A|]. rewrite E. constructor. eapply is_kept; eauto.
        * destruct (attach_replace _ _ _ _ _ _ _ _ _ U W F1 F2 F3 TT MA) as (A & q & l1 & e & l2 & E & _). discriminate E.
    - injection TA as <-. cbn [a_flags a_rel] in MA. apply attach_none in MA; auto. destruct MA as (A & _ & _ & ->). split; [exact A|constructor]. }
  destruct G as ((G1 & G2) & G3). split; auto. split; [now apply stale_expected|]. cbn [commit ents rev links fdt]. split; auto. split.
  - pose proof (placed_len _ _ _ _ _ G3) as X. now apply (rev_commit s es) in X.
  - repeat split; auto.
    + intros I. apply in_map_iff in I. destruct I as ((k & q) & E & I). cbn in E. subst k. apply (wf_new _ W) in I. lia.
    + intros I. apply in_map_iff in I. destruct I as ((k & q) & E & I). cbn in E. subst k. apply (wf_fds _ W) in I. lia.
Qed.

Theorem C100_raw : forall sys o s0 s s', wf s -> valid o -> kept o s0 s -> rawAttach sys o s = Some s' ->
  exists f p, o_prog o = Some f /\ progFd s0 f = Some p /\ ~ In p (map e_prog (ents s)) /\ expected o s /\
    placed s0 (Ent p None) (o_anchor o) (ents s) (ents s') /\ rev s' = S (rev s) /\ links s' = links s /\ fdt s' = fdt s.
Proof.
  intros sys o s0 s s' W (P & PR) (K1 & K2) H. unfold rawAttach in H. destruct (rawAttr o) as [a|] eqn:TA; [|discriminate]. destruct (sys && _) eqn:MASK; [|discriminate]. clear MASK.
  destruct (match a_prog a with Some f => progFd s f | None => None end) as [p|] eqn:PF; [|discriminate]. destruct (if N.testbit (a_flags a) bREPLACE then _ else _) as [old|] eqn:OLD; [|discriminate].
  destruct (mprogAttach s (Ent p None) old (a_flags a) (a_rel a) (a_rev a)) as [es|] eqn:MA; [|discriminate]. injection H as <-.
  unfold rawAttr in TA. destruct (N.eqb_spec (N.land (o_flags o) anchorFlags) 0) as [U|]; [|discriminate]. cbn [negb] in TA. destruct (clean _ U) as (UR & _).
  assert (AP : a_prog a = o_prog o /\ a_rev a = o_rev o). { destruct (o_anchor o) as [an|]; [destruct (anchorOf an) as [(v, f)|]; [|discriminate]; destruct (negb _)|]; injection TA as <-; auto. }
  destruct AP as (AP & AR). rewrite AP in PF. destruct (o_prog o) as [f|] eqn:OP; [|discriminate]. exists f, p. split; auto. rewrite (sameFd_prog _ _ _ K1). split; auto.
  assert (G : free s p (o_rev o) /\ placed s0 (Ent p None) (o_anchor o) (ents s) es).
  { rewrite AR in MA. destruct (o_anchor o) as [an|].
    - destruct (anchorOf an) as [(v, fl)|] eqn:AO; [|discriminate]. destruct an as [ | |t po].
      + cbn [anchorOf] in AO. injection AO as <- <-. change (negb (N.land (bit bBEFORE) (bit bREPLACE) =? 0)%N) with false in TA. cbv iota in TA. injection TA as <-. cbn [a_flags a_rel] in MA, OLD. rewrite N.lor_spec, UR in OLD. change (N.testbit (bit bBEFORE) bREPLACE) with false in OLD. injection OLD as <-.
        destruct (attach_before _ _ _ (bit bBEFORE) _ _ _ _ U W eq_refl eq_refl eq_refl (tuple_end s _ (bit bBEFORE) U (or_introl eq_refl)) MA) as (A & B & [(_ & ->)|(l1 & e & l2 & E & M & ->)]); [split; [exact A|constructor]|discriminate M].
      + cbn [anchorOf] in AO. injection AO as <- <-. change (negb (N.land (bit bAFTER) (bit bREPLACE) =? 0)%N) with false in TA. cbv iota in TA. injection TA as <-. cbn [a_flags a_rel] in MA, OLD. rewrite N.lor_spec, UR in OLD. change (N.testbit (bit bAFTER) bREPLACE) with false in OLD. injection OLD as <-.
        destruct (attach_after _ _ _ (bit bAFTER) _ _ _ _ U W eq_refl eq_refl eq_refl (tuple_end s _ (bit bAFTER) U (or_intror (or_introl eq_refl))) MA) as (A & B & [(_ & ->)|(l1 & e & l2 & E & M & ->)]); [split; [exact A|constructor]|discriminate M].
      + destruct (at_pos _ _ _ _ AO) as (F1 & F2 & F3). assert (RB : negb (N.land fl (bit bREPLACE) =? 0)%N = N.testbit fl bREPLACE). { rewrite F1. destruct t as [[g|]|g|[g|]|g|], po; cbn [anchorOf] in AO; try discriminate; injection AO as <- <-; reflexivity. }
        rewrite RB, F1 in TA. destruct po.
        * injection TA as <-. cbn [a_flags a_rel] in MA, OLD. rewrite N.lor_spec, UR, F1 in OLD. injection OLD as <-. pose proof (tuple_target s t Before _ _ _ U P AO) as TT. destruct (tupleOf s t) as [tu|] eqn:TO; [|rewrite (attach_notuple _ _ _ _ _ _ TT) in MA; discriminate]. destruct (tuple_is _ _ _ TO) as (T1 & T2).
          destruct (attach_before _ _ _ _ _ _ _ _ U W F1 F2 F3 TT MA) as (A & B & [(C & _)|(l1 & e & l2 & E & M & ->)]); [rewrite C in T1; discriminate|]. split; [exact A|]. rewrite E. constructor. eapply is_kept; eauto.
        * injection TA as <-. cbn [a_flags a_rel] in MA, OLD. rewrite N.lor_spec, UR, F1 in OLD. injection OLD as <-. pose proof (tuple_target s t After _ _ _ U P AO) as TT. destruct (tupleOf s t) as [tu|] eqn:TO; [|rewrite (attach_notuple _ _ _ _ _ _ TT) in MA; discriminate]. destruct (tuple_is _ _ _ TO) as (T1 & T2).
          destruct (attach_after _ _ _ _ _ _ _ _ U W F1 F2 F3 TT MA) as (A & B & [(C & _)|(l1 & e & l2 & E & M & ->)]); [rewrite C in T1; discriminate|]. split; [exact A|]. rewrite E. constructor. eapply is_kept; eauto.
        * injection TA as <-. cbn [a_flags a_rel a_old] in MA, OLD. rewrite N.lor_spec, UR, F1 in OLD. cbn [orb] in OLD. destruct (progFd s v) as [q|] eqn:PV; [|discriminate]. injection OLD as <-.
          destruct t as [[g|]|g|[g|]|g|]; try easy; cbn [anchorOf] in AO; injection AO as <- <-.
          -- destruct (attach_replace _ _ _ _ _ _ _ _ _ U W F1 F2 F3 (tuple_end s _ (bit bREPLACE) U (or_intror (or_intror eq_refl))) MA) as (A & q' & l1 & e & l2 & Q & E & EP & EL & ->). injection Q as <-. split; [exact A|]. rewrite E. constructor; auto. cbn [is]. rewrite (sameFd_prog _ _ _ K2), PV. now f_equal.
          -- exfalso. assert (TT : tupleRelative s 0 (N.lor (o_flags o) (N.lor (posFlag Replace) (bit bID))) = None).
             { destruct (clean _ U) as (_ & _ & _ & U4 & U5). unfold tupleRelative. rewrite !N.lor_spec, U4, U5. cbn - [mem]. destruct (mem 0 (progs s)) eqn:M; auto. apply mem_in in M. now apply (wf_pos _ W) in M. }
             rewrite (attach_notuple _ _ _ _ _ _ TT) in MA. discriminate.
    - injection TA as <-. cbn [a_flags a_rel] in MA, OLD. rewrite UR in OLD. injection OLD as <-. apply attach_none in MA; auto. destruct MA as (A & _ & _ & ->). split; [exact A|constructor]. }
  destruct G as ((G1 & G2) & G3). split; auto. split; [now apply stale_expected|]. cbn [commit ents rev links fdt]. split; auto. split; auto.
  pose proof (placed_len _ _ _ _ _ G3) as X. now apply (rev_commit s es) in X.
Qed.

(** ** It succeeds when it can *)
Lemma index_in {A} (f : A -> bool) l x : In x l -> f x = true -> exists i, index f l = Some i.
Proof. intros I F. destruct (index f l) eqn:E; eauto. rewrite (index_none _ _ E x I) in F. discriminate. Qed.
Lemma index_lt {A} (f : A -> bool) l i : index f l = Some i -> i < length l.
Proof. intros H. destruct (index_some _ _ _ H) as (l1 & x & l2 & -> & <- & _). rewrite app_length. cbn. lia. Qed.
Lemma attach_ok s n f tu v r : wf s -> free s (e_prog n) r -> length (ents s) < 64 -> N.testbit f bREPLACE = false -> N.testbit f bBEFORE = negb (N.testbit f bAFTER) -> tupleRelative s v f = Some tu ->
  (t_prog tu = None \/ exists e, In e (ents s) /\ matches tu e = true) -> mprogAttach s n None f v r <> None.
Proof.
  intros W (F1 & F2) L RP BA TU M. unfold mprogAttach. rewrite F1, TU, RP. apply exists_prog in F2. rewrite F2. unfold maxProgs. destruct (Nat.eqb_spec (length (ents s)) 64) as [|_]; [lia|]. unfold place. rewrite BA. unfold posBefore, posAfter.
  destruct (N.testbit f bAFTER); cbn [negb]; destruct (index (matches tu) (ents s)) as [i|] eqn:IX; cbn [meet].
  - apply index_lt in IX. destruct (Z.leb_spec (Z.of_nat 64) (Z.of_nat i + 1)); [lia|discriminate].
  - destruct M as [-> | (e & I & E)]; [|rewrite (index_none _ _ IX e I) in E; discriminate]. cbn [isSome meet]. destruct (Z.leb_spec (Z.of_nat 64) (Z.of_nat (length (ents s)))); [lia|discriminate].
  - apply index_lt in IX. destruct (Z.leb_spec (Z.of_nat 64) (Z.of_nat i - 1)); [lia|discriminate].
  - destruct M as [-> | (e & I & E)]; [|rewrite (index_none _ _ IX e I) in E; discriminate]. cbn [isSome meet]. discriminate.
Qed.
Lemma attach_possible s n a v f r : wf s -> free s (e_prog n) r -> length (ents s) < 64 -> anchorOf a = Some (v, f) -> fdOf (Some a) <> Some 0 ->
  match a with Head | Tail => True | At t (Before | After) => exists e, In e (ents s) /\ is s t e | _ => False end -> mprogAttach s n None f v r <> None.
Proof.
  intros W F L AO P M. destruct a as [ | |t po].
  - injection AO as <- <-. eapply attach_ok; eauto; try reflexivity. now left.
  - injection AO as <- <-. eapply attach_ok; eauto; try reflexivity. now left.
  - destruct (at_pos _ _ _ _ AO) as (F1 & F2 & F3). assert (ME : exists e, In e (ents s) /\ is s t e) by (destruct po; easy). destruct ME as (e & I & IS). destruct (is_tuple _ _ _ W I IS) as (tu & TO & MT). pose proof (tuple_target s t po 0 v f eq_refl P AO) as TT. rewrite N.lor_0_l, TO in TT.
    eapply attach_ok; eauto; destruct po; try easy; rewrite F2, F3; reflexivity.
Qed.
(** AttachTCX: the program is there and not attached, there is room, the anchor is attached, and so on. *)
Theorem C100_link_succeeds : forall o s f p, wf s -> valid o -> o_flags o = 0%N -> o_prog o = Some f -> progFd s f = Some p -> ~ In p (map e_prog (ents s)) -> length (ents s) < 64 -> expected o s ->
  match o_anchor o with None | Some Head | Some Tail => True | Some (At t (Before | After)) => exists e, In e (ents s) /\ is s t e | _ => False end -> attachLink true o s <> None.
Proof.
  intros o s f p W (P & _) FL OP PF NI L EX M. unfold attachLink, tcxAttr. rewrite FL. cbn [negb N.land N.eqb]. assert (F : free s p (o_rev o)) by (split; [now apply expected_stale|exact NI]). destruct (o_anchor o) as [a|] eqn:OA.
  - destruct (anchorOf a) as [(v, g)|] eqn:AO.
    + cbn [a_prog a_flags a_rel a_rev]. rewrite OP, PF, N.lor_0_l. destruct (mprogAttach s (Ent p (Some (next s))) None g v (o_rev o)) eqn:MA; [discriminate|]. exfalso. eapply (attach_possible s (Ent p (Some (next s))) a v g (o_rev o)); eauto.
    + exfalso. destruct a as [ | |[[g|]|g|[g|]|g|] po]; try discriminate; destruct po; try easy; destruct M as (e & _ & []).
  - cbn [a_prog a_flags a_rel a_rev]. rewrite OP, PF. assert (MA : mprogAttach s (Ent p (Some (next s))) None 0 0 (o_rev o) = Some (ents s ++ [Ent p (Some (next s))])) by (apply attach_none; auto). rewrite MA. discriminate.
Qed.
Theorem C100_raw_succeeds : forall o s f p, wf s -> valid o -> o_flags o = 0%N -> o_prog o = Some f -> progFd s f = Some p -> ~ In p (map e_prog (ents s)) -> expected o s ->
  match o_anchor o with
  | None | Some Head | Some Tail => length (ents s) < 64
  | Some (At t (Before | After)) => length (ents s) < 64 /\ exists e, In e (ents s) /\ is s t e
  | Some (At (TProgram t) Replace) => exists e, In e (ents s) /\ is s (TProgram t) e /\ e_link e = None
  | _ => False
  end -> rawAttach true o s <> None.
Proof.
  intros o s f p W (P & _) FL OP PF NI EX M. unfold rawAttach, rawAttr. rewrite FL. cbn [negb N.land N.eqb]. assert (F : free s p (o_rev o)) by (split; [now apply expected_stale|exact NI]). destruct (o_anchor o) as [a|] eqn:OA.
  - destruct (anchorOf a) as [(v, g)|] eqn:AO; [|exfalso; destruct a as [ | |[[g|]|g|[g|]|g|] po]; try discriminate; destruct po; try easy; cbn [is] in M; clear - M; firstorder].
    rewrite N.lor_0_l. destruct a as [ | |t po].
    + injection AO as <- <-. cbn - [mprogAttach]. rewrite OP, PF. destruct (mprogAttach s (Ent p None) None (bit bBEFORE) 0 (o_rev o)) eqn:MA; [|exfalso; eapply (attach_possible s (Ent p None) Head); eauto; reflexivity]. change 8%N with (bit bBEFORE). rewrite MA. discriminate.
    + injection AO as <- <-. cbn - [mprogAttach]. rewrite OP, PF. destruct (mprogAttach s (Ent p None) None (bit bAFTER) 0 (o_rev o)) eqn:MA; [|exfalso; eapply (attach_possible s (Ent p None) Tail); eauto; reflexivity]. change 16%N with (bit bAFTER). rewrite MA. discriminate.
    + destruct (at_pos _ _ _ _ AO) as (F1 & F2 & F3). assert (RB : negb (N.land g (bit bREPLACE) =? 0)%N = N.testbit g bREPLACE /\ (N.ldiff g anchorFlags =? 0)%N = true).
      { destruct t as [[k|]|k|[k|]|k|], po; cbn [anchorOf] in AO; try discriminate; injection AO as <- <-; split; reflexivity. }
      destruct RB as (RB & MK). rewrite RB, F1. destruct po.
      * cbn [a_prog a_flags a_rel a_rev a_old andb]. rewrite MK, OP, PF, F1. assert (M2 : length (ents s) < 64 /\ exists e, In e (ents s) /\ is s t e) by (destruct t; exact M). clear M. destruct M2 as (L & M). destruct (mprogAttach s (Ent p None) None g v (o_rev o)) eqn:MA; [discriminate|]. exfalso. eapply (attach_possible s (Ent p None) (At t Before)); eauto.
      * cbn [a_prog a_flags a_rel a_rev a_old andb]. rewrite MK, OP, PF, F1. assert (M2 : length (ents s) < 64 /\ exists e, In e (ents s) /\ is s t e) by (destruct t; exact M). clear M. destruct M2 as (L & M). destruct (mprogAttach s (Ent p None) None g v (o_rev o)) eqn:MA; [discriminate|]. exfalso. eapply (attach_possible s (Ent p None) (At t After)); eauto.
      * cbn [a_prog a_flags a_rel a_rev a_old andb]. rewrite MK, OP, PF, F1. destruct t as [[k|]|k|[k|]|k|]; try easy. injection AO as <- <-. destruct M as (e & I & IS & EL). cbn [is] in IS. rewrite IS. cbn [option_map].
        destruct (in_split _ _ I) as (l1 & l2 & E). pose proof (posExact_ok s _ None _ _ _ W E eq_refl EL) as PE.
        unfold mprogAttach. destruct F as (FS & FE). rewrite FS. apply exists_prog in FE. cbn [e_prog e_link] in *. rewrite FE. pose proof (tuple_end s 0 (bit bREPLACE) eq_refl (or_intror (or_intror eq_refl))) as TE. rewrite N.lor_0_l in TE. change (N.lor (posFlag Replace) 0) with (bit bREPLACE). rewrite TE. change (N.testbit (bit bREPLACE) bREPLACE) with true. rewrite PE. cbn [option_map]. unfold place. change (N.testbit (bit bREPLACE) bBEFORE) with false. change (N.testbit (bit bREPLACE) bAFTER) with false. cbv iota.
        pose proof (wf_max _ W) as MX. assert (LL : length l1 < length (ents s)) by (rewrite E, app_length; cbn; lia). unfold maxProgs. destruct (Z.leb_spec (Z.of_nat 64) (Z.of_nat (length l1))); [lia|discriminate].
  - cbn [a_prog a_flags a_rel a_rev a_old andb]. rewrite OP, PF. cbn [N.ldiff N.eqb N.testbit]. assert (MA : mprogAttach s (Ent p None) None 0 0 (o_rev o) = Some (ents s ++ [Ent p None])) by (apply attach_none; auto). change (N.testbit 0 bREPLACE) with false. cbv iota. rewrite MA. discriminate.
Qed.
(** ReplaceProgramByID never works. *)
Theorem C100_replace_by_id_refuted : forall sys o s p, wf s -> o_anchor o = Some (At (TProgramID p) Replace) -> rawAttach sys o s = None.
Proof.
  intros sys o s p W OA. destruct (rawAttach sys o s) as [s'|] eqn:H; auto. exfalso. unfold rawAttach in H. destruct (rawAttr o) as [a|] eqn:TA; [|discriminate]. unfold rawAttr in TA. destruct (N.eqb_spec (N.land (o_flags o) anchorFlags) 0) as [U|]; [|discriminate]. rewrite OA in TA. cbn [negb anchorOf] in TA. change (negb (N.land (N.lor (posFlag Replace) (bit bID)) (bit bREPLACE) =? 0)%N) with true in TA. cbv iota in TA. injection TA as <-.
  destruct (sys && _); [|discriminate]. cbn [a_prog a_flags a_rel a_rev a_old] in H. destruct (match o_prog o with Some f => progFd s f | None => None end); [|discriminate]. destruct (if N.testbit _ bREPLACE then _ else _); [|discriminate].
  rewrite attach_notuple in H; [discriminate|]. destruct (clean _ U) as (_ & _ & _ & U4 & U5). unfold tupleRelative. rewrite !N.lor_spec, U4, U5. cbn - [mem]. destruct (mem 0 (progs s)) eqn:M; auto. apply mem_in in M. now apply (wf_pos _ W) in M.
Qed.
(** ** Detaching *)
Theorem C100_detach : forall sys o s0 s s', wf s -> kept o s0 s -> rawDetach sys o s = Some s' ->
  exists f p l1 l2, o_prog o = Some f /\ progFd s0 f = Some p /\ ents s = l1 ++ Ent p None :: l2 /\ ents s' = l1 ++ l2 /\ expected o s /\ fdt s' = fdt s /\ links s' = links s /\ (ents s' <> [] -> rev s' = S (rev s)).
Proof.
  intros sys o s0 s s' W (K1 & K2) H. unfold rawDetach in H. destruct (detachAttr o) as [a|] eqn:TA; [|discriminate]. destruct sys; [|discriminate]. destruct (match a_prog a with Some f => progFd s f | None => None end) as [p|] eqn:PF; [|discriminate].
  assert (AP : a_prog a = o_prog o /\ a_rev a = o_rev o). { unfold detachAttr in TA. destruct (negb _); [discriminate|]. destruct (o_anchor o) as [an|]; [destruct (anchorOf an) as [(v, f)|]; [|discriminate]|]; injection TA as <-; auto. }
  destruct AP as (AP & AR). rewrite AP in PF. rewrite AR in H. destruct (o_prog o) as [f|]; [|discriminate]. unfold mprogDetach in H. destruct (N.testbit _ bREPLACE); [discriminate|]. destruct (stale s (o_rev o)) eqn:ST; [discriminate|]. destruct (tupleRelative _ _ _) as [tu|]; [|discriminate].
  destruct (posExact p None (ents s)) as [i|] eqn:PE; [|discriminate]. destruct (place _ _ _ _) as [[j|]|] eqn:PL; try discriminate. injection H as <-. destruct (posExact_some _ _ _ _ PE) as (l1 & [q k] & l2 & E & L & P & K). cbn in P, K. subst q k.
  assert (J : j = Z.of_nat i). { unfold place in PL. assert (G : forall r x, meet (Some (Z.of_nat i)) r = Some x -> x = Some (Z.of_nat i)). { intros [z|] x; cbn; [|discriminate]. destruct (Z.eqb_spec z (Z.of_nat i)); [|discriminate]. injection 1 as <-. now subst. } destruct (N.testbit _ bBEFORE); [destruct (meet _ _) as [x|] eqn:MM; [|discriminate]; apply G in MM; subst x|]; destruct (N.testbit _ bAFTER); try (apply G in PL; now injection PL as ->); now injection PL as <-. }
  subst j. rewrite Nat2Z.id. exists f, p, l1, l2. split; auto. rewrite (sameFd_prog _ _ _ K1). cbn [commit ents fdt links rev]. rewrite E, <- L, deleteAt_mid. repeat split; auto; [now apply stale_expected|]. intros NE. now apply (rev_commit s (l1 ++ l2)) in NE.
Qed.
Theorem C100_detach_succeeds : forall o s f p, wf s -> o_flags o = 0%N -> o_prog o = Some f -> progFd s f = Some p -> In (Ent p None) (ents s) -> expected o s -> o_anchor o = None -> rawDetach true o s <> None.
Proof.
  intros o s f p W FL OP PF I EX OA. unfold rawDetach, detachAttr. rewrite FL, OA. cbn [negb N.land N.eqb a_prog a_flags a_rel a_rev]. rewrite OP, PF. unfold mprogDetach. change (N.testbit 0 bREPLACE) with false. cbv iota. rewrite (expected_stale _ _ EX), (tuple_none s 0 eq_refl). destruct (in_split _ _ I) as (l1 & l2 & E). rewrite (posExact_ok s p None l1 (Ent p None) l2 W E eq_refl eq_refl). unfold place. change (N.testbit 0 bBEFORE) with false. change (N.testbit 0 bAFTER) with false. cbv iota. discriminate.
Qed.
(** ** Update and Close *)
Lemma links_update l p ls : map fst (map (fun x => if fst x =? l then (l, p) else x) ls) = map (@fst nat nat) ls.
Proof. induction ls as [|[k q] ls IH]; cbn; auto. rewrite IH. destruct (Nat.eqb_spec k l); cbn; congruence. Qed.
Theorem C100_update : forall sys lf pf s s', wf s -> update sys lf pf s = Some s' ->
  exists l p q l1 l2, linkFd s lf = Some l /\ progFd s pf = Some p /\ ents s = l1 ++ Ent q (Some l) :: l2 /\ ents s' = l1 ++ Ent p (Some l) :: l2 /\ (p <> q -> ~ In p (map e_prog (ents s)) /\ rev s' = S (rev s)) /\ fdt s' = fdt s.
Proof.
  intros sys lf pf s s' W H. unfold update in H. destruct sys; [|discriminate]. destruct (linkFd s lf) as [l|]; [|discriminate]. destruct (progFd s pf) as [p|]; [|discriminate]. destruct (assoc l (links s)) as [q|] eqn:AS; [|discriminate].
  destruct (existsb _ (ents s)) eqn:EX; [|discriminate]. apply existsb_exists in EX. destruct EX as (e & I & EL). apply optEqb_eq in EL. exists l, p, q.
  assert (EP : e_prog e = q). { pose proof (in_assoc l _ _ (wf_links _ W) (wf_link _ W e l I EL)) as X. congruence. }
  destruct (Nat.eqb_spec q p) as [-> |NE].
  - injection H as <-. destruct (in_split _ _ I) as (l1 & l2 & E). exists l1, l2. destruct e as [e1 e2]. cbn in EP, EL. subst e1 e2. repeat split; auto; easy.
  - destruct (mprogAttach s (Ent p (Some l)) (Some q) (N.lor (bit bREPLACE) (bit bID)) q 0) as [es|] eqn:MA; [|discriminate]. cbv zeta in H. injection H as <-.
    assert (TT : tupleRelative s q (N.lor 0 (N.lor (bit bREPLACE) (bit bID))) = Some (T (Some q) None)).
    { rewrite <- EP. change (tupleRelative s (e_prog e) (N.lor 0 (N.lor (bit bREPLACE) (bit bID)))) with (match (if mem (e_prog e) (progs s) then Some (e_prog e) else None) with Some p => Some (T (Some p) None) | None => None end). pose proof (wf_attached _ W e I) as M. apply mem_in in M. now rewrite M. }
    change (N.lor (bit bREPLACE) (bit bID)) with (N.lor 0 (N.lor (bit bREPLACE) (bit bID))) in MA.
    destruct (attach_replace s _ 0 (N.lor (bit bREPLACE) (bit bID)) _ _ _ _ _ eq_refl W eq_refl eq_refl eq_refl TT MA) as ((_ & F) & o & l1 & [x y] & l2 & O & E & P & L & ->). injection O as <-. cbn in P, L. subst x y. exists l1, l2. cbn [commit ents rev fdt]. repeat split; auto. now destruct l1.
Qed.
Theorem C100_update_succeeds : forall lf pf s l p e, wf s -> linkFd s lf = Some l -> progFd s pf = Some p -> In e (ents s) -> e_link e = Some l -> (p = e_prog e \/ ~ In p (map e_prog (ents s))) -> update true lf pf s <> None.
Proof.
  intros lf pf s l p e W LF PF I EL C. unfold update. rewrite LF, PF, (in_assoc l _ _ (wf_links _ W) (wf_link _ W e l I EL)). assert (EX : existsb (fun x => optEqb (e_link x) (Some l)) (ents s) = true) by (apply existsb_exists; exists e; split; auto; now apply optEqb_eq). rewrite EX.
  destruct (Nat.eqb_spec (e_prog e) p) as [|NE]; [discriminate|]. destruct C as [-> |F]; [easy|]. destruct (in_split _ _ I) as (l1 & l2 & E). pose proof (posExact_ok s _ (Some l) _ _ _ W E eq_refl EL) as PE.
  unfold mprogAttach. change (stale s 0) with false. cbv iota. apply exists_prog in F. cbn [e_prog e_link] in *. rewrite F. pose proof (wf_attached _ W e I) as M. apply mem_in in M.
  change (tupleRelative s (e_prog e) (N.lor (bit bREPLACE) (bit bID))) with (match (if mem (e_prog e) (progs s) then Some (e_prog e) else None) with Some p => Some (T (Some p) None) | None => None end). rewrite M. change (N.testbit (N.lor (bit bREPLACE) (bit bID)) bREPLACE) with true. cbv iota. rewrite PE. cbn [option_map]. unfold place. change (N.testbit (N.lor (bit bREPLACE) (bit bID)) bBEFORE) with false. change (N.testbit (N.lor (bit bREPLACE) (bit bID)) bAFTER) with false. cbv iota.
  pose proof (wf_max _ W) as MX. assert (LL : length l1 < length (ents s)) by (rewrite E, app_length; cbn; lia). unfold maxProgs. destruct (Z.leb_spec (Z.of_nat 64) (Z.of_nat (length l1))); [lia|discriminate].
Qed.
Lemma filter_id {A} (f : A -> bool) l : (forall x, In x l -> f x = true) -> filter f l = l.
Proof. induction l as [|x l IH]; cbn; intros H; auto. rewrite (H x) by auto. f_equal. auto. Qed.
(** Close takes away the entry of the link, and only that. *)
Theorem C100_close : forall lf s l, wf s -> linkFd s lf = Some l -> ~ In lf (map fst (fdt (close lf s))) /\
  (forall f o, f <> lf -> In (f, o) (fdt s) -> In (f, o) (fdt (close lf s))) /\
  (ents (close lf s) = ents s /\ rev (close lf s) = rev s /\ (forall e, In e (ents s) -> e_link e <> Some l) \/
   exists l1 e l2, ents s = l1 ++ e :: l2 /\ e_link e = Some l /\ ents (close lf s) = l1 ++ l2).
Proof.
  intros lf s l W LF. unfold close. rewrite LF. cbn [ents rev fdt]. set (es := filter (fun e => negb (optEqb (e_link e) (Some l))) (ents s)).
  assert (FD : fdt (if length es =? length (ents s) then s else commit s es) = fdt s) by (destruct (length es =? length (ents s)); reflexivity). rewrite FD. split; [|split].
  - intros I. apply in_map_iff in I. destruct I as ((f & o) & E & I). cbn in E. subst f. apply filter_In in I. destruct I as (_ & I). cbn in I. now rewrite Nat.eqb_refl in I.
  - intros f o N I. apply filter_In. split; auto. cbn. destruct (Nat.eqb_spec f lf); easy.
  - destruct (existsb (fun e => optEqb (e_link e) (Some l)) (ents s)) eqn:EX.
    + right. apply existsb_exists in EX. destruct EX as (e & I & EL). apply optEqb_eq in EL. destruct (in_split _ _ I) as (l1 & l2 & E). exists l1, e, l2. split; auto. split; auto.
      assert (X : es = l1 ++ l2).
      { unfold es. rewrite E, filter_app. cbn [filter]. assert (O : optEqb (e_link e) (Some l) = true) by now apply optEqb_eq. rewrite O. cbn [negb].
        assert (NO : NoDup (ents s)) by (eapply NoDup_map_inv; apply (wf_once _ W)). rewrite E in NO. apply NoDup_remove_2 in NO.
        assert (G : forall f, In f (l1 ++ l2) -> negb (optEqb (e_link f) (Some l)) = true). { intros f F. destruct (optEqb (e_link f) (Some l)) eqn:Q; auto. apply optEqb_eq in Q. exfalso. apply NO. assert (f = e) by (eapply (wf_one _ W f e l); auto; rewrite E; apply in_or_app; apply in_app_or in F; destruct F; [now left|right; now right]). now subst. }
        rewrite !filter_id; auto; intros f F; apply G; apply in_or_app; auto. }
      rewrite X. destruct (Nat.eqb_spec (length (l1 ++ l2)) (length (ents s))) as [Q|Q]; [rewrite E, !app_length in Q; cbn in Q; lia|]. reflexivity.
    + left. assert (G : forall e, In e (ents s) -> optEqb (e_link e) (Some l) = false). { intros e I. apply not_true_is_false. intros T. assert (Y : existsb (fun e => optEqb (e_link e) (Some l)) (ents s) = true) by (apply existsb_exists; eauto). congruence. }
      assert (X : es = ents s). { unfold es. apply filter_id. intros e I. now rewrite (G e I). } rewrite X, Nat.eqb_refl. split; auto. split; auto. intros e I Q. apply optEqb_eq in Q. rewrite (G e I) in Q. discriminate.
Qed.
(** ** Queries *)
Definition shown (s : st) : list (nat * option nat) := map (fun e => (e_prog e, e_link e)) (ents s).
Theorem C100_query : forall b1 b2 s1 s2, wf s1 -> wf s2 ->
  match query b1 b2 s1 s2 with
  | Panic => False
  | Programs l r => exists s, (s = s1 \/ s = s2) /\ l = shown s /\ r = rev s
  | Error => b1 = false \/ b2 = false \/ length (ents s1) < length (ents s2)
  end.
Proof.
  intros b1 b2 s1 s2 W1 W2. unfold query, kQuery. destruct b1; [|auto]. cbn [Nat.eqb orb negb firstn]. rewrite !map_length. destruct (Nat.eqb_spec (length (ents s1)) 0) as [Z|Z].
  - exists s1. split; auto. unfold shown. destruct (ents s1); [auto|discriminate].
  - destruct b2; [|auto]. cbn [orb]. destruct (Nat.leb_spec (length (ents s2)) (length (ents s1))) as [L|L]; cbn [negb]; [|auto].
    set (ids := map _ (ents s2)). assert (LI : length ids = length (ents s2)) by (unfold ids; apply map_length). rewrite firstn_all2 by lia. unfold pad. rewrite app_length, repeat_length, LI. destruct (Nat.ltb_spec (length (ents s2) + (length (ents s1) - length (ents s2))) (length (ents s2))); [lia|].
    exists s2. split; auto. rewrite <- LI, firstn_mid. split; auto. unfold ids, shown. rewrite map_map. apply map_ext_in. intros e I. cbn [fst snd]. f_equal. pose proof (wf_rev _ W1) as R. destruct (Nat.eqb_spec (rev s1) 0); [lia|]. cbn [negb].
    destruct (e_link e) as [l|] eqn:EL; [|reflexivity]. pose proof (wf_new _ W2 _ _ (wf_link _ W2 e l I EL)). destruct (Nat.eqb_spec l 0); [lia|reflexivity].
Qed.
(** ** Well-formed states *)
Lemma placed_in s n a l l' e : placed s n a l l' -> In e l' -> e = n \/ In e l.
Proof.
  destruct 1; intros I; auto.
  - apply in_app_or in I. destruct I as [I|[I|[]]]; auto.
  - destruct I; auto.
  - apply in_app_or in I. destruct I as [I|[I|[]]]; auto.
  - apply in_app_or in I. destruct I as [I|[I|I]]; auto; right; apply in_or_app; auto.
  - apply in_app_or in I. destruct I as [I|[I|[I|I]]]; auto; right; apply in_or_app; cbn; auto.
  - apply in_app_or in I. destruct I as [I|[I|I]]; auto; right; apply in_or_app; cbn; auto.
Qed.
Lemma placed_nodup s n a l l' : placed s n a l l' -> NoDup (map e_prog l) -> ~ In (e_prog n) (map e_prog l) -> NoDup (map e_prog l').
Proof.
  destruct 1; intros N I.
  - rewrite map_app. cbn. eapply Permutation_NoDup; [apply Permutation_cons_append|]. now constructor.
  - cbn. now constructor.
  - rewrite map_app. cbn. eapply Permutation_NoDup; [apply Permutation_cons_append|]. now constructor.
  - rewrite map_app in *. cbn in *. eapply Permutation_NoDup; [apply Permutation_middle|]. now constructor.
  - change (l1 ++ e :: n :: l2) with (l1 ++ [e] ++ n :: l2). change (l1 ++ e :: l2) with (l1 ++ [e] ++ l2) in *. rewrite app_assoc in *. rewrite map_app in *. cbn in *. eapply Permutation_NoDup; [apply Permutation_middle|]. now constructor.
  - rewrite map_app in *. cbn in *. eapply Permutation_NoDup; [apply Permutation_middle|]. constructor; [|now apply NoDup_remove_1 in N]. intros X. apply I. apply in_app_or in X. apply in_or_app. cbn. tauto.
Qed.
Lemma insert_len i b n l : length (insert i b n l) = S (length l).
Proof. unfold insert. destruct (Z.eqb i _); [rewrite app_length; cbn; lia|]. unfold insertAt. rewrite app_length. cbn. rewrite Nat.add_succ_r, <- app_length, firstn_skipn. reflexivity. Qed.
Lemma attach_len s n old f v r l' : wf s -> mprogAttach s n old f v r = Some l' -> length l' <= 64.
Proof.
  intros W H. pose proof (wf_max _ W) as MX. unfold mprogAttach in H. destruct (stale s r); [discriminate|]. destruct (existsb _ _); [discriminate|]. destruct (tupleRelative s v f) as [tu|]; [|discriminate].
  destruct (N.testbit f bREPLACE).
  - destruct old as [o|]; [|discriminate]. destruct (posExact o (e_link n) (ents s)) as [i|] eqn:PE; [|discriminate]. cbn [option_map] in H.
    assert (G : forall x, place tu f (ents s) (Some (Z.of_nat i)) = Some x -> x = Some (Z.of_nat i)).
    { intros x PL. unfold place in PL. assert (G : forall r x, meet (Some (Z.of_nat i)) r = Some x -> x = Some (Z.of_nat i)). { intros [z|] y; cbn; [|discriminate]. destruct (Z.eqb_spec z (Z.of_nat i)); [|discriminate]. injection 1 as <-. now subst. } destruct (N.testbit _ bBEFORE); [destruct (meet _ _) as [y|] eqn:MM; [|discriminate]; apply G in MM; subst y|]; destruct (N.testbit _ bAFTER); try (apply G in PL; exact PL); now injection PL as <-. }
    destruct (place tu f (ents s) (Some (Z.of_nat i))) as [x|]; [|discriminate]. rewrite (G x eq_refl) in H. destruct (Z.leb _ _); [discriminate|]. injection H as <-. destruct (posExact_some _ _ _ _ PE) as (l1 & e & l2 & E & L & _). rewrite Nat2Z.id, <- L, E, replaceAt_mid. rewrite E in MX. rewrite app_length in *. cbn in *. lia.
  - destruct (Nat.eqb_spec (length (ents s)) maxProgs); [discriminate|]. unfold maxProgs in *. destruct (place tu f (ents s) None) as [[i|]|]; [| |discriminate].
    + destruct (Z.leb _ _); [discriminate|]. injection H as <-. rewrite insert_len. lia.
    + destruct (_ || _); [discriminate|]. injection H as <-. rewrite insert_len. lia.
Qed.
Lemma kept_refl o s : kept o s s.
Proof. unfold kept, sameFd. destruct (o_prog o), (fdOf (o_anchor o)); auto. Qed.
Lemma nodup_sub l1 e l2 : NoDup (map e_prog (l1 ++ e :: l2)) -> NoDup (map e_prog (l1 ++ l2)).
Proof. rewrite !map_app. cbn. apply NoDup_remove_1. Qed.
Lemma NoDup_map_fst_filter (f : nat * nat -> bool) l : NoDup (map fst l) -> NoDup (map fst (filter f l)).
Proof. induction l as [|x l IH]; cbn; intros N; auto. inversion N; subst. destruct (f x); cbn; auto. constructor; auto. intros I. apply H1. apply in_map_iff in I. destruct I as (y & E & I). apply filter_In in I. apply in_map_iff. exists y. tauto. Qed.
Theorem C100_wf : forall s s', wf s -> step s s' -> wf s'.
Proof.
  intros s s' W ST. destruct ST as [sys o s' l V H|sys o s' V H|sys o s' H|sys lf pf s' H|lf].
  - destruct (C100_link _ _ _ _ _ _ W V (kept_refl o s) H) as (f & p & OP & PF & NI & _ & PL & RV & NL & LK & NF & FD).
    assert (X : length (ents s') <= 64 /\ progs s' = progs s /\ l = next s /\ next s' = S (next s)).
    { unfold attachLink in H. destruct (tcxAttr o) as [a|]; [|discriminate]. destruct sys; [|discriminate]. destruct (match a_prog a with Some f => progFd s f | None => None end) as [q|]; [|discriminate]. cbv zeta in H. destruct (mprogAttach s _ _ _ _ _) as [es|] eqn:MA; [|discriminate]. injection H as <- <-. cbn. split; auto. eapply attach_len; eauto. }
    destruct X as (X1 & X2 & X3 & X4). subst l. pose proof W as [A B C D E F G I J K L M]. split; auto; try (rewrite ?X2, ?X4, ?RV; lia || auto; fail).
    + eapply placed_nodup; eauto.
    + intros e k EI EL. rewrite LK. destruct (placed_in _ _ _ _ _ e PL EI) as [-> |O]; [cbn in EL; injection EL as <-; now left|right; auto].
    + rewrite LK. cbn. constructor; auto.
    + intros e g k E1 E2 L1 L2. assert (Z : forall x, In x (ents s) -> e_link x = Some (next s) -> False). { intros x XI XL. apply C in XL; auto. apply F in XL. lia. }
      destruct (placed_in _ _ _ _ _ e PL E1) as [-> |O1], (placed_in _ _ _ _ _ g PL E2) as [-> |O2]; auto; cbn in L1, L2.
      * exfalso. injection L1 as <-. eauto.
      * exfalso. injection L2 as <-. eauto.
      * eapply E; eauto.
    + intros k q. rewrite LK, X4. intros [Q|Q]; [injection Q as <- <-; lia|]. apply F in Q. lia.
    + intros k q. rewrite FD, X2. intros [Q|Q]; [discriminate|eauto].
    + intros k q. rewrite FD, X4. intros [Q|Q]; [injection Q as <- <-; lia|]. apply J in Q. lia.
    + intros e EI. rewrite X2. destruct (placed_in _ _ _ _ _ e PL EI) as [-> |O]; auto. cbn. unfold progFd in PF. destruct (assoc f (fdt s)) as [[q|q]|] eqn:AS; try discriminate. injection PF as <-. apply assoc_in in AS. eauto.
  - destruct (C100_raw _ _ _ _ _ W V (kept_refl o s) H) as (f & p & OP & PF & NI & _ & PL & RV & LK & FD).
    assert (X : length (ents s') <= 64 /\ progs s' = progs s /\ next s' = next s).
    { unfold rawAttach in H. destruct (rawAttr o) as [a|]; [|discriminate]. destruct (sys && _); [|discriminate]. destruct (match a_prog a with Some f => progFd s f | None => None end) as [q|]; [|discriminate]. destruct (if N.testbit _ _ then _ else _); [|discriminate]. destruct (mprogAttach s _ _ _ _ _) as [es|] eqn:MA; [|discriminate]. injection H as <-. cbn. split; auto. eapply attach_len; eauto. }
    destruct X as (X1 & X2 & X3). pose proof W as [A B C D E F G I J K L M]. split; auto; rewrite ?X2, ?X3, ?LK, ?FD; auto.
    + eapply placed_nodup; eauto.
    + intros e k EI EL. destruct (placed_in _ _ _ _ _ e PL EI) as [-> |O]; [discriminate|auto].
    + intros e g k E1 E2 L1 L2. destruct (placed_in _ _ _ _ _ e PL E1) as [-> |O1]; [discriminate|]. destruct (placed_in _ _ _ _ _ g PL E2) as [-> |O2]; [discriminate|]. eauto.
    + rewrite RV. lia.
    + intros e EI. destruct (placed_in _ _ _ _ _ e PL EI) as [-> |O]; auto. cbn. unfold progFd in PF. destruct (assoc f (fdt s)) as [[q|q]|] eqn:AS; try discriminate. injection PF as <-. apply assoc_in in AS. eauto.
  - destruct (C100_detach _ _ _ _ _ W (kept_refl o s) H) as (f & p & l1 & l2 & OP & PF & E1 & E2 & _ & FD & LK & RV).
    assert (X : progs s' = progs s /\ next s' = next s). { unfold rawDetach in H. destruct (detachAttr o) as [a|]; [|discriminate]. destruct sys; [|discriminate]. destruct (match a_prog a with Some f => progFd s f | None => None end); [|discriminate]. destruct (mprogDetach s _ _ _ _ _); [|discriminate]. injection H as <-. auto. }
    destruct X as (X1 & X2). assert (RP : 0 < rev s'). { destruct (ents s') eqn:EE; [|rewrite RV by discriminate; lia]. unfold rawDetach in H. destruct (detachAttr o) as [a|]; [|discriminate]. destruct sys; [|discriminate]. destruct (match a_prog a with Some f => progFd s f | None => None end); [|discriminate]. destruct (mprogDetach s _ _ _ _ _) as [es|]; [|discriminate]. injection H as <-. cbn in EE. subst es. cbn. lia. }
    assert (SUB : forall e, In e (ents s') -> In e (ents s)) by (intros e; rewrite E1, E2; intros EI; apply in_app_or in EI; apply in_or_app; cbn; tauto).
    pose proof W as [A B C D E F G I J K L M]. split; rewrite ?X1, ?X2, ?LK, ?FD; auto; try (intros; eauto; fail).
    + rewrite E2. rewrite E1 in A. eapply nodup_sub; eauto.
    + rewrite E2. rewrite E1 in B. rewrite app_length in *. cbn in B. lia.
  - destruct (C100_update _ _ _ _ _ W H) as (l & p & q & l1 & l2 & LF & PF & E1 & E2 & NP & FD).
    destruct (Nat.eq_dec p q) as [-> |NE].
    { unfold update in H. destruct sys; [|discriminate]. rewrite LF, PF in H. assert (AS : assoc l (links s) = Some q). { apply in_assoc; [apply (wf_links _ W)|]. change q with (e_prog (Ent q (Some l))) at 1. apply (wf_link _ W); auto. rewrite E1. apply in_elt. } rewrite AS in H. destruct (existsb _ _); [|discriminate]. rewrite Nat.eqb_refl in H. injection H as <-. exact W. }
    destruct (NP NE) as (NI & RV).
    assert (X : progs s' = progs s /\ next s' = next s /\ links s' = map (fun x => if fst x =? l then (l, p) else x) (links s)).
    { unfold update in H. destruct sys; [|discriminate]. rewrite LF, PF in H. destruct (assoc l (links s)) as [o|] eqn:AS; [|discriminate]. destruct (existsb _ _); [|discriminate]. destruct (Nat.eqb_spec o p) as [-> |].
      - exfalso. apply NE. assert (AS2 : assoc l (links s) = Some q). { apply in_assoc; [apply (wf_links _ W)|]. change q with (e_prog (Ent q (Some l))) at 1. apply (wf_link _ W); auto. rewrite E1. apply in_elt. } congruence.
      - destruct (mprogAttach s _ _ _ _ _) as [es|]; [|discriminate]. cbv zeta in H. injection H as <-. auto. }
    destruct X as (X1 & X2 & X3). assert (OLD : forall e, In e (ents s') -> e = Ent p (Some l) \/ In e (ents s) /\ e_link e <> Some l).
    { intros e EI. rewrite E2 in EI. assert (EI2 : e = Ent p (Some l) \/ In e (l1 ++ l2)) by (apply in_app_or in EI; destruct EI as [EI|[EI|EI]]; auto; right; apply in_or_app; auto). destruct EI2 as [-> |EI2]; auto. right.
      assert (EI3 : In e (ents s)) by (rewrite E1; apply in_app_or in EI2; apply in_or_app; cbn; tauto). split; auto. intros EL. assert (Q : e = Ent q (Some l)). { eapply (wf_one _ W e _ l); auto. rewrite E1. apply in_elt. } subst e.
      assert (NO : NoDup (ents s)) by (eapply NoDup_map_inv; apply (wf_once _ W)). rewrite E1 in NO. apply NoDup_remove_2 in NO. easy. }
    pose proof W as [A B C D E F G I J K L M]. split; rewrite ?X1, ?X2, ?X3, ?FD; auto.
    + rewrite E2. rewrite E1 in A, NI. rewrite map_app in *. cbn in *. eapply Permutation_NoDup; [apply Permutation_middle|]. constructor; [|now apply NoDup_remove_1 in A]. intros Y. apply NI. apply in_app_or in Y. apply in_or_app. cbn. tauto.
    + rewrite E2. rewrite E1 in B. rewrite app_length in *. cbn in *. lia.
    + intros e k EI EL. apply in_map_iff. destruct (OLD e EI) as [-> |(O & NL)].
      * cbn in EL. injection EL as <-. exists (l, q). cbn. rewrite Nat.eqb_refl. split; auto. change q with (e_prog (Ent q (Some l))) at 1. apply C; auto. rewrite E1. apply in_elt.
      * exists (k, e_prog e). cbn. destruct (Nat.eqb_spec k l); [congruence|]. split; auto.
    + rewrite links_update. exact D.
    + intros e g k I1 I2 L1 L2. destruct (OLD e I1) as [-> |(O1 & N1)], (OLD g I2) as [-> |(O2 & N2)]; auto; cbn in L1, L2; try congruence. eapply E; eauto.
    + intros k r KI. apply in_map_iff in KI. destruct KI as ((x & y) & Q & QI). cbn in Q. destruct (Nat.eqb_spec x l); injection Q as <- <-; subst; eauto.
    + rewrite RV. lia.
    + intros e EI. destruct (OLD e EI) as [-> |(O & _)]; auto. cbn. unfold progFd in PF. destruct (assoc pf (fdt s)) as [[z|z]|] eqn:AS; try discriminate. injection PF as <-. apply assoc_in in AS. eauto.
  - destruct (linkFd s lf) as [l|] eqn:LF; [|unfold close; rewrite LF; exact W]. destruct (C100_close lf s l W LF) as (_ & _ & EE).
    assert (X : progs (close lf s) = progs s /\ next (close lf s) = next s /\ links (close lf s) = filter (fun x => negb (fst x =? l)) (links s) /\ (forall f o, In (f, o) (fdt (close lf s)) -> In (f, o) (fdt s)) /\ 0 < rev (close lf s)).
    { unfold close. rewrite LF. pose proof (wf_rev _ W). destruct (length _ =? length (ents s)); cbn; repeat split; auto; try (intros f o FI; apply filter_In in FI; tauto). destruct (filter _ _); cbn; lia. }
    destruct X as (X1 & X2 & X3 & X4 & X5). assert (OLD : forall e, In e (ents (close lf s)) -> In e (ents s) /\ e_link e <> Some l).
    { destruct EE as [(-> & _ & NL)|(l1 & e & l2 & E1 & EL & E2)]; [auto|]. intros g GI. rewrite E2 in GI. assert (GI2 : In g (ents s)) by (rewrite E1; apply in_app_or in GI; apply in_or_app; cbn; tauto). split; auto. intros GL.
      assert (Q : g = e). { eapply (wf_one _ W g e l); auto. rewrite E1. apply in_elt. } subst g. assert (NO : NoDup (ents s)) by (eapply NoDup_map_inv; apply (wf_once _ W)). rewrite E1 in NO. apply NoDup_remove_2 in NO. easy. }
    pose proof W as [A B C D E F G I J K L M]. split; rewrite ?X1, ?X2, ?X3; auto.
    + destruct EE as [(-> & _)|(l1 & e & l2 & E1 & _ & ->)]; auto. rewrite E1 in A. eapply nodup_sub; eauto.
    + destruct EE as [(-> & _)|(l1 & e & l2 & E1 & _ & ->)]; auto. rewrite E1 in B. rewrite app_length in *. cbn in *. lia.
    + intros e k EI EL. destruct (OLD e EI) as (O & NL). apply filter_In. split; auto. cbn. destruct (Nat.eqb_spec k l); [congruence|auto].
    + apply NoDup_map_fst_filter. exact D.
    + intros e g k I1 I2 L1 L2. destruct (OLD e I1), (OLD g I2). eapply E; eauto.
    + intros k r KI. apply filter_In in KI. destruct KI as (KI & _). eauto.
    + intros f p FI. apply X4 in FI. eauto.
    + intros f o FI. apply X4 in FI. eauto.
    + intros e EI. destruct (OLD e EI); auto.
Qed.
Theorem C100_init : wf init /\ forall p s, 0 < p -> wf s -> wf (load p s).
Proof.
  split.
  - split; cbn; auto; try constructor; easy || lia.
  - intros p s P [A B C D E F G I J K L M]. split; cbn; auto.
    + intros l q Q. apply F in Q. lia.
    + intros [Q|Q]; [lia|auto].
    + intros f q [Q|Q]; [injection Q as <- <-; auto|right; eauto].
    + intros f o [Q|Q]; [injection Q as <- <-; lia|apply J in Q; lia].
Qed.
(** ** Examples *)
Definition with_ (f : nat) (a : option anchor) : opts := Opts (Some f) a 0 0.
(** Programs 11 to 15 with descriptors 1 to 5: 11 is attached by link 6, 12 in front of it, 13 behind it, 14 replaces 12, 15 goes before 13, found by its id; the link then gets 12, and goes away. *)
Theorem C100_example : let s0 := load 15 (load 14 (load 13 (load 12 (load 11 init)))) in exists s1 s2 s3 s4 s5 s6,
  wf s0 /\ attachLink true (with_ 1 None) s0 = Some (s1, 6) /\ rawAttach true (with_ 2 (Some Head)) s1 = Some s2 /\ shown s2 = [(12, None); (11, Some 6)] /\
  rawAttach true (with_ 3 (Some (At (TLink (Some 6)) After))) s2 = Some s3 /\ rawAttach true (with_ 4 (Some (At (TProgram (Some 2)) Replace))) s3 = Some s4 /\
  attachLink true (with_ 5 (Some (At (TProgramID 13) Before))) s4 = Some (s5, 7) /\ shown s5 = [(14, None); (11, Some 6); (15, Some 7); (13, None)] /\ rev s5 = 6 /\
  update true 6 2 s5 = Some s6 /\ shown s6 = [(14, None); (12, Some 6); (15, Some 7); (13, None)] /\ shown (close 6 s6) = [(14, None); (15, Some 7); (13, None)] /\
  query true true s5 s5 = Programs (shown s5) 6 /\ query true true s1 s2 = Error /\ rawAttach true (with_ 4 (Some (At (TProgram (Some 2)) Replace))) s5 = None.
Proof.
  intros s0. do 6 eexists. split; [unfold s0; repeat (apply C100_init; [lia|]); apply C100_init|]. repeat split; vm_compute; reflexivity.
Qed.
(** The revision does not tell histories apart: once the last program is gone it starts over, and an expected revision is met by other programs. *)
Theorem C100_revision_refuted : let s0 := load 12 (load 11 (load 10 init)) in exists s1 s2 s3 s4,
  attachLink true (with_ 1 None) s0 = Some (s1, 4) /\ s2 = close 4 s1 /\ attachLink true (with_ 2 None) s2 = Some (s3, 5) /\ rev s1 = rev s3 /\ shown s1 = [(10, Some 4)] /\ shown s3 = [(11, Some 5)] /\
  attachLink true (Opts (Some 3) None (rev s1) 0) s3 = Some s4.
Proof. intros s0. do 4 eexists. repeat split; vm_compute; reflexivity. Qed.
(** RawAttachProgram does not keep the anchor's program (descriptor 2) open until the system call: when it was used last, it can be closed by then, and its descriptor be that of another program. The program then goes elsewhere. *)
Theorem C100_unkept_refuted : exists s1 s2 o s3, wf s1 /\ wf s2 /\ ents s1 = ents s2 /\ sameFd s1 s2 (o_prog o) /\
  o_anchor o = Some (At (TProgram (Some 2)) Before) /\ is s1 (TProgram (Some 2)) (Ent 12 None) /\ rawAttach true o s2 = Some s3 /\ shown s3 = [(11, None); (12, None); (14, None); (13, None)].
Proof.
  set (es := [Ent 11 None; Ent 12 None; Ent 13 None]). exists (St es 4 [11; 12; 13; 14] [] [(1, OProg 14); (2, OProg 12)] 3), (St es 4 [11; 12; 13; 14] [] [(1, OProg 14); (2, OProg 13)] 3), (with_ 1 (Some (At (TProgram (Some 2)) Before))). eexists.
  assert (W : forall fs, (forall f o, In (f, o) fs -> f < 3) -> (forall f p, In (f, OProg p) fs -> In p [11; 12; 13; 14]) -> wf (St es 4 [11; 12; 13; 14] [] fs 3)).
  { intros fs F1 F2. split; cbn [ents rev progs links fdt next]; auto; try lia; unfold es; cbn.
    - repeat constructor; cbn; lia.
    - lia.
    - intros e l [<-|[<-|[<-|[]]]]; discriminate.
    - constructor.
    - intros e f l [<-|[<-|[<-|[]]]]; discriminate.
    - easy.
    - lia.
    - intros e [<-|[<-|[<-|[]]]]; cbn; auto. }
  split; [apply W; intros f o [Q|[Q|[]]]; injection Q as <- <-; cbn; lia|]. split; [apply W; intros f o [Q|[Q|[]]]; injection Q as <- <-; cbn; lia|]. repeat split; vm_compute; reflexivity.
Qed.

Print Assumptions C100_link.
Print Assumptions C100_raw.
Print Assumptions C100_link_succeeds.
Print Assumptions C100_raw_succeeds.
Print Assumptions C100_replace_by_id_refuted.
Print Assumptions C100_detach.
Print Assumptions C100_detach_succeeds.
Print Assumptions C100_update.
Print Assumptions C100_update_succeeds.
Print Assumptions C100_close.
Print Assumptions C100_query.
Print Assumptions C100_wf.
Print Assumptions C100_init.
Print Assumptions C100_example.
Print Assumptions C100_revision_refuted.
Print Assumptions C100_unkept_refuted.
