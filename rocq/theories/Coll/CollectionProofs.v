(** Ownership of the objects of a collection, fields of structs, and examples (properties C66-C69). *)
From Coq Require Import ZArith List Lia Bool Permutation Arith.
From Verif.Base Require Import GoInt.
From Verif.Coll Require Import Loader LoaderSpec LoaderProofs Collection.
Import ListNotations.
Local Open Scope nat_scope.

(** ** C69: every object has exactly one owner *)
(** a collection as NewCollection returns it: names and objects are unique *)
Record wf_coll (c : coll) : Prop := mkWf { W_maps : NoDup (map fst (c_maps c)); W_progs : NoDup (map fst (c_progs c)); W_objs : NoDup (closeColl c) }.

Lemma perm_del : forall A (l : list (name * A)) n, NoDup (map fst l) -> Permutation (map snd l) (map snd (del l n) ++ match get l n with Some a => [a] | None => [] end).
Proof.
  induction l as [|[m a] l IH]; intros n H; cbn; [constructor|]. inversion H; subst. destruct (Nat.eqb_spec n m).
  - subst n. assert (E : del l m = l).
    { clear - H2. induction l as [|[k b] l IH]; auto. cbn in *. destruct (Nat.eqb_spec m k); [subst; exfalso; auto|]. f_equal. auto. }
    rewrite E. cbn. apply Permutation_cons_append.
  - cbn. constructor. auto.
Qed.
Lemma get_del : forall A (l : list (name * A)) n m, n <> m -> get (del l m) n = get l n.
Proof.
  induction l as [|[k a] l IH]; intros n m H; cbn; auto. destruct (Nat.eqb_spec m k); cbn; destruct (Nat.eqb_spec n k); try congruence; auto.
Qed.
Lemma perm_removeAll : forall A ns (l : list (name * A)), NoDup (map fst l) -> NoDup ns ->
  Permutation (map snd l) (map snd (removeAll l ns) ++ flat_map (fun n => match get l n with Some a => [a] | None => [] end) ns).
Proof.
  unfold removeAll. induction ns as [|n ns IH]; intros l H N; cbn; [now rewrite app_nil_r|]. inversion N; subst.
  rewrite (perm_del _ l n H) at 1. rewrite (IH (del l n)); auto; [|now apply NoDup_del].
  rewrite <- app_assoc. apply Permutation_app_head. rewrite Permutation_app_comm. apply Permutation_app_head.
  assert (E : flat_map (fun m => match get (del l n) m with Some a => [a] | None => [] end) ns = flat_map (fun m => match get l m with Some a => [a] | None => [] end) ns).
  { clear - H2. induction ns as [|m ns IH]; auto. cbn. rewrite get_del by (intros ->; apply H2; now left). rewrite IH; auto. intros Hin; apply H2; now right. }
  now rewrite E.
Qed.

Lemma assignColl_ok : forall c fs dn l u, assignColl c dn fs = (l, Ok u) ->
  Forall2 (fun f o => getValue c (f_type f) (f_name f) = Ok o) fs l /\ NoDup (map (fun f => (f_type f, f_name f)) fs) /\ (forall f, In f fs -> ~ In (f_type f, f_name f) dn).
Proof.
  intros c. induction fs as [|f fs IH]; intros dn l u H; cbn in H.
  - injection H as <- <-. split; [constructor|split; [constructor|contradiction]].
  - match type of H with context [existsb ?g dn] => destruct (existsb g dn) eqn:Hex; [discriminate|] end.
    assert (Hdn : ~ In (f_type f, f_name f) dn).
    { intros Hin. assert (existsb (fun e => ftype_eqb (fst e) (f_type f) && Nat.eqb (snd e) (f_name f)) dn = true); [|congruence]. apply existsb_exists. eexists. split; [exact Hin|]. cbn.
      apply andb_true_intro. split; [now apply ftype_eqb_spec|apply Nat.eqb_refl]. }
    destruct (getValue c (f_type f) (f_name f)) as [o|e] eqn:Hg; [|discriminate]. destruct (f_set f); [|discriminate].
    destruct (assignColl c _ fs) as [l1 r1] eqn:Ha. injection H as <- ->. destruct (IH _ _ _ Ha) as (F & ND & Hni). split; [constructor; auto|]. split.
    + cbn. constructor; auto. intros Hin. apply in_map_iff in Hin. destruct Hin as (g & Hg' & Hin). apply (Hni g Hin). rewrite Hg'. now left.
    + intros g [<-|Hin]; auto. intros H. apply (Hni g Hin). now right.
Qed.
Lemma names_of_cons : forall t f fs, names_of t (map (fun f => (f_type f, f_name f)) (f :: fs)) = (if ftype_eqb (f_type f) t then [f_name f] else []) ++ names_of t (map (fun f => (f_type f, f_name f)) fs).
Proof. intros. unfold names_of. cbn. now destruct (ftype_eqb (f_type f) t). Qed.
Lemma names_of_NoDup : forall t fs, NoDup (map (fun f => (f_type f, f_name f)) fs) -> NoDup (names_of t (map (fun f => (f_type f, f_name f)) fs)).
Proof.
  intros t. induction fs as [|f fs IH]; intros H; [constructor|]. rewrite names_of_cons. inversion H; subst. destruct (ftype_eqb (f_type f) t) eqn:E; cbn; auto. constructor; auto.
  intros Hin. apply names_of_In in Hin. destruct Hin as (g & G1 & G2 & G3). apply H2. apply in_map_iff. exists g. split; auto. apply ftype_eqb_spec in E. congruence.
Qed.
Lemma owned_perm : forall c fs l, Forall2 (fun f o => getValue c (f_type f) (f_name f) = Ok o) fs l ->
  Permutation (owned fs l) (flat_map (fun n => match get (c_progs c) n with Some a => [a] | None => [] end) (names_of FProg (map (fun f => (f_type f, f_name f)) fs)) ++
                            flat_map (fun n => match get (c_maps c) n with Some a => [a] | None => [] end) (names_of FMap (map (fun f => (f_type f, f_name f)) fs))).
Proof.
  intros c fs l F. induction F as [|f o fs l H F IH]; [constructor|]. rewrite !names_of_cons. unfold owned in *. cbn [combine flat_map fst snd].
  destruct (f_type f); cbn in H |- *.
  - destruct (get (c_progs c) (f_name f)); [injection H as ->|discriminate]. cbn. constructor. exact IH.
  - destruct (get (c_maps c) (f_name f)); [injection H as ->|discriminate]. cbn. rewrite IH at 1. apply Permutation_middle.
  - exact IH.
Qed.

Lemma perm4 : forall A (a b c d : list A), Permutation ((a ++ b) ++ (c ++ d)) ((b ++ d) ++ (a ++ c)).
Proof. intros. rewrite (Permutation_app_comm a b), <- !app_assoc. apply Permutation_app_head. rewrite (app_assoc a c d). apply Permutation_app_comm. Qed.
Lemma run_op_perm : forall c o, wf_coll c -> wf_coll (fst (run_op c o)) /\ Permutation (closeColl c) (snd (run_op c o) ++ closeColl (fst (run_op c o))).
Proof.
  intros c o W. assert (Hp : forall x, Permutation (closeColl c) (snd x ++ closeColl (fst x)) -> NoDup (closeColl (fst x))).
  { intros x Hx. pose proof (Permutation_NoDup Hx (W_objs _ W)) as H. apply NoDup_app_iff in H. tauto. }
  destruct W as [W1 W2 W3]. destruct o as [fs|n|n]; cbn.
  - unfold assign. destruct (assignColl c [] fs) as [l [u|e]] eqn:Ha; cbn; [|split; [split; auto|apply Permutation_refl]].
    destruct (assignColl_ok _ _ _ _ _ Ha) as (F & ND & _). pose proof (owned_perm _ _ _ F) as O. fold (owned fs l).
    match goal with |- wf_coll ?c' /\ Permutation _ (?g ++ _) => specialize (Hp (c', g)) end. cbn [fst snd] in Hp.
    match type of Hp with ?P -> _ => assert (HP : P) end.
    { rewrite O. unfold closeColl. cbn [c_progs c_maps]. rewrite (perm_removeAll _ _ (c_progs c) W2 (names_of_NoDup FProg fs ND)) at 1. rewrite (perm_removeAll _ _ (c_maps c) W1 (names_of_NoDup FMap fs ND)) at 1.
      apply perm4. }
    split; [|exact HP]. split; cbn; try now apply NoDup_removeAll. auto.
  - pose proof (perm_del _ (c_maps c) n W1) as P. 
    match goal with |- wf_coll ?c' /\ Permutation _ (?g ++ _) => specialize (Hp (c', g)) end. cbn [fst snd] in Hp.
    match type of Hp with ?P -> _ => assert (HP : P) end.
    { unfold closeColl. cbn [c_progs c_maps]. rewrite P at 1. fold (given_of (get (c_maps c) n)). rewrite (Permutation_app_comm (map snd (del _ _))), app_assoc. rewrite (Permutation_app_comm (map snd (c_progs c))). now rewrite <- app_assoc. }
    split; [|exact HP]. split; cbn; auto. now apply NoDup_del.
  - pose proof (perm_del _ (c_progs c) n W2) as P. 
    match goal with |- wf_coll ?c' /\ Permutation _ (?g ++ _) => specialize (Hp (c', g)) end. cbn [fst snd] in Hp.
    match type of Hp with ?P -> _ => assert (HP : P) end.
    { unfold closeColl. cbn [c_progs c_maps]. rewrite P at 1. fold (given_of (get (c_progs c) n)). rewrite (Permutation_app_comm (map snd (del _ _))). now rewrite <- app_assoc. }
    split; [|exact HP]. split; cbn; auto. now apply NoDup_del.
Qed.
(** after any operations, Close closes exactly the objects which the caller hasn't received; nobody else owns them *)
Theorem collection_ownership : forall os c, wf_coll c ->
  Permutation (closeColl c) (snd (run_ops c os) ++ closeColl (fst (run_ops c os))) /\ NoDup (snd (run_ops c os) ++ closeColl (fst (run_ops c os))).
Proof.
  assert (G : forall os c, wf_coll c -> wf_coll (fst (run_ops c os)) /\ Permutation (closeColl c) (snd (run_ops c os) ++ closeColl (fst (run_ops c os)))).
  { induction os as [|o os IH]; intros c W; cbn; [split; auto|]. destruct (run_op_perm c o W) as [W1 P1]. destruct (run_op c o) as [c1 g1]. cbn in *.
    specialize (IH c1 W1). destruct (run_ops c1 os) as [c2 g2]. cbn in *. destruct IH as [W2 P2]. split; auto. rewrite P1, P2. now rewrite app_assoc. }
  intros os c W. destruct (G os c W) as [_ P]. split; auto. eapply Permutation_NoDup; [exact P|apply W].
Qed.
(** what NewCollection returns is such a collection *)
Theorem newCollection_wf : forall fails sp repl base os log progs maps vars, NoDup (o_populate os) ->
  newCollection fails sp repl base os = (log, Ok (progs, maps, vars)) -> wf_coll (mkColl progs maps vars).
Proof.
  intros fails sp repl base os log progs maps vars ND H. destruct (newCollection_success_owns _ _ _ _ _ _ _ _ _ ND H) as (_ & _ & _ & N1 & N2 & N3). split; auto.
  unfold closeColl. cbn. eapply Permutation_NoDup; [apply Permutation_app_comm|exact N1].
Qed.
(** Assign sets every field to the object of its type and name; a failed Assign and a Detach of something unknown give nothing away *)
Theorem assign_values : forall c fs c' l u, assign c fs = (c', l, Ok u) ->
  Forall2 (fun f o => In (f_name f, o) (match f_type f with FProg => c_progs c | FMap => c_maps c | FVar => c_vars c end)) fs l /\
  NoDup (map (fun f => (f_type f, f_name f)) fs) /\ (forall f, In f fs -> f_type f = FMap -> get (c_maps c') (f_name f) = None) /\
  (forall f, In f fs -> f_type f = FProg -> get (c_progs c') (f_name f) = None).
Proof.
  intros c fs c' l u H. unfold assign in H. destruct (assignColl c [] fs) as [l1 [u1|e]] eqn:Ha; [|discriminate]. injection H as <- <- <-. cbn [c_maps c_progs].
  destruct (assignColl_ok _ _ _ _ _ Ha) as (F & ND & _). split; [|split; [auto|split]].
  - eapply Forall2_impl; [|exact F]. intros f o Hg. unfold getValue in Hg. destruct (f_type f).
    + destruct (get (c_progs c) (f_name f)) eqn:E; [injection Hg as ->; now apply get_In|discriminate].
    + destruct (get (c_maps c) (f_name f)) eqn:E; [injection Hg as ->; now apply get_In|discriminate].
    + destruct (get (c_vars c) (f_name f)) eqn:E; [injection Hg as ->; now apply get_In|discriminate].
  - intros f Hf Ht. apply get_none. intros Hin. apply in_map_iff in Hin. destruct Hin as (e & He & Hin). apply In_removeAll in Hin. destruct Hin as [_ Hin]. apply Hin. apply names_of_In. eauto.
  - intros f Hf Ht. apply get_none. intros Hin. apply in_map_iff in Hin. destruct Hin as (e & He & Hin). apply In_removeAll in Hin. destruct Hin as [_ Hin]. apply Hin. apply names_of_In. eauto.
Qed.
Theorem assign_error_keeps : forall c fs c' l e, assign c fs = (c', l, Err e) -> c' = c.
Proof. intros c fs c' l e H. unfold assign in H. destruct (assignColl c [] fs) as [l1 [u1|e1]]; [discriminate|congruence]. Qed.

(** *** fields: without cycles, all tagged fields are found, in order *)
Inductive fields_of (h : heap) : nat -> list field -> Prop :=
| fields_node : forall n r, items_of h (hget h n) r -> fields_of h n r
with items_of (h : heap) : list item -> list field -> Prop :=
| items_nil : items_of h [] []
| items_tag : forall f l r, items_of h l r -> items_of h (ITagged f :: l) (f :: r)
| items_other : forall l r, items_of h l r -> items_of h (IOther :: l) r
| items_ptr : forall m a l r, fields_of h m a -> items_of h l r -> items_of h (IPtr (Some m) :: l) (a ++ r)
| items_struct : forall m a l r, fields_of h m a -> items_of h l r -> items_of h (IStruct m :: l) (a ++ r).
Scheme fields_mut := Minimality for fields_of Sort Prop with items_mut := Minimality for items_of Sort Prop.

Section Go.
  Variables (fuel : nat) (h : heap) (ty : nat -> nat).
  Fixpoint goItems (l : list item) : res ferr (list field) :=
    match l with
    | [] => Ok []
    | ITagged f :: l' => match goItems l' with Ok r => Ok (f :: r) | Err e => Err e end
    | IOther :: l' => goItems l'
    | IPtr None :: _ => Err FNil
    | IPtr (Some m) :: l' | IStruct m :: l' =>
        match ebpfFields fuel h ty [] m with
        | Err e => Err e
        | Ok a => match goItems l' with Ok r => Ok (a ++ r) | Err e => Err e end
        end
    end.
  Lemma ebpfFields_S : forall n, ebpfFields (S fuel) h ty [] n = goItems (hget h n).
  Proof. reflexivity. Qed.
End Go.
Lemma goItems_sound : forall fuel h ty, (forall n r, ebpfFields fuel h ty [] n = Ok r -> fields_of h n r) -> forall l r, goItems fuel h ty l = Ok r -> items_of h l r.
Proof.
  intros fuel h ty IH. induction l as [|i l IHl]; intros r H; cbn in H; [injection H as <-; constructor|]. destruct i as [f|[m|]|m|].
  - destruct (goItems fuel h ty l); [injection H as <-; constructor; auto|discriminate].
  - destruct (ebpfFields fuel h ty [] m) eqn:E; [|discriminate]. destruct (goItems fuel h ty l); [injection H as <-; constructor; auto|discriminate].
  - discriminate.
  - destruct (ebpfFields fuel h ty [] m) eqn:E; [|discriminate]. destruct (goItems fuel h ty l); [injection H as <-; constructor; auto|discriminate].
  - constructor. auto.
Qed.
Lemma ebpfFields_mono : forall fuel h ty n r, ebpfFields fuel h ty [] n = Ok r -> ebpfFields (S fuel) h ty [] n = Ok r.
Proof.
  induction fuel as [|fuel IH]; intros h ty n r H; [discriminate|]. rewrite ebpfFields_S in *. revert r H. generalize (hget h n). induction l as [|i l IHl]; intros r H; [exact H|].
  cbn [goItems] in *. destruct i as [f|[m|]|m|]; auto.
  - destruct (goItems fuel h ty l); [|discriminate]. now rewrite (IHl _ eq_refl).
  - destruct (ebpfFields fuel h ty [] m) eqn:E; [|discriminate]. rewrite (IH _ _ _ _ E). destruct (goItems fuel h ty l); [|discriminate]. now rewrite (IHl _ eq_refl).
  - destruct (ebpfFields fuel h ty [] m) eqn:E; [|discriminate]. rewrite (IH _ _ _ _ E). destruct (goItems fuel h ty l); [|discriminate]. now rewrite (IHl _ eq_refl).
Qed.
Lemma ebpfFields_le : forall f g h ty n r, f <= g -> ebpfFields f h ty [] n = Ok r -> ebpfFields g h ty [] n = Ok r.
Proof. intros f g h ty n r L H. induction L; auto. now apply ebpfFields_mono. Qed.
Lemma goItems_le : forall f g h ty l r, f <= g -> goItems f h ty l = Ok r -> goItems g h ty l = Ok r.
Proof.
  intros f g h ty l. induction l as [|i l IH]; intros r L H; [exact H|]. cbn [goItems] in *. destruct i as [t|[m|]|m|]; auto.
  - destruct (goItems f h ty l); [|discriminate]. now rewrite (IH _ L eq_refl).
  - destruct (ebpfFields f h ty [] m) eqn:E; [|discriminate]. rewrite (ebpfFields_le _ _ _ _ _ _ L E). destruct (goItems f h ty l); [|discriminate]. now rewrite (IH _ L eq_refl).
  - destruct (ebpfFields f h ty [] m) eqn:E; [|discriminate]. rewrite (ebpfFields_le _ _ _ _ _ _ L E). destruct (goItems f h ty l); [|discriminate]. now rewrite (IH _ L eq_refl).
Qed.
Theorem ebpfFields_correct : forall h ty n r, (exists fuel, ebpfFields fuel h ty [] n = Ok r) <-> fields_of h n r.
Proof.
  intros h ty n r. split.
  - intros [fuel H]. revert n r H. induction fuel as [|fuel IH]; intros n r H; [discriminate|]. rewrite ebpfFields_S in H. constructor. eapply goItems_sound; eauto.
  - revert n r. apply (fields_mut h (fun n r => exists fuel, ebpfFields fuel h ty [] n = Ok r) (fun l r => exists fuel, goItems fuel h ty l = Ok r)).
    + intros n r _ [fuel H]. exists (S fuel). exact H.
    + exists 0. reflexivity.
    + intros f l r _ [fuel H]. exists fuel. cbn. now rewrite H.
    + intros l r _ [fuel H]. exists fuel. exact H.
    + intros m a l r _ [f1 H1] _ [f2 H2]. exists (Nat.max f1 f2). cbn. rewrite (ebpfFields_le f1 _ _ _ _ _ (Nat.le_max_l _ _) H1), (goItems_le f2 _ _ _ _ _ (Nat.le_max_r _ _) H2). reflexivity.
    + intros m a l r _ [f1 H1] _ [f2 H2]. exists (Nat.max f1 f2). cbn. rewrite (ebpfFields_le f1 _ _ _ _ _ (Nat.le_max_l _ _) H1), (goItems_le f2 _ _ _ _ _ (Nat.le_max_r _ _) H2). reflexivity.
Qed.
(** a struct which points to itself makes Assign and LoadAndAssign recurse forever instead of "recursion on type" *)
Theorem ebpfFields_recursion_refuted : exists h ty, forall fuel, ebpfFields fuel h ty [] 0 = Err FDiverges.
Proof. exists [(0, [IPtr (Some 0)])], (fun n => n). induction fuel as [|fuel IH]; [reflexivity|]. rewrite ebpfFields_S. cbn [hget Nat.eqb goItems]. now rewrite IH. Qed.

(** *** Examples *)
Definition never (n : nat) : bool := false.
(** prog array 0 holds program 10, which uses the map of maps 1, whose element is the map 2; program 11 uses 2 and 3; 4 is a variable of 3 *)
Definition ex_spec : spec := mkSpec
  [(0, mkMapSpec OfProgs [(7%Z, VString 10)]); (1, mkMapSpec OfMaps [(0%Z, VString 2)]); (2, mkMapSpec Scalar [(5%Z, VData 6)]); (3, mkMapSpec Scalar [])]
  [(10, mkProgSpec false [mkInsn true (Some 1) 0]); (11, mkProgSpec false [mkInsn true (Some 2) 0; mkInsn false None 3; mkInsn true (Some 3) 0]); (12, mkProgSpec true [])]
  [(4, 3)].
Definition ex_orders : orders := mkOrders [2; 0; 1; 3] [11; 12; 10] [4] [1; 0; 2; 3].
Example ex_collection : newCollection never ex_spec [] 100 ex_orders =
  ([ECreateMap 2 100; EFinalize 100 [(5%Z, RData 6)]; ECreateMap 0 101; ECreateMap 1 102; ECreateMap 3 103; EFinalize 103 [];
    ECreateProg 11 104 [Some 100; None; Some 103]; ECreateProg 10 105 [Some 102]; EFinalize 102 [(0%Z, RMap 100)]; EFinalize 101 [(7%Z, RProg 105)]],
   Ok ([(11, 104); (10, 105)], [(2, 100); (0, 101); (1, 102); (3, 103)], [(4, 103)])).
Proof. vm_compute. reflexivity. Qed.
(** the last step fails: everything is closed *)
Example ex_collection_error : newCollection (Nat.eqb 13) ex_spec [(3, 5)] 100 ex_orders =
  ([ECreateMap 2 100; EFinalize 100 [(5%Z, RData 6)]; ECreateMap 0 101; ECreateMap 1 102; EClone 3 5 103;
    ECreateProg 11 104 [Some 100; None; Some 103]; ECreateProg 10 105 [Some 102]; EClose 100; EClose 101; EClose 102; EClose 103; EClose 104; EClose 105],
   Err (LFailed 14)).
Proof. vm_compute. reflexivity. Qed.
Example ex_assign : loadAndAssign never ex_spec [] 100 [mkField FProg 11 true; mkField FVar 4 true; mkField FMap 2 true] [3; 2] =
  ([ECreateMap 2 100; EFinalize 100 [(5%Z, RData 6)]; ECreateMap 3 101; EFinalize 101 []; ECreateProg 11 102 [Some 100; None; Some 101] ; EClose 101], [102; 101; 100], Ok tt).
Proof. vm_compute. reflexivity. Qed.
Example ex_needed : flat_map (needed_by ex_spec) [mkField FProg 11 true; mkField FVar 4 true; mkField FMap 2 true] = [2; 3; 3; 2].
Proof. reflexivity. Qed.
Example ex_unassigned : snd (loadAndAssign never ex_spec [] 100 [mkField FProg 10 true; mkField FMap 0 true] [0; 1]) = Ok tt.
Proof. vm_compute. reflexivity. Qed.
(** ownership: after Assign of the program 11 and DetachMap of 2, Close closes the other four *)
Example ex_ownership : run_ops (mkColl [(11, 104); (10, 105)] [(2, 100); (0, 101); (1, 102); (3, 103)] [(4, 103)]) [OAssign [mkField FProg 11 true; mkField FVar 4 true]; ODetachMap 2; OAssign [mkField FMap 2 true]; ODetachProgram 77] =
  (mkColl [(10, 105)] [(0, 101); (1, 102); (3, 103)] [], [104; 100]).
Proof. reflexivity. Qed.

(** ** C68: what doesn't hold for LoadAndAssign *)
(** A map of maps which is loaded while cl.maps is being populated is populated or not, depending on the order in which Go iterates:
    both orders name only maps which exist at that point, and all which exist at the start.  If it isn't, the program which has been
    put into the program array finds an empty map. *)
Definition lazy_spec : spec := mkSpec [(0, mkMapSpec OfProgs [(7%Z, VString 10)]); (1, mkMapSpec OfMaps [(0%Z, VString 2)]); (2, mkMapSpec Scalar [])] [(10, mkProgSpec false [mkInsn true (Some 1) 0])] [].
Theorem loadAndAssign_lazy_populate_refuted :
  flat_map (needed_by lazy_spec) [mkField FMap 0 true] = [0] /\
  exists log1 log2,
    loadAndAssign never lazy_spec [] 100 [mkField FMap 0 true] [0] = (log1, [100], Ok tt) /\
    loadAndAssign never lazy_spec [] 100 [mkField FMap 0 true] [0; 1] = (log2, [100], Ok tt) /\
    (In (1, 101) (created_maps log1) /\ In (ECreateProg 10 102 [Some 101]) log1 /\ In (EFinalize 100 [(7%Z, RProg 102)]) log1 /\ ~ In 101 (finalized log1)) /\
    (In (1, 101) (created_maps log2) /\ In (ECreateProg 10 102 [Some 101]) log2 /\ In (EFinalize 100 [(7%Z, RProg 102)]) log2 /\ In (EFinalize 101 [(0%Z, RMap 103)]) log2).
Proof.
  split; [reflexivity|]. do 2 eexists. split; [vm_compute; reflexivity|]. split; [vm_compute; reflexivity|]. cbn.
  repeat split; try tauto. intros [H|H]; [discriminate|contradiction].
Qed.
(** The documentation says that objects are loaded and populated before the struct is updated.  But a failure to populate leaves
    objects in the struct which are closed. *)
Theorem loadAndAssign_error_fields_refuted : exists fails log l e,
  loadAndAssign fails lazy_spec [] 100 [mkField FMap 0 true] [0] = (log, l, Err e) /\ l = [100] /\ In 100 (closed log).
Proof. exists (Nat.eqb 3). do 3 eexists. split; [vm_compute; reflexivity|]. split; [reflexivity|cbn; auto]. Qed.
(** Contents are put into a replacement map of the user if it is a map of maps or programs, but not into other maps *)
Theorem replacement_populated_refuted : exists log r,
  newCollection never (mkSpec [(0, mkMapSpec OfProgs [(7%Z, VString 10)]); (2, mkMapSpec Scalar [(5%Z, VData 6)])] [(10, mkProgSpec false [])] []) [(0, 8); (2, 9)] 100 (mkOrders [0; 2] [10] [] [0; 2]) = (log, Ok r) /\
  In (EClone 0 8 100) log /\ In (EFinalize 100 [(7%Z, RProg 102)]) log /\ In (EClone 2 9 101) log /\ ~ In 101 (finalized log).
Proof. do 2 eexists. split; [vm_compute; reflexivity|]. cbn. repeat split; try tauto. intros [H|[]]. discriminate. Qed.

