(** Proofs about the builder and the encoder: IDs. *)
From Coq Require Import ZArith List Lia Bool.
From Verif.Base Require Import GoInt ListExtra.
From Verif.Btf Require Import Strings StringsProof Wire WireSpec Types TypesSpec TypesProof PropsTypes Encode EncodeSpec.
Import ListNotations.
Open Scope Z_scope.

(** ** Builder *)
Lemma firsts_In l x : In x (firsts l) <-> In x l.
Proof.
  induction l as [|y l IH]; [reflexivity|]. cbn [firsts In]. rewrite filter_In, IH. destruct (ref_eq_dec y x) as [E|E].
  - tauto.
  - split; [tauto|]. intros [?|H]; [contradiction|]. right. split; [exact H|]. unfold ref_eqb. destruct (ref_eq_dec y x); [contradiction|reflexivity].
Qed.
Lemma firsts_NoDup l : NoDup (firsts l).
Proof.
  induction l as [|y l IH]; [constructor|]. cbn [firsts]. constructor; [|now apply NoDup_filter].
  rewrite filter_In. intros (_ & H). unfold ref_eqb in H. destruct (ref_eq_dec y y); [discriminate|contradiction].
Qed.
Lemma filter_app' {A} (f : A -> bool) a b : filter f (a ++ b) = filter f a ++ filter f b.
Proof. induction a as [|x a IH]; [reflexivity|]. cbn. rewrite IH. destruct (f x); reflexivity. Qed.
Lemma firsts_snoc l x : firsts (l ++ [x]) = if ref_in x l then firsts l else firsts l ++ [x].
Proof.
  induction l as [|y l IH]; [reflexivity|]. cbn [app firsts ref_in existsb]. rewrite IH. fold (ref_in x l).
  unfold ref_eqb at 2. destruct (ref_eq_dec x y) as [->|N]; cbn [orb].
  - destruct (ref_in y l) eqn:I; [reflexivity|]. rewrite filter_app'. cbn [filter]. unfold ref_eqb at 2. destruct (ref_eq_dec y y); [|contradiction]. cbn. now rewrite app_nil_r.
  - destruct (ref_in x l) eqn:I; [reflexivity|]. rewrite filter_app'. cbn [filter]. unfold ref_eqb at 2. destruct (ref_eq_dec y x); [congruence|]. reflexivity.
Qed.
Lemma firsts_app_prefix l m : exists x, firsts (l ++ m) = firsts l ++ x.
Proof.
  induction m as [|y m IH] using rev_ind; [exists []; now rewrite !app_nil_r|]. destruct IH as (x & E). rewrite app_assoc, firsts_snoc, E.
  destruct (ref_in y (l ++ m)); [eauto|]. exists (x ++ [y]). now rewrite app_assoc.
Qed.
Lemma firsts_length l m : (length (firsts l) <= length (firsts (l ++ m)))%nat.
Proof. destruct (firsts_app_prefix l m) as (x & ->). rewrite app_length. lia. Qed.

(** the types are numbered in the order in which they were added *)
Definition numbered (ids : list (ref * Z)) (types : list ref) : Prop :=
  forall r i, id_of ids r = Some i <-> 1 <= i /\ nth_error types (Z.to_nat (i - 1)) = Some r.
Definition added_so_far (b : bldr) (L : list ref) : Prop := bd_types b = firsts L /\ numbered (bd_ids b) (bd_types b).

Lemma nth_snoc {A} (l : list A) x k y : nth_error (l ++ [x]) k = Some y <-> nth_error l k = Some y \/ k = length l /\ x = y.
Proof.
  destruct (Nat.lt_ge_cases k (length l)) as [H|H].
  - rewrite nth_error_app1 by exact H. split; [auto|]. intros [?|(-> & _)]; [assumption|lia].
  - rewrite nth_error_app2 by exact H. assert (E : nth_error l k = None) by now apply nth_error_None. rewrite E. split.
    + intros X. right. destruct (k - length l)%nat as [|d] eqn:D; [|destruct d; discriminate X]. inversion X. split; [lia|reflexivity].
    + intros [X|(-> & ->)]; [discriminate X|]. now rewrite Nat.sub_diag.
Qed.
Lemma numbered_new ids types t : numbered ids types -> id_of ids t = None -> numbered ((t, Z.of_nat (length types) + 1) :: ids) (types ++ [t]).
Proof.
  intros N E r i. cbn [id_of]. rewrite nth_snoc. destruct (ref_eq_dec t r) as [->|Ne].
  - split.
    + intros X. inversion X. split; [lia|]. right. split; [|reflexivity]. lia.
    + intros (H & [X|(X & _)]); [|f_equal; lia]. assert (id_of ids r = Some i) by (apply N; auto). congruence.
  - rewrite (N r i). split; [tauto|]. intros (H & [X|(_ & X)]); [auto|congruence].
Qed.
Lemma add_type_ok b L t b' r : added_so_far b L -> Z.of_nat (length (firsts (L ++ [t]))) < 2 ^ 32 -> add_type b t = (b', r) ->
  added_so_far b' (L ++ [t]) /\ bd_strings b' = bd_strings b /\ exists i, r = Ok i /\ id_of (bd_ids b') t = Some i.
Proof.
  intros (T & N) B E. unfold add_type in E. rewrite firsts_snoc in B. unfold added_so_far. rewrite firsts_snoc.
  assert (X : In t (bd_types b) <-> exists i, id_of (bd_ids b) t = Some i).
  { split.
    - intros H. apply In_nth_error in H as (k & H). exists (Z.of_nat k + 1). apply N. split; [lia|]. replace (Z.to_nat _) with k by lia. exact H.
    - intros (i & H). apply N in H as (_ & H). eapply nth_error_In, H. }
  rewrite T, firsts_In in X.
  destruct (id_of (bd_ids b) t) as [i|] eqn:F.
  - injection E as <- <-. assert (I : ref_in t L = true) by (apply ref_in_In, X; eauto). rewrite I. split; [split; assumption|]. eauto.
  - assert (I : ref_in t L = false) by (apply ref_in_false; intros H; apply X in H as (i & H); discriminate H). rewrite I in *.
    rewrite app_length in E, B. cbn [length] in E, B. rewrite T in E.
    assert (U : u32 (Z.of_nat (length (firsts L) + 1)) = Z.of_nat (length (firsts L)) + 1) by (unfold u32; rewrite wrapu_id; [lia|unfold in_u; lia]).
    rewrite U in E. destruct (Z.eqb_spec (Z.of_nat (length (firsts L)) + 1) (Z.of_nat (length (firsts L) + 1))) as [_|X2]; [|lia]. cbn [negb] in E. injection E as <- <-.
    cbn [bd_types bd_ids bd_strings]. split; [split; [reflexivity|]|split; [reflexivity|]].
    + rewrite <- T in *. now apply numbered_new.
    + exists (Z.of_nat (length (firsts L)) + 1). split; [reflexivity|]. cbn [id_of]. destruct (ref_eq_dec t t); [reflexivity|contradiction].
Qed.
Lemma firsts_bound L x m : Z.of_nat (length (firsts (L ++ x ++ m))) < 2 ^ 32 -> Z.of_nat (length (firsts (L ++ x))) < 2 ^ 32.
Proof. rewrite app_assoc. pose proof (firsts_length (L ++ x) m). lia. Qed.
Lemma workaround_ok h vars : forall b L b' r, added_so_far b L -> Z.of_nat (length (firsts (L ++ filter (qualified h) (var_types h vars)))) < 2 ^ 32 ->
  workaround h b vars = (b', r) -> r = None /\ added_so_far b' (L ++ filter (qualified h) (var_types h vars)) /\ bd_strings b' = bd_strings b.
Proof.
  induction vars as [|v vars IH]; intros b L b' r A B E; cbn [workaround] in E.
  - injection E as <- <-. cbn. rewrite app_nil_r. auto.
  - unfold workaround_type in E. unfold var_types in *. cbn [flat_map] in *. rewrite filter_app' in *.
    destruct (deref h (vs_type v)) as [[]|]; cbn [filter app] in *; try exact (IH _ _ _ _ A B E).
    unfold qualified in B at 1. unfold qualified at 1.
    assert (Q : forall t', (let '(b0, r0) := add_type b t' in match r0 with Ok _ => workaround h b0 vars | Err e => (b0, Some e) end) = (b', r) ->
      Z.of_nat (length (firsts (L ++ [t'] ++ filter (qualified h) (flat_map (fun v => match deref h (vs_type v) with Some (NVar _ t _ _) => [t] | _ => [] end) vars)))) < 2 ^ 32 ->
      r = None /\ added_so_far b' (L ++ [t'] ++ filter (qualified h) (flat_map (fun v => match deref h (vs_type v) with Some (NVar _ t _ _) => [t] | _ => [] end) vars)) /\ bd_strings b' = bd_strings b).
    { intros t' E' B'. destruct (add_type b t') as [b1 r1] eqn:Ea. destruct (add_type_ok b L t' b1 r1 A (firsts_bound _ _ _ B') Ea) as (A1 & S1 & i & -> & _).
      rewrite app_assoc in *. destruct (IH _ _ _ _ A1 B' E') as (-> & A2 & S2). split; [reflexivity|]. split; [exact A2|congruence]. }
    destruct (deref h t) as [[]|]; cbn [app] in *; try exact (IH _ _ _ _ A B E); apply Q; assumption.
Qed.

(** what a history adds, in order *)
Definition op_added (h : heap) (o : op) : list ref := match o with OAdd t => added h t | OString _ => [] end.
Definition ops_added (h : heap) (ops : list op) : list ref := concat (map (op_added h) ops).

Lemma apply_ok h b L o b' r : added_so_far b L -> Z.of_nat (length (firsts (L ++ op_added h o))) < 2 ^ 32 -> apply_op h b o = (b', r) ->
  added_so_far b' (L ++ op_added h o) /\
  match o with
  | OAdd RNil => r = Err NilType
  | OAdd RVoid => r = Ok 0
  | OAdd t => exists i, r = Ok i /\ id_of (bd_ids b') t = Some i
  | OString _ => bd_types b' = bd_types b
  end.
Proof.
  intros A B E. destruct o as [t|s]; cbn [op_added apply_op] in *.
  - destruct t as [| |a]; cbn [added Add] in *.
    + injection E as <- <-. now rewrite app_nil_r.
    + injection E as <- <-. now rewrite app_nil_r.
    + destruct (deref h (RPtr a)) as [[]|];
        try (cbn [app] in *; destruct (add_type_ok b L _ b' r A B E) as (A' & _ & i & -> & I); split; [exact A'|eauto]).
      destruct (workaround h b vars) as [b1 r1] eqn:W. rewrite app_assoc in *. destruct (workaround_ok h vars b L b1 r1 A) as (-> & A1 & _); [eapply Z.le_lt_trans; [|exact B]; apply inj_le, firsts_length|exact W|].
      destruct (add_type_ok b1 _ _ b' r A1 B E) as (A' & _ & i & -> & I). split; [exact A'|eauto].
  - unfold addString in E. destruct (b_add _ s) as [r1 st]. injection E as <- <-. rewrite app_nil_r. split; [exact A|reflexivity].
Qed.
Lemma id_stable h : forall ops b L b' rs, added_so_far b L -> Z.of_nat (length (firsts (L ++ ops_added h ops))) < 2 ^ 32 -> run h b ops = (b', rs) ->
  added_so_far b' (L ++ ops_added h ops) /\ (forall t i, id_of (bd_ids b) t = Some i -> id_of (bd_ids b') t = Some i) /\
  Forall2 (fun o r => match o with
                      | OAdd RNil => r = Err NilType
                      | OAdd RVoid => r = Ok 0
                      | OAdd t => exists i, r = Ok i /\ id_of (bd_ids b') t = Some i
                      | OString _ => True
                      end) ops rs.
Proof.
  induction ops as [|o ops IH]; intros b L b' rs A B E; cbn [run] in E.
  - injection E as <- <-. unfold ops_added. cbn. rewrite app_nil_r. split; [exact A|]. split; [auto|constructor].
  - unfold ops_added in *. cbn [map concat] in *. destruct (apply_op h b o) as [b1 r] eqn:E1. destruct (run h b1 ops) as [b2 rs2] eqn:E2. injection E as <- <-.
    destruct (apply_ok h b L o b1 r A (firsts_bound _ _ _ B) E1) as (A1 & R1). rewrite app_assoc in *. destruct (IH _ _ _ _ A1 B E2) as (A2 & M2 & F2).
    split; [exact A2|]. split.
    + intros t i H. apply M2. destruct A as (T & N), A1 as (T1 & N1). apply N in H as (H1 & H2). apply N1. split; [exact H1|].
      rewrite T1. rewrite T in H2. destruct (firsts_app_prefix L (op_added h o)) as (x & ->). rewrite nth_error_app1; [exact H2|]. apply nth_error_Some. congruence.
    + constructor; [|exact F2]. destruct o as [[| |a]|s]; try exact R1; [|exact I]. destruct R1 as (i & -> & R1). eauto.
Qed.
Lemma empty_added : added_so_far emptyBuilder [].
Proof. split; [reflexivity|]. intros r i. cbn. split; [discriminate|]. intros (_ & H). destruct (Z.to_nat (i - 1)); discriminate H. Qed.
