(** C31: decoding terminates, preserves sharing, resolves references and reports malformed types.
    C32: what survives of independence from earlier failed queries, and what doesn't. *)
From Coq Require Import ZArith List Lia Bool.
From Verif.Base Require Import GoInt ListExtra.
From Verif.Btf Require Import Wire WireSpec WireProof Types TypesSpec TypesProof Decode DecodeSpec DecodeRec DecodeTags DecodeProof PropsWire.
Import ListNotations.
Open Scope Z_scope.

Section Histories.
  Variable nm : Z -> option str.
  Variable recs : list wrec.
  Hypothesis Hok : Forall rec_ok recs.

  Lemma fresh_inv : Inv nm recs fresh /\ GoodC nm recs fresh [] /\ Clean nm recs fresh [].
  Proof. split; [constructor; cbn; try discriminate; intros ? ? []|]. split; intros j a E; discriminate E. Qed.
  Lemma one_query st id : Inv nm recs st -> GoodC nm recs st [] -> exists st' r, TypeByID nm recs st id = Some (st', r) /\ Post nm recs st [] id st' r.
  Proof.
    intros I G. unfold TypeByID. apply (works nm recs Hok); auto; [intros s []|]. pose proof (unc_max recs (d_types st)). lia.
  Qed.
  Lemma many_queries : forall ids st, Inv nm recs st -> GoodC nm recs st [] -> exists st' rs, queries nm recs st ids = Some (st', rs) /\
    Inv nm recs st' /\ GoodC nm recs st' [] /\ Ext st st' /\ (Clean nm recs st [] -> ~ In None rs -> Clean nm recs st' []) /\
    Forall2 (fun id r => forall x, r = Some x -> x = addr st' id /\ cached st' id /\ In (x, id) (d_ids st')) ids rs.
  Proof.
    induction ids as [|id ids IH]; intros st I G; cbn [queries].
    - exists st, []. split; [reflexivity|]. split; [exact I|]. split; [exact G|]. split; [apply Ext_refl|]. split; [auto|constructor].
    - destruct (one_query st id I G) as (st1 & r & E & [I1 E1 G1 T1 V1 C1]). rewrite E. destruct (IH st1 I1 G1) as (st2 & rs & E' & I2 & G2 & E2 & C2 & F). rewrite E'.
      exists st2, (r :: rs). split; [reflexivity|]. split; [exact I2|]. split; [exact G2|]. split; [eapply Ext_trans; eassumption|]. split.
      + intros C N. apply C2; [apply C1; [exact C|]|]; intros X; apply N; [left; exact X|right; exact X].
      + constructor; [|exact F]. intros x Ex. destruct (V1 x Ex) as (A & B & D). destruct (cached_ext _ _ _ E2 B) as (B' & A').
        split; [congruence|]. split; [exact B'|]. now apply (e_ids _ _ E2).
  Qed.
  Lemma reachable ids st rs : queries nm recs fresh ids = Some (st, rs) -> Inv nm recs st /\ GoodC nm recs st [] /\ (~ In None rs -> Clean nm recs st []) /\
    Forall2 (fun id r => forall x, r = Some x -> x = addr st id /\ cached st id /\ In (x, id) (d_ids st)) ids rs.
  Proof.
    intros E. destruct fresh_inv as (I & G & C). destruct (many_queries ids fresh I G) as (st' & rs' & E' & I' & G' & _ & C' & F). rewrite E in E'.
    assert (st' = st) by congruence. assert (rs' = rs) by congruence. subst. auto.
  Qed.
  Lemma answered ids rs st id x : Forall2 (fun id r => forall x, r = Some x -> x = addr st id /\ cached st id /\ In (x, id) (d_ids st)) ids rs ->
    In (id, Some x) (combine ids rs) -> x = addr st id /\ cached st id /\ In (x, id) (d_ids st).
  Proof. induction 1 as [|i r ids rs H F IH]; [intros []|]. intros [E|E]; [|auto]. inversion E; subst. auto. Qed.
End Histories.

(** ** C31 *)
(** Every history of queries, on every section of whole records, comes to an end with one answer per query. *)
Theorem C31_terminates : forall nm recs ids, Forall rec_ok recs -> exists st rs, queries nm recs fresh ids = Some (st, rs) /\ length rs = length ids.
Proof.
  intros nm recs ids Hok. destruct (fresh_inv nm recs) as (I & G & _). destruct (many_queries nm recs Hok ids fresh I G) as (st & rs & E & _ & _ & _ & _ & F).
  exists st, rs. split; [exact E|]. symmetry. clear -F. induction F; cbn; auto.
Qed.
(** ... in particular for every type section read from bytes *)
Theorem C31_terminates_bytes : forall nm bo buf recs ids, bytes_ok buf -> readRecs bo buf = Ok recs ->
  exists st rs, queries nm recs fresh ids = Some (st, rs) /\ length rs = length ids.
Proof. intros nm bo buf recs ids B E. apply C31_terminates. eapply readRecs_sound; eassumption. Qed.

(** The object handed out for an ID never changes: later answers for the same ID are the same object, different IDs
    have different objects, the answer is recorded for TypeID, and no later query changes any object. *)
Theorem C31_sharing : forall nm recs ids st rs id id' x x', Forall rec_ok recs -> queries nm recs fresh ids = Some (st, rs) ->
  In (id, Some x) (combine ids rs) -> In (id', Some x') (combine ids rs) -> id = id' <-> x = x'.
Proof.
  intros nm recs ids st rs id id' x x' Hok Q A A'. destruct (reachable _ _ Hok _ _ _ Q) as (I & _ & _ & F).
  destruct (answered _ _ _ _ _ F A) as (E & C & _), (answered _ _ _ _ _ F A') as (E' & C' & _). split; [intros ->; congruence|]. intros Ex. rewrite E, E' in Ex. clear -I C C' Ex.
  unfold addr in Ex. destruct (Z.eqb_spec id 0) as [->|N], (Z.eqb_spec id' 0) as [->|N']; [reflexivity|..].
  - destruct (assoc (d_types st) id'); discriminate Ex.
  - destruct (assoc (d_types st) id); discriminate Ex.
  - destruct C as [|(a & A)]; [contradiction|]. destruct C' as [|(a' & A')]; [contradiction|]. rewrite A, A' in Ex. inversion Ex; subst. eapply i_inj; eassumption.
Qed.
Theorem C31_immutable : forall nm recs ids st rs id st' r, Forall rec_ok recs -> queries nm recs fresh ids = Some (st, rs) ->
  TypeByID nm recs st id = Some (st', r) -> exists new, d_heap st' = d_heap st ++ new.
Proof.
  intros nm recs ids st rs id st' r Hok Q E. destruct (reachable _ _ Hok _ _ _ Q) as (I & G & _). destruct (one_query _ _ Hok st id I G) as (st1 & r1 & E1 & P). rewrite E in E1.
  assert (st1 = st') by congruence. subst. apply (po_ext _ _ _ _ _ _ _ P).
Qed.
Lemma find_id_spec l r : forall id, find_id l r = Some id -> In (r, id) l.
Proof. induction l as [|[k v] l IH]; cbn; [discriminate|]. intros id. destruct (ref_eq_dec k r) as [->|]; [intros E; inversion E; now left|right; auto]. Qed.
Lemma find_id_some l r id : In (r, id) l -> exists id', find_id l r = Some id'.
Proof. induction l as [|[k v] l IH]; cbn; [intros []|]. destruct (ref_eq_dec k r) as [->|N]; [eauto|]. intros [E|H]; [congruence|auto]. Qed.
Theorem C31_type_id : forall nm recs ids st rs id x, Forall rec_ok recs -> queries nm recs fresh ids = Some (st, rs) ->
  In (id, Some x) (combine ids rs) -> TypeID st x = Some id.
Proof.
  intros nm recs ids st rs id x Hok Q A. destruct (reachable _ _ Hok _ _ _ Q) as (I & _ & _ & F). destruct (answered _ _ _ _ _ F A) as (E & C & J).
  unfold addr in E. destruct (Z.eqb_spec id 0) as [->|N]; [now rewrite E|]. destruct C as [|(a & Aa)]; [contradiction|]. rewrite Aa in E. subst x. cbn.
  destruct (find_id_some _ _ _ J) as (id' & E). rewrite E. apply find_id_spec in E. f_equal. now apply (proj2 (proj2 (i_ids _ _ _ I a id J))).
Qed.

Lemma requires_zero nm recs t : requires nm recs 0 t -> tags_type recs 0 t.
Proof. intros [(r & n & ids & (X & _) & _)|H]; [lia|exact H]. Qed.
(** A type all of whose needed records are well formed is decoded after every history, failures included.  The result is
    the graph the section describes: there is one object per needed ID, Void for 0, and the object of each needed ID has
    the contents of its record, its references being the objects of the IDs referred to, and its decl tags.
    (Decl tags of void don't make sense and are ignored: [needs] doesn't go through them if there are none.) *)
Theorem C31_resolves : forall nm recs ids st rs id, Forall rec_ok recs -> queries nm recs fresh ids = Some (st, rs) ->
  all_sound nm recs id -> protos_first nm recs id -> (forall t, ~ tags_type recs 0 t) ->
  exists st' x f, TypeByID nm recs st id = Some (st', Some x) /\ f id = x /\ f 0 = RVoid /\
    (forall j k, needs nm recs id j -> needs nm recs id k -> f j = f k -> j = k) /\
    forall j, needs nm recs id j -> j = 0 \/ decoded nm recs (d_heap st') f j.
Proof.
  intros nm recs ids st rs id Hok Q Sd Pf T0. destruct (reachable _ _ Hok _ _ _ Q) as (I & G & _). destruct (one_query _ _ Hok st id I G) as (st' & r & E & [I' E' G' T V _]).
  assert (Gd : good nm recs id) by (split; assumption). destruct r as [x|]; [|destruct (T Gd eq_refl)]. destruct (V x eq_refl) as (Ex & Cx & _).
  exists st', x, (addr st'). split; [exact E|]. split; [congruence|]. split; [reflexivity|].
  assert (Ca : forall j, needs nm recs id j -> cached st' j).
  { clear - G' Gd Cx T0. intros j N. revert Gd Cx. induction N as [|x y z R N IH]; [auto|]. intros Gd [->|(a & A)]; [destruct (T0 y); now apply requires_zero in R|].
    apply IH; [eapply good_needs; [exact Gd|]; econstructor; [exact R|constructor]|]. apply (G' x a); auto. }
  split.
  - intros j k Hj Hk Ejk. apply Ca in Hj, Hk. clear -I' Hj Hk Ejk. unfold addr in Ejk. destruct (Z.eqb_spec j 0) as [->|N], (Z.eqb_spec k 0) as [->|N']; [reflexivity|..].
    + destruct (assoc (d_types st') k); [discriminate Ejk|]. destruct Hk as [|(a & A)]; congruence.
    + destruct (assoc (d_types st') j); [discriminate Ejk|]. destruct Hj as [|(a & A)]; congruence.
    + destruct Hj as [|(a & A)]; [contradiction|]. destruct Hk as [|(a' & A')]; [contradiction|]. rewrite A, A' in Ejk. inversion Ejk; subst. eapply i_inj; eassumption.
  - intros j Hj. destruct (Ca j Hj) as [->|(a & A)]; [now left|]. right. apply (G' j a A (fun f => f)). eapply good_needs; eassumption.
Qed.
(** As long as no query has failed, a query succeeds only if everything it needs is well formed: references to unknown
    IDs, dangling names, malformed tags are errors. *)
Theorem C31_errors : forall nm recs ids st rs id st' x, Forall rec_ok recs -> queries nm recs fresh ids = Some (st, rs) -> ~ In None rs ->
  (forall t, ~ tags_type recs 0 t) -> TypeByID nm recs st id = Some (st', Some x) -> all_sound nm recs id.
Proof.
  intros nm recs ids st rs id st' x Hok Q Nn T0 E. destruct (reachable _ _ Hok _ _ _ Q) as (I & G & C & _). destruct (one_query _ _ Hok st id I G) as (st1 & r1 & E1 & [I' E' G' T V Cl]). rewrite E in E1.
  assert (st1 = st') by congruence. assert (r1 = Some x) by congruence. subst st1 r1. destruct (V x eq_refl) as (_ & Cx & _). specialize (Cl (C Nn) ltac:(discriminate)).
  intros j N. assert (Cj : cached st' j).
  { revert Cx. clear - N Cl T0. induction N as [|y z w R N IH]; [auto|]. intros [->|(a & A)]; [destruct (T0 z); now apply requires_zero in R|]. apply IH. apply (Cl y a A (fun f => f)). exact R. }
  destruct Cj as [->|(a & A)]; [now left|]. apply (Cl j a A (fun f => f)).
Qed.
(** what "well formed" excludes: a reference to an unknown ID *)
Theorem C31_unknown_reference : forall nm recs id j, needs nm recs id j -> j <> 0 -> (forall r, ~ record recs j r) -> ~ all_sound nm recs id.
Proof. intros nm recs id j N Z R A. destruct (A j N) as [|(r & n & ids & l & np & X & _)]; [contradiction|]. exact (R _ X). Qed.

(** ** C32 *)
(** For well formed types, the answer is the same graph up to the identity of objects whatever the history. *)
Theorem C32_well_formed_partial : forall nm recs ids1 st1 rs1 ids2 st2 rs2 id, Forall rec_ok recs ->
  queries nm recs fresh ids1 = Some (st1, rs1) -> queries nm recs fresh ids2 = Some (st2, rs2) ->
  all_sound nm recs id -> protos_first nm recs id -> (forall t, ~ tags_type recs 0 t) ->
  exists st1' x1 f1 st2' x2 f2, TypeByID nm recs st1 id = Some (st1', Some x1) /\ TypeByID nm recs st2 id = Some (st2', Some x2) /\
    f1 id = x1 /\ f2 id = x2 /\ forall j, needs nm recs id j -> j = 0 \/ decoded nm recs (d_heap st1') f1 j /\ decoded nm recs (d_heap st2') f2 j.
Proof.
  intros nm recs ids1 st1 rs1 ids2 st2 rs2 id Hok Q1 Q2 A P T0.
  destruct (C31_resolves _ _ _ _ _ _ Hok Q1 A P T0) as (st1' & x1 & f1 & E1 & F1 & _ & _ & D1), (C31_resolves _ _ _ _ _ _ Hok Q2 A P T0) as (st2' & x2 & f2 & E2 & F2 & _ & _ & D2).
  exists st1', x1, f1, st2', x2, f2. repeat (split; [assumption|]). intros j N. destruct (D1 j N), (D2 j N); auto.
Qed.
(** After a history without failures, what is handed out is never partial (C31_errors) and, for sections in which no
    prototype needs a tagged function of that prototype, success is decided by the section alone. *)
Theorem C32_no_failures_partial : forall nm recs ids st rs id, Forall rec_ok recs -> queries nm recs fresh ids = Some (st, rs) -> ~ In None rs ->
  protos_first nm recs id -> (forall t, ~ tags_type recs 0 t) ->
  (exists st' x, TypeByID nm recs st id = Some (st', Some x)) <-> all_sound nm recs id.
Proof.
  intros nm recs ids st rs id Hok Q Nn P T0. split; [intros (st' & x & E); eapply C31_errors; eassumption|].
  intros A. destruct (C31_resolves _ _ _ _ _ _ Hok Q A P T0) as (st' & x & f & E & _). eauto.
Qed.
(** The full property is false: struct A { struct A *next; bad }, where the type of bad doesn't exist.  Querying the
    pointer fails, unless A has been queried before, which fails too. Then it yields a pointer to a struct without members. *)
Definition some_name : Z -> option str := fun o => if o =? 0 then Some [] else if o =? 1 then Some [65] else if o =? 2 then Some [110] else None.
Definition bad_recs : list wrec :=
  [mkRec (mkBtfType 1 (4 * 2 ^ 24 + 2) 16) [2; 2; 0; 2; 9; 64];   (* 1: struct A { n: 2; n: 9 } *)
   mkRec (mkBtfType 0 (2 * 2 ^ 24) 1) []].                        (* 2: pointer to 1 *)
Theorem C32_refuted : Forall rec_ok bad_recs /\
  (exists st, queries some_name bad_recs fresh [2] = Some (st, [None])) /\
  (exists st, queries some_name bad_recs fresh [1; 2] = Some (st, [None; Some (RPtr 1)]) /\
     nth_error (d_heap st) 1 = Some (NPtr (RPtr 0)) /\ nth_error (d_heap st) 0 = Some (NStruct [65] 16 [] [])).
Proof.
  split; [repeat (apply Forall_cons; [split; [unfold type_ranges, in_u; cbn; lia|split; [apply DataLen_aux; reflexivity|repeat constructor; unfold in_u; cbn; lia]]|]); constructor|].
  split; eexists; [vm_compute; reflexivity|]. split; [vm_compute; reflexivity|]. split; reflexivity.
Qed.

(** struct A { struct A *n; int n:3 } with a decl tag "n" on the first member, and a function with a tagged parameter *)
Definition ok_recs : list wrec :=
  [mkRec (mkBtfType 1 (4 * 2 ^ 24 + 2) 16) [2; 2; 0; 2; 4; 64];   (* 1 *)
   mkRec (mkBtfType 0 (2 * 2 ^ 24) 1) [];                         (* 2: pointer to 1 *)
   mkRec (mkBtfType 2 (17 * 2 ^ 24) 1) [0];                       (* 3: decl tag of member 0 of 1 *)
   mkRec (mkBtfType 2 (1 * 2 ^ 24) 4) [2 ^ 24 + 3];               (* 4: int:3 *)
   mkRec (mkBtfType 0 (13 * 2 ^ 24 + 1) 0) [2; 2];                (* 5: void (A *n) *)
   mkRec (mkBtfType 1 (12 * 2 ^ 24 + 1) 5) [];                    (* 6: func *)
   mkRec (mkBtfType 1 (17 * 2 ^ 24) 6) [0]].                      (* 7: decl tag of parameter 0 of 6 *)
Definition reqs nm recs (id : Z) : list Z :=
  match rec_at recs id with Some r => match plan_of nm r with Some p => somes (p_steps p) | None => [] end | None => [] end ++ declTags recs id.
Lemma reqs_complete nm recs id t : requires nm recs id t -> In t (reqs nm recs id).
Proof.
  intros [(r & n & ids & R & D & I)|T]; apply in_or_app; [left|right; now apply declTags_spec]. apply rec_at_record in R. rewrite R.
  destruct (describes_plan _ _ _ _ _ _ D) as (p & -> & ->). now rewrite somes_map.
Qed.
Lemma needs_closed nm recs (P : list Z) : (forall x, In x P -> incl (reqs nm recs x) P) -> forall x y, needs nm recs x y -> In x P -> In y P.
Proof. intros H x y N. induction N as [|x y z R N IH]; [auto|]. intros I. apply IH. apply (H x I). now apply reqs_complete. Qed.

Example C31_example : exists st, queries some_name ok_recs fresh [6; 1; 4; 9] = Some (st, [Some (RPtr 0); Some (RPtr 3); Some (RPtr 4); None]) /\
  d_heap st = [NFunc [65] (RPtr 1) 1 [] [[[65]]]; NFuncProto RVoid [mkParam [110] (RPtr 2)]; NPtr (RPtr 3);
    NStruct [65] 16 [mkMember [110] (RPtr 2) 0 0 [[110]]; mkMember [110] (RPtr 4) 64 3 []] [];
    NInt [110] 4 1; NDeclTag (RPtr 3) [110] 0; NDeclTag (RPtr 0) [65] 0] /\ TypeID st (RPtr 3) = Some 1.
Proof. eexists. split; [vm_compute; reflexivity|]. split; vm_compute; reflexivity. Qed.
(** the hypotheses of C31_resolves hold for this function *)
Example C31_example_good : Forall rec_ok ok_recs /\ (forall t, ~ tags_type ok_recs 0 t) /\ all_sound some_name ok_recs 6 /\ protos_first some_name ok_recs 6.
Proof.
  assert (Ok : Forall rec_ok ok_recs).
  { repeat (apply Forall_cons; [split; [unfold type_ranges, in_u; cbn; lia|split; [apply DataLen_aux; reflexivity|repeat constructor; unfold in_u; cbn; lia]]|]). constructor. }
  assert (T0 : forall t, ~ tags_type ok_recs 0 t) by (intros t H; apply declTags_spec in H; exact H).
  split; [exact Ok|]. split; [exact T0|]. split.
  - assert (X : exists st', TypeByID some_name ok_recs fresh 6 = Some (st', Some (RPtr 0))) by (eexists; vm_compute; reflexivity). destruct X as (st' & X).
    eapply (C31_errors some_name ok_recs [] fresh [] 6); [exact Ok|reflexivity|intros []|exact T0|exact X].
  - intros j r t N R K _ N'.
    assert (In j [0; 1; 2; 3; 4; 5; 6; 7]).
    { apply (needs_closed some_name ok_recs _) with (x := 6) (2 := N); [|cbn; tauto]. intros x. cbn [In]. intros [<-|[<-|[<-|[<-|[<-|[<-|[<-|[<-|[]]]]]]]]]; intros y; vm_compute; tauto. }
    destruct R as (_ & R). cbn [In] in H. repeat (destruct H as [<-|H]; [vm_compute in R; inversion R; subst r; try discriminate K|]); [|contradiction].
    change (size_or_type _) with 5 in N'.
    assert (In 6 [0; 1; 2; 3; 4; 5]); [|cbn in H; lia].
    apply (needs_closed some_name ok_recs _) with (x := 5) (2 := N'); [|cbn; tauto]. intros x. cbn [In]. intros [<-|[<-|[<-|[<-|[<-|[<-|[]]]]]]]; intros y; vm_compute; tauto.
Qed.
