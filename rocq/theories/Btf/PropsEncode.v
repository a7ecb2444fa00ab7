(** C29, C30: histories of additions to a Builder, the bytes Marshal produces, and what loading them gives. *)
From Coq Require Import ZArith List Lia Bool Permutation.
From Verif.Base Require Import GoInt ListExtra.
From Verif.Btf Require Import Strings StringsSpec StringsProof Wire WireSpec WireProof PropsWire Types TypesSpec TypesProof Decode DecodeSpec PropsDecode.
From Verif.Btf Require Import Encode EncodeSpec EncodeProof EncodeRun EncodeImage EncodeLoop EncodeTotal EncodeWire EncodeIso EncodeDone.
Import ListNotations.
Open Scope Z_scope.

(** [position l t i]: [t] is the [i]-th element of [l], counting from 1 *)
Definition position (l : list ref) (t : ref) (i : Z) : Prop := 1 <= i /\ nth_error l (Z.to_nat (i - 1)) = Some t.
(** the types which are added, or which an added type refers to *)
Definition mentioned (h : heap) (ops : list op) (x : ref) : Prop := exists t, In (OAdd t) ops /\ reach h t x.

(** ** C30 *)
(** Add numbers the distinct types 1, 2, 3, ... in the order in which they were first added; Void is 0, nil is an error. *)
Theorem C30_add : forall h ops b rs, Z.of_nat (length (firsts (ops_added h ops))) < 2 ^ 32 -> run h emptyBuilder ops = (b, rs) ->
  Forall2 (fun o r => match o with
                      | OAdd RNil => r = Err NilType
                      | OAdd RVoid => r = Ok 0
                      | OAdd t => exists i, r = Ok i /\ position (firsts (ops_added h ops)) t i
                      | OString _ => True
                      end) ops rs.
Proof.
  intros h ops b rs L E. destruct (id_stable h ops emptyBuilder [] b rs empty_added L E) as ((T & N) & _ & F). eapply Forall2_mono; [|exact F]. intros o r H. destruct o as [t|s]; [|exact I]. destruct t as [| |a]; auto.
  destruct H as (i & -> & Hi). exists i. split; [reflexivity|]. apply N in Hi as (H1 & H2). split; [exact H1|]. cbn [app] in T. now rewrite <- T.
Qed.
Print Assumptions C30_add.

(** IDs are dense: there are no gaps, and the number of types is the number of distinct additions. *)
Lemma position_dense (l : list ref) : forall i, 1 <= i <= Z.of_nat (length l) <-> exists t, position l t i.
Proof.
  intros i. split.
  - intros H. destruct (nth_error l (Z.to_nat (i - 1))) as [t|] eqn:E; [exists t; split; [lia|exact E]|]. apply nth_error_None in E. lia.
  - intros (t & H & E). assert (X : (Z.to_nat (i - 1) < length l)%nat) by (apply nth_error_Some; congruence). lia.
Qed.
Theorem C30_dense : forall l, (forall i, 1 <= i <= Z.of_nat (length (firsts l)) <-> exists t, position (firsts l) t i) /\
  (forall t, In t l <-> exists i, position (firsts l) t i) /\ (forall t i j, position (firsts l) t i -> position (firsts l) t j -> i = j).
Proof.
  intros l. split; [apply position_dense|]. split.
  - intros t. rewrite <- firsts_In. split.
    + intros H. apply In_nth_error in H as (k & E). exists (Z.of_nat k + 1). split; [lia|]. replace (Z.to_nat _) with k by lia. exact E.
    + intros (i & _ & E). eapply nth_error_In. exact E.
  - intros t i j (Hi & Ei) (Hj & Ej). assert (X : Z.to_nat (i - 1) = Z.to_nat (j - 1)); [|lia]. eapply (proj1 (NoDup_nth_error (firsts l)) (firsts_NoDup l)); [apply nth_error_Some; congruence|congruence].
Qed.
(** the same type added later keeps its ID, whatever was added in between *)
Theorem C30_stable : forall l m t i, position (firsts l) t i -> position (firsts (l ++ m)) t i.
Proof.
  intros l m t i (H & E). destruct (firsts_app_prefix l m) as (x & ->). split; [exact H|]. rewrite nth_error_app1; [exact E|]. apply nth_error_Some. congruence.
Qed.

Section Written.
  Variable h : heap.
  Variable S : list str.
  Variable ops : list op.
  Variable b : bldr.
  Variable rs : list (res eerr Z).

  (** The history adds types the wire format can hold; all strings together fit into a string table. *)
  Definition admissible : Prop :=
    Z.of_nat (graph_size h) < 2 ^ 32 /\ Forall (fun s => bytes_ok s /\ ~ In 0 s) S /\ Z.of_nat (length (encoding S)) + 1 < 2 ^ 32 /\
    (forall t, In (OAdd t) ops -> t <> RNil -> encodable h S t) /\ (forall s, In (OString s) ops -> In s S).

  Lemma mentioned_live x : added_so_far b (ops_added h ops) -> mentioned h ops x -> x = RVoid \/ x = RNil \/ live h (bd_types b) x.
  Proof using.
    intros (T & _) (t & Ht & R). destruct t as [| |a].
    - right. left. inversion R as [|? ? ? (n & D & _)]; subst; [reflexivity|discriminate D].
    - left. inversion R as [|? ? ? (n & D & _)]; subst; [reflexivity|discriminate D].
    - right. right. exists (RPtr a). split; [|exact R]. rewrite T, firsts_In. unfold ops_added. apply in_concat. exists (added h (RPtr a)). split; [apply in_map_iff; exists (OAdd (RPtr a)); auto|]. cbn [added]. apply in_or_app. right. now left.
  Qed.
  Lemma live_mentioned x : added_so_far b (ops_added h ops) -> live h (bd_types b) x -> mentioned h ops x.
  Proof using.
    intros (T & _) (t & Ht & R). rewrite T, firsts_In in Ht. apply ops_added_reach in Ht as (t0 & Ho & R0 & _). exists t0. split; [exact Ho|]. eapply reach_trans; eassumption.
  Qed.
End Written.

(** Marshal writes every type which is mentioned exactly once: there is a numbering of the types, which agrees with the IDs
    Add has returned, such that the [i]-th record describes the type with number [i], referring to other types by their
    numbers, and carries its decl tags as additional records.  There are no other records. *)
Theorem C30_records : forall h S ops b rs bo order,
  admissible h S ops -> run h emptyBuilder ops = (b, rs) -> (forall m, Permutation (order m) m) ->
  exists bytes t types recs number,
    Marshal noOpts bo order h b = Some (Ok bytes) /\
    (Z.of_nat (length bytes) < 2 ^ 32 -> loadSections bytes None = Some (Ok (bo, t, types)) /\ readRecs bo types = Ok recs) /\
    (forall x i, position (firsts (ops_added h ops)) x i -> number x = i) /\ number RVoid = 0 /\
    (forall x y, mentioned h ops x -> mentioned h ops y -> x <> RNil -> y <> RNil -> number x = number y -> x = y) /\
    (forall x n (f : Z -> ref), mentioned h ops x -> deref h x = Some n -> exists r, record recs (number x) r /\
       describes (table_names t) recs f r (bare (fun c => f (number c)) n) (ids_in number n) /\ tag_list (table_names t) recs (number x) (decl_tags h n)) /\
    (forall j r, record recs j r -> exists x, mentioned h ops x /\ x <> RVoid /\ (j = number x \/ kind r = 17 /\ size_or_type r = number x)).
Proof.
  intros h S ops b rs bo order (A1 & A2 & A3 & A4 & A5) E P.
  destruct (round_trip h S ops b rs A1 A2 A3 A4 A5 E bo order P) as (e & recs & strs & _ & B & Rok & M & Bs & Ie & V0 & Inj & Ds & Tl & Inv & _).
  destruct (run_added h S ops b rs A1 A4 E) as (AS & _). pose proof B as (B1 & B2 & B3 & B4 & B5 & B6).
  pose proof AS as (T & N).
  do 2 eexists. exists (concat (map (encodeRec bo) recs)), recs, (idz (e_ids e)). split; [exact M|]. split; [intros L; apply (load_marshalled bo recs strs Rok B6 Bs L)|].
  assert (Pos : forall x i, position (firsts (ops_added h ops)) x i -> idz (e_ids e) x = i).
  { intros x i (H1 & H2). rewrite <- T in H2. assert (Hi : id_of (bd_ids b) x = Some i) by (apply N; auto). apply Ie in Hi. unfold idz. rewrite Hi. destruct x; auto.
    apply nth_error_In in H2. destruct (root_enc h S ops b rs A1 A4 E _ H2) as (_ & a & X & _). discriminate X. }
  split; [exact Pos|]. split; [exact V0|].
  assert (Lv : forall x n, mentioned h ops x -> deref h x = Some n -> live h (bd_types b) x).
  { intros x n Mx D. destruct (mentioned_live _ _ _ _ AS Mx) as [->|[->|L]]; [discriminate D..|exact L]. }
  assert (LN : forall x, live h (bd_types b) x -> x <> RVoid -> 1 <= idz (e_ids e) x).
  { intros x L Nx. destruct x as [| |a]; [| contradiction |].
    - destruct L as (t & Ht & R). destruct (root_enc h S ops b rs A1 A4 E _ Ht) as ((C & _) & _). destruct (C _ R).
    - destruct L as (t & Ht & R). destruct (root_enc h S ops b rs A1 A4 E _ Ht) as ((C & _) & _). pose proof (C _ R) as Pa. cbn [present] in Pa. destruct (nth_error h a) as [n|] eqn:D; [|apply nth_error_None in D; lia].
      destruct (Ds (RPtr a) n (fun _ => RVoid)) as (r & (H1 & _) & _); [exists t; auto|exact D|exact H1]. }
  split; [|split].
  - intros x y Mx My Nx Ny Exy. destruct (mentioned_live _ _ _ _ AS Mx) as [->|[->|Lx]]; [|contradiction|]; (destruct (mentioned_live _ _ _ _ AS My) as [->|[->|Ly]]; [|contradiction|]).
    + reflexivity.
    + destruct (ref_eq_dec RVoid y) as [X|Ne]; [exact X|]. rewrite V0 in Exy. specialize (LN y Ly (fun K => Ne (eq_sym K))). lia.
    + destruct (ref_eq_dec x RVoid) as [X|Ne]; [exact X|]. rewrite V0 in Exy. specialize (LN x Lx Ne). lia.
    + apply Inj; assumption.
  - intros x n f Mx D. pose proof (Lv x n Mx D) as L. destruct (Ds x n f L D) as (r & R & De). exists r. split; [exact R|]. split; [exact De|]. pose proof (Tl x L) as Tx. unfold tags_at in Tx. now rewrite D in Tx.
  - intros j r R. destruct (Inv j r R) as [(x & L & Nx & ->)|(K & x & L & Nx & Z)]; exists x; (split; [eapply live_mentioned; eassumption|]); auto.
Qed.
Print Assumptions C30_records.

(** ** C29 *)
(** strings added on the side keep their offsets *)
Definition strings_of_bldr (b : bldr) : builder := match bd_strings b with Some st => st | None => newStringTableBuilder end.
Lemma run_strings h : forall ops b b' rs, run h b ops = (b', rs) -> strs_ext (strings_of_bldr b) (strings_of_bldr b') /\
  Forall2 (fun o r => match o with OString s => (~ In 0 s -> exists x, r = Ok x) /\ forall x, r = Ok x -> m_find (b_strings (strings_of_bldr b')) s = Some x | OAdd _ => True end) ops rs.
Proof.
  induction ops as [|o ops IH]; intros b b' rs E; cbn [run] in E; [injection E as <- <-; split; [apply strs_ext_refl|constructor]|]. destruct (apply_op h b o) as [b1 r] eqn:E1. destruct (run h b1 ops) as [b2 rs2] eqn:E2. injection E as <- <-. destruct (IH _ _ _ E2) as (X & F).
  assert (K : strs_ext (strings_of_bldr b) (strings_of_bldr b1) /\ match o with OString s => (~ In 0 s -> exists x, r = Ok x) /\ forall x, r = Ok x -> m_find (b_strings (strings_of_bldr b1)) s = Some x | OAdd _ => True end).
  { destruct o as [t|s]; cbn [apply_op] in E1; [apply Add_strings in E1; unfold strings_of_bldr; rewrite E1; split; [apply strs_ext_refl|exact I]|].
    unfold addString in E1. fold (strings_of_bldr b) in E1. destruct (b_add (strings_of_bldr b) s) as [r1 st1] eqn:Ea. injection E1 as <- <-. change (strings_of_bldr _) with st1 at 2. change (strings_of_bldr {| bd_types := bd_types b; bd_ids := bd_ids b; bd_strings := Some st1 |}) with st1. destruct r1 as [o|e].
    - destruct (add_string_ok (strings_of_bldr b) s o st1) as (M & K & _); [unfold add_string; now rewrite Ea|]. split; [exact K|]. split; [eauto|]. intros x Hx. now injection Hx as <-.
    - unfold b_add in Ea. destruct (index_byte s 0) eqn:En; [injection Ea as _ <-; split; [apply strs_ext_refl|]; split; [intros H; apply index_byte_none in H; congruence|discriminate]|]. destruct (m_find (b_strings (strings_of_bldr b)) s); [discriminate Ea|]. unfold b_append in Ea. discriminate Ea. }
  destruct K as (K1 & K2). split; [eapply strs_ext_trans; eassumption|]. constructor; [|exact F]. destruct o as [t|s]; [exact I|]. destruct K2 as (K2 & K3). split; [exact K2|]. intros x Hx. apply X. now apply K3.
Qed.
(** What is written, including strings added on the side. *)
Lemma round_trip_all : forall h S ops b rs bo order,
  admissible h S ops -> run h emptyBuilder ops = (b, rs) -> (forall m, Permutation (order m) m) ->
  exists bytes t types recs,
    Marshal noOpts bo order h b = Some (Ok bytes) /\ Forall rec_ok recs /\
    (Z.of_nat (length bytes) < 2 ^ 32 -> loadSections bytes None = Some (Ok (bo, t, types)) /\ readRecs bo types = Ok recs) /\
    (forall k s o, nth_error ops k = Some (OString s) -> nth_error rs k = Some (Ok o) -> in_u 32 o /\ Lookup t o = Some (Ok s)) /\
    forall k x i, nth_error ops k = Some (OAdd x) -> nth_error rs k = Some (Ok i) -> in_u 32 i /\
    forall ids st qs, queries (table_names t) recs fresh ids = Some (st, qs) ->
    exists st' f, TypeByID (table_names t) recs st i = Some (st', Some (f x)) /\ isomorphic f h x (d_heap st') (f x).
Proof.
  intros h S ops b rs bo order (A1 & A2 & A3 & A4 & A5) E P.
  destruct (round_trip h S ops b rs A1 A2 A3 A4 A5 E bo order P) as (e & recs & strs & Em & B & Rok & M & Bs & Ie & V0 & Inj & Ds & Tl & Inv & Dec).
  destruct (run_added h S ops b rs A1 A4 E) as (AS & F). pose proof B as (B1 & B2 & B3 & B4 & B5 & B6). pose proof AS as (T & N).
  do 2 eexists. exists (concat (map (encodeRec bo) recs)), recs. split; [exact M|]. split; [exact Rok|]. split; [intros L; apply (load_marshalled bo recs strs Rok B6 Bs L)|].
  split.
  { intros k s o Hk Ho. destruct (run_strings h ops emptyBuilder b rs E) as (_ & Fs). pose proof (strings_kept h S ops b rs A1 A2 A3 A4 A5 E e recs Em) as Kept. fold (strings_of_bldr b) in Kept.
    assert (Mf : m_find (b_strings (strings_of_bldr b)) s = Some o).
    { clear -Fs Hk Ho. revert k Hk Ho. induction Fs as [|p r ops rs H F IH]; intros [|k] Hk Ho; try discriminate Hk; [|exact (IH k Hk Ho)]. injection Hk as ->. injection Ho as ->. now apply (proj2 H). }
    pose proof (off_ext _ _ _ _ Mf Kept) as Eo. split; [rewrite <- Eo; eapply off_u32; exact B|].
    assert (Sd : stored (e_strings e) s) by (exists o; now apply Kept). pose proof (table_found _ _ _ B Sd) as Tf. rewrite Eo in Tf. unfold table_names in Tf. destruct (Lookup _ o) as [[y|]|]; try discriminate Tf. now injection Tf as ->. }
  intros k x i Hx Hi. assert (K : match x with RNil => False | RVoid => i = 0 | _ => id_of (bd_ids b) x = Some i end).
  { clear -F Hx Hi. revert k Hx Hi. induction F as [|o r ops rs H F IH]; intros [|k] Hx Hi; try discriminate Hx; [|exact (IH k Hx Hi)]. injection Hx as ->. injection Hi as ->. destruct x as [| |a]; [discriminate H|now injection H|]. destruct H as (j & Ej & H). now injection Ej as ->. }
  split.
  { destruct x as [| |a]; [destruct K|subst i; unfold in_u; lia|]. apply N in K as (K1 & K2). assert (Lt : (Z.to_nat (i - 1) < length (bd_types b))%nat) by (apply nth_error_Some; congruence). pose proof (ops_bound h S ops A1 A4) as Ob. rewrite T in Lt. unfold in_u. cbn [app] in Ob. lia. }
  intros ids st qs Q. destruct x as [| |a]; [destruct K| |].
  - subst i. eexists. exists (fun r => r). split.
    + unfold TypeByID. rewrite Nat.add_comm. reflexivity.
    + assert (O : forall y, reach h RVoid y -> y = RVoid) by (intros y R; inversion R as [|? ? ? (n & D & _)]; subst; [reflexivity|discriminate D]). split; [reflexivity|]. split; [reflexivity|]. split; [auto|]. split; [auto|]. intros y n R D. apply O in R. subst y. discriminate D.
  - assert (L : live h (bd_types b) (RPtr a)) by (exists (RPtr a); split; [|constructor]; apply N in K as (_ & K); eapply nth_error_In; exact K).
    apply Ie in K. assert (Ei : idz (e_ids e) (RPtr a) = i) by (unfold idz; now rewrite K). rewrite <- Ei. exact (Dec _ L ids st qs Q).
Qed.
(** Whatever was added, and whatever was asked of the loaded types before: an ID which Add has returned denotes a type
    which is the same as the one added, up to the identity of the types it refers to. *)
Theorem C29_round_trip : forall h S ops b rs bo order,
  admissible h S ops -> run h emptyBuilder ops = (b, rs) -> (forall m, Permutation (order m) m) ->
  exists bytes t types recs,
    Marshal noOpts bo order h b = Some (Ok bytes) /\
    (Z.of_nat (length bytes) < 2 ^ 32 -> loadSections bytes None = Some (Ok (bo, t, types)) /\ readRecs bo types = Ok recs) /\
    forall k x i, nth_error ops k = Some (OAdd x) -> nth_error rs k = Some (Ok i) ->
    forall ids st qs, queries (table_names t) recs fresh ids = Some (st, qs) ->
    exists st' f, TypeByID (table_names t) recs st i = Some (st', Some (f x)) /\ isomorphic f h x (d_heap st') (f x).
Proof.
  intros h S ops b rs bo order A E P. destruct (round_trip_all h S ops b rs bo order A E P) as (bytes & t & types & recs & M & _ & L & _ & D). exists bytes, t, types, recs. split; [exact M|]. split; [exact L|]. intros k x i Hx Hi. apply (D k x i Hx Hi).
Qed.
Print Assumptions C29_round_trip.

(** ** A case which meets the hypotheses *)
(** struct node { struct node *next __tag; const int a : 3 }, and a variable of type const int in a data section *)
Definition ex_heap : heap :=
  [NStruct [110] 16 [mkMember [120] (RPtr 1) 0 0 [[116]]; mkMember [97] (RPtr 2) 64 3 []] [[117]];
   NPtr (RPtr 0);
   NConst (RPtr 3);
   NInt [105] 4 1;
   NVar [118] (RPtr 2) 1 [];
   NDatasec [100] 4 [mkVS (RPtr 4) 0 4];
   NFunc [102] (RPtr 7) 1 [] [[[116]]];
   NFuncProto RVoid [mkParam [112] (RPtr 1)]].
Definition ex_strs : list str := [[]; [110]; [120]; [97]; [116]; [117]; [105]; [118]; [100]; [102]; [112]].
Definition ex_ops : list op := [OAdd (RPtr 1); OAdd RVoid; OAdd (RPtr 5); OString [116]; OAdd (RPtr 1); OAdd RNil; OAdd (RPtr 6)].
Lemma reach_closed (h : heap) (P : ref -> bool) : (forall a n, nth_error h a = Some n -> P (RPtr a) = true -> forallb P (refs n) = true) -> forall x y, reach h x y -> P x = true -> P y = true.
Proof.
  intros C x y R. induction R as [x|x y z (n & D & Hy) R IH]; intros Px; [exact Px|]. apply IH. destruct x as [| |a]; try discriminate D. pose proof (C a n D Px) as H. rewrite forallb_forall in H. now apply H.
Qed.
Ltac nodes a D := first [ destruct a; discriminate D | let a' := fresh "a" in destruct a as [|a']; [injection D as <-|nodes a' D] ].
Ltac parts := cbn; unfold in_u; repeat match goal with |- _ /\ _ => split | |- Forall _ [] => constructor | |- Forall _ (_ :: _) => constructor | |- True => exact I | |- Exists _ _ -> _ => intros _ end; cbn; try lia.
Lemma ex_encodable t : In (OAdd t) ex_ops -> t <> RNil -> encodable ex_heap ex_strs t.
Proof.
  intros Ht Nt. pose (P := fun r => match r with RNil => false | RVoid => true | RPtr a => (a <? 8)%nat end).
  assert (C : forall x y, reach ex_heap x y -> P x = true -> P y = true).
  { apply reach_closed. intros a n D _. nodes a D; reflexivity. }
  assert (Pt : P t = true) by (unfold ex_ops in Ht; cbn [In] in Ht; decompose [or] Ht; try congruence; try contradiction; match goal with H : OAdd _ = OAdd t |- _ => injection H as <-; try reflexivity; contradiction end).
  split.
  - intros x R. apply C in R; [|exact Pt]. destruct x as [| |a]; [discriminate R|exact I|]. unfold P in R. apply Nat.ltb_lt in R. exact R.
  - intros x n R D. destruct x as [| |a]; try discriminate D. clear R. cbn [deref] in D.
    assert (Fok : forall y, (forall s t l tags pt, deref ex_heap y <> Some (NFunc s t l tags pt)) -> func_ok ex_heap y) by (intros y Hy s t0 l tags pt E; destruct (Hy _ _ _ _ _ E)).
    nodes a D; (split; [exact I|]; split; [parts|]; split; [parts|]; split; [exact I|]; split; [try (apply Fok; discriminate)|intros s Hs; cbn in Hs |- *; intuition]).
    intros s t0 l tags pt E. injection E as <- <- <- <- <-. split; [eexists; eexists; reflexivity|]. intros R.
    apply (reach_closed ex_heap (fun r => match r with RNil => false | RVoid => true | RPtr a => negb (Nat.eqb a 6) && negb (Nat.eqb a 4) && negb (Nat.eqb a 5) end)) in R; [discriminate R|intros a n D Q; nodes a D; try reflexivity; discriminate Q|reflexivity].
Qed.
Example C29_example : admissible ex_heap ex_strs ex_ops /\
  snd (run ex_heap emptyBuilder ex_ops) = [Ok 1; Ok 0; Ok 3; Ok 1; Ok 1; Err NilType; Ok 4] /\
  firsts (ops_added ex_heap ex_ops) = [RPtr 1; RPtr 2; RPtr 5; RPtr 6].
Proof.
  split; [|vm_compute; split; reflexivity]. split; [vm_compute; reflexivity|]. split; [|split; [vm_compute; reflexivity|split; [exact ex_encodable|]]].
  - apply Forall_forall. intros s Hs. cbn in Hs. assert (G : bytes_ok s /\ Forall (fun c => c <> 0) s) by (decompose [or] Hs; try contradiction; subst s; split; repeat constructor; unfold is_byte; lia).
    destruct G as (G1 & G2). split; [exact G1|]. intros Z0. rewrite Forall_forall in G2. now apply (G2 0).
  - intros s Hs. cbn in Hs. decompose [or] Hs; try congruence; try contradiction. match goal with H : OString _ = _ |- _ => injection H as <- end. cbn. tauto.
Qed.

(** ** What the format can't hold is not reported, but changed *)
(** marshal, load and look at the type with an ID *)
Definition through (o : mopts) (h : heap) (ops : list op) (id : Z) : option node :=
  match Marshal o LE (fun m => m) h (fst (run h emptyBuilder ops)) with
  | Some (Ok bytes) =>
      match loadSections bytes None with
      | Some (Ok (bo, t, types)) =>
          match readRecs bo types with
          | Ok recs => match TypeByID (table_names t) recs fresh id with Some (st, Some r) => deref (d_heap st) r | _ => None end
          | Err _ => None
          end
      | _ => None
      end
  | _ => None
  end.
(** a member of a 33 byte integer type becomes a bitfield: the size in bits is written as a byte *)
Theorem C29_refuted_wide_int : let h := [NStruct [115] 33 [mkMember [120] (RPtr 1) 0 0 []] []; NInt [105] 33 0] in
  through noOpts h [OAdd (RPtr 0)] 1 = Some (NStruct [115] 33 [mkMember [120] (RPtr 1) 0 8 []] []) /\ through noOpts h [OAdd (RPtr 1); OAdd (RPtr 0)] 1 = Some (NInt [105] 33 0).
Proof. vm_compute. split; reflexivity. Qed.
(** the offset of a bitfield loses all but 24 bits, and so does every other member of that struct *)
Theorem C29_refuted_bitfield_offset :
  through noOpts [NStruct [115] 4000000 [mkMember [120] (RPtr 1) 1 3 []; mkMember [121] (RPtr 1) 16777216 0 []] []; NInt [105] 4 0] [OAdd (RPtr 0)] 1 =
  Some (NStruct [115] 4000000 [mkMember [120] (RPtr 1) 1 3 []; mkMember [121] (RPtr 1) 0 0 []] []).
Proof. vm_compute. reflexivity. Qed.
(** 65536 parameters become none, and the parameters are read as further types *)
Theorem C29_refuted_vlen : let h := [NFuncProto RVoid (repeat (mkParam [] RVoid) (Z.to_nat 65536))] in
  match Marshal noOpts LE (fun m => m) h (fst (run h emptyBuilder [OAdd (RPtr 0)])) with
  | Some (Ok bytes) => match loadSections bytes None with Some (Ok (bo, _, types)) => match readRecs bo types with Err _ => True | Ok _ => False end | _ => False end
  | _ => False
  end.
Proof. vm_compute. exact I. Qed.
(** The placeholder type which PreventNoTypeFound adds to a Builder without types is written twice. *)
Theorem C30_refuted_placeholder :
  match marshalRecs (mkOpts false false false false true) [] (fst (run [] emptyBuilder [OString [97]])) with Some (Ok (_, recs)) => length recs = 2%nat | _ => False end.
Proof. vm_compute. reflexivity. Qed.
(** A type which was returned by the decoder need not be accepted: decl tags which were obtained by their ID can be added, but not written. *)
Theorem C30_refuted_decl_tag : let h := [NDeclTag (RPtr 1) [116] (-1); NTypedef [97] RVoid [[116]]] in
  let (b, rs) := run h emptyBuilder [OAdd (RPtr 0)] in rs = [Ok 1] /\ Marshal noOpts LE (fun m => m) h b = Some (Err NoID).
Proof. vm_compute. split; reflexivity. Qed.
