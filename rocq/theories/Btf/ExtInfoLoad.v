(** Proofs about btf/ext_info.go: entries and loading. *)
From Coq Require Import ZArith List Lia Bool Sorting.Sorted Permutation.
From Verif.Base Require Import GoInt ListExtra.
From Verif.Btf Require Import Strings StringsSpec StringsProof Wire WireSpec WireProof Names PropsNames Types Decode DecodeSpec DecodeProof PropsDecode Encode EncodeDone
  ExtInfo ExtInfoSpec ExtInfoProof.
Import ListNotations.
Open Scope Z_scope.

Lemma queries_app nm recs ids1 : forall st ids2 st1 rs1, queries nm recs st ids1 = Some (st1, rs1) ->
  queries nm recs st (ids1 ++ ids2) = match queries nm recs st1 ids2 with Some (st2, rs2) => Some (st2, rs1 ++ rs2) | None => None end.
Proof.
  induction ids1 as [|id ids1 IH]; intros st ids2 st1 rs1 E; cbn [queries app] in *; [injection E as <- <-; now destruct (queries nm recs st ids2) as [(? & ?)|]|].
  destruct (TypeByID nm recs st id) as [(st' & r)|]; [|discriminate E]. destruct (queries nm recs st' ids1) as [(st'' & rs)|] eqn:E1; [|discriminate E]. injection E as <- <-.
  rewrite (IH _ ids2 _ _ E1). now destruct (queries nm recs st'' ids2) as [(? & ?)|].
Qed.
Lemma Forall2_impl' {A B} (P Q : A -> B -> Prop) : (forall a b, P a b -> Q a b) -> forall l m, Forall2 P l m -> Forall2 Q l m.
Proof. intros H l m F. induction F; constructor; auto. Qed.

Section Load.
  Variable s : spec.
  Let nm := table_names (s_strings s).
  Let recs := s_recs s.
  Hypothesis Hok : Forall rec_ok recs.
  Notation reached := (reached s).

  Lemma query st id : reached st -> exists st' r, TypeByID nm recs st id = Some (st', r) /\ reached st' /\ Ext st st' /\ (forall x, r = Some x -> x = addr st' id /\ cached st' id).
  Proof.
    intros (ids & rs & Q). destruct (reachable nm recs Hok _ _ _ Q) as (I & G & _). destruct (one_query nm recs Hok st id I G) as (st' & r & E & [I' E' G' T V _]).
    exists st', r. split; [exact E|]. split; [|split; [exact E'|intros x Hx; destruct (V x Hx) as (A & B & _); auto]].
    exists (ids ++ [id]), (rs ++ [r]). rewrite (queries_app _ _ _ _ _ _ _ Q). cbn [queries]. fold nm recs. now rewrite E.
  Qed.
  Lemma cached_type st id : cached st id -> exists st', TypeByID nm recs st id = Some (st', Some (addr st id)).
  Proof.
    intros C. unfold TypeByID, addr. rewrite Nat.add_comm. cbn [inflate Nat.add]. destruct (Z.eqb_spec id 0) as [->|N]; [eexists; reflexivity|]. destruct C as [|(a & A)]; [contradiction|]. rewrite A. eexists. reflexivity.
  Qed.
  Lemma type_cached st id r : reached st -> type_is s st id r -> cached st id -> r = addr st id.
  Proof. intros R (st' & E) C. destruct (cached_type st id C) as (st'' & E'). fold nm recs in E. rewrite E in E'. congruence. Qed.

  (** a computation which queries types *)
  Definition stateful {A B} (f : dstate -> A -> dstate * res xerr B) (E : dstate -> A -> B -> Prop) (good : A -> Prop) : Prop :=
    (forall st st' a b, Ext st st' -> E st a b -> E st' a b) /\
    forall st a, reached st -> exists st' r, f st a = (st', r) /\ reached st' /\ Ext st st' /\ (forall b, r = Ok b -> E st' a b) /\ (good a -> exists b, r = Ok b).
  Lemma stateful_map {A B} f E good : @stateful A B f E good -> stateful (mapState f) (fun st => Forall2 (E st)) (Forall good).
  Proof.
    intros (St & H). split; [intros st st' a b X; apply Forall2_impl'; intros; eapply St; eauto|].
    intros st l. revert st. induction l as [|a l IH]; intros st R; cbn [mapState].
    - exists st, (Ok []). split; [reflexivity|]. split; [exact R|]. split; [apply Ext_refl|]. split; [intros b Hb; injection Hb as <-; constructor|eauto].
    - destruct (H st a R) as (st1 & r1 & E1 & R1 & X1 & V1 & G1). rewrite E1. destruct r1 as [b1|e].
      + destruct (IH st1 R1) as (st2 & r2 & E2 & R2 & X2 & V2 & G2). rewrite E2. destruct r2 as [bs|e].
        * exists st2, (Ok (b1 :: bs)). split; [reflexivity|]. split; [exact R2|]. split; [eapply Ext_trans; eassumption|]. split; [|eauto]. intros b Hb. injection Hb as <-. constructor; [eapply St; [exact X2|auto]|auto].
        * exists st2, (Err e). split; [reflexivity|]. split; [exact R2|]. split; [eapply Ext_trans; eassumption|]. split; [discriminate|]. intros F. destruct (G2 (Forall_inv_tail F)). discriminate.
      + exists st1, (Err e). split; [reflexivity|]. split; [exact R1|]. split; [exact X1|]. split; [discriminate|]. intros F. destruct (G1 (Forall_inv F)). discriminate.
  Qed.

  Variable sortSlice : forall A : Type, (A -> A -> bool) -> list A -> list A.
  Hypothesis Hsort : go_sort sortSlice.
  Lemma sorted_entries {A} (E : list Z -> Z * A -> Prop) less rs es : (forall x y : Z * A, fst x <> fst y -> less x y = (fst x <? fst y)) -> Forall2 E rs es -> entries_of E rs (sortSlice _ less es).
  Proof.
    intros L F. destruct (Hsort _ less es) as (P & S). split; [exists es; auto|]. intros N. apply S; [intros; now apply L|]. eapply Permutation_NoDup; [|exact N]. apply Permutation_map. now apply Permutation_sym.
  Qed.
  Lemma entries_impl {A} (E E' : list Z -> Z * A -> Prop) rs es : (forall a b, E a b -> E' a b) -> entries_of E rs es -> entries_of E' rs es.
  Proof. intros H ((es' & F & P) & S). split; [|exact S]. exists es'. split; [|exact P]. eapply Forall2_impl'; eassumption. Qed.

  Lemma deref_ext st st' r n : Ext st st' -> deref (d_heap st) r = Some n -> deref (d_heap st') r = Some n.
  Proof. intros X D. destruct r as [| |a]; try discriminate D. cbn in *. rewrite (Ext_nth st st' a X); [exact D|]. apply nth_error_Some. congruence. Qed.
  Definition typed st id r := type_is s st id r /\ cached st id.
  Lemma typed_ext st st' id r : Ext st st' -> cached st id /\ r = addr st id -> cached st' id /\ r = addr st' id.
  Proof. intros X (C & ->). destruct (cached_ext st st' id X C) as (C' & ->). auto. Qed.

  (** the entries, with the types in the cache *)
  Definition func_at st (ws : list Z) (e : Z * ref) : Prop :=
    exists id name t lk tags ptags, ws = [fst e; id] /\ (cached st id /\ snd e = addr st id) /\ deref (d_heap st) (snd e) = Some (NFunc name t lk tags ptags) /\ name <> [].
  Definition relo_at st (ws : list Z) (e : Z * relocation) : Prop :=
    exists accessOff text, ws = [fst e; r_id (snd e); accessOff; r_kind (snd e)] /\ (cached st (r_id (snd e)) /\ r_typ (snd e) = addr st (r_id (snd e))) /\
      Lookup (s_strings s) accessOff = Some (Ok text) /\ denotes text (r_accessor (snd e)).
  Lemma is_type st id r : cached st id /\ r = addr st id -> type_is s st id r.
  Proof. intros (C & ->). exact (cached_type st id C). Qed.
  Lemma func_at_entry st ws e : func_at st ws e -> func_entry s st ws e.
  Proof. intros (id & name & t & lk & tags & ptags & E & C & X). exists id, name, t, lk, tags, ptags. split; [exact E|]. split; [now apply is_type|exact X]. Qed.
  Lemma relo_at_entry st ws e : relo_at st ws e -> relo_entry s st ws e.
  Proof. intros (a & text & E & C & X). exists a, text. split; [exact E|]. split; [now apply is_type|exact X]. Qed.

  Notation type_fine := (type_fine s).
  Notation func_fine := (func_fine s).
  Notation line_fine := (line_fine s).
  Notation relo_fine := (relo_fine s).

  Lemma fine_type st id : reached st -> type_fine id -> exists st' x f, TypeByID nm recs st id = Some (st', Some x) /\ f id = x /\ (id = 0 \/ decoded nm recs (d_heap st') f id).
  Proof.
    intros (ids & rs & Q) (Hvoid & A & P). destruct (C31_resolves nm recs ids st rs id Hok Q A P Hvoid) as (st' & x & f & E & F & _ & _ & D). exists st', x, f. split; [exact E|]. split; [exact F|]. apply D. constructor.
  Qed.
  Lemma decoded_func h f id r name : record recs id r -> kind r = 12 -> nm (name_off r) = Some name -> decoded nm recs h f id -> exists t lk tags ptags, deref h (f id) = Some (NFunc name t lk tags ptags).
  Proof.
    intros R K N (r' & n & ids & l & np & R' & D & _ & _ & Dr). assert (r' = r) by (destruct R as (_ & R), R' as (_ & R'); congruence). subst r'.
    destruct D; try congruence. rewrite Dr. assert (s0 = name) by congruence. subst s0. cbn [attach]. do 4 eexists. reflexivity.
  Qed.
  Definition func_ok (ws : list Z) : Prop := exists off id, ws = [off; id] /\ forall st, reached st ->
    exists st' x name t lk tags ptags, TypeByID nm recs st id = Some (st', Some x) /\ deref (d_heap st') x = Some (NFunc name t lk tags ptags) /\ name <> [].
  Lemma funcs_stateful_ok : stateful (newFuncOffset s) func_at func_ok.
  Proof.
    split.
    - intros st st' ws e X (id & name & t & lk & tags & ptags & E & C & D & N). exists id, name, t, lk, tags, ptags. split; [exact E|]. split; [eapply typed_ext; eassumption|]. split; [eapply deref_ext; eassumption|exact N].
    - intros st ws R. assert (Bad : forall e, newFuncOffset s st ws = (st, Err e) -> ~ func_ok ws -> exists st' r, newFuncOffset s st ws = (st', r) /\ reached st' /\ Ext st st' /\ (forall b, r = Ok b -> func_at st' ws b) /\ (func_ok ws -> exists b, r = Ok b)).
      { intros e E N. exists st, (Err e). split; [exact E|]. split; [exact R|]. split; [apply Ext_refl|]. split; [discriminate|]. intros F. contradiction. }
      destruct ws as [|off [|id [|? ?]]]; try (eapply Bad; [reflexivity|]; intros (? & ? & X & _); discriminate X).
      clear Bad. unfold newFuncOffset, s_type. fold nm recs. destruct (query st id R) as (st' & r & E & R' & X & V). rewrite E.
      assert (Fine : func_ok [off; id] -> exists x name t lk tags ptags, r = Some x /\ deref (d_heap st') x = Some (NFunc name t lk tags ptags) /\ name <> []).
      { intros (? & ? & Ew & H). injection Ew as <- <-. destruct (H st R) as (st1 & x & name & t & lk & tags & ptags & E1 & D & Ne). rewrite E in E1. injection E1 as <- ->. exists x, name, t, lk, tags, ptags. auto. }
      destruct r as [x|].
      + destruct (V x eq_refl) as (Ax & Cx). destruct (deref (d_heap st') x) as [n|] eqn:Dx.
        * destruct n as [| | | | | | | | | | |name t lk tags ptags| | | | | | |];
            try (exists st', (Err XNotFunc); split; [reflexivity|]; split; [exact R'|]; split; [exact X|]; split; [discriminate|]; intros F; destruct (Fine F) as (? & ? & ? & ? & ? & ? & Ex & Dr & _); injection Ex as <-; congruence).
          destruct name as [|c name].
          -- exists st', (Err XAnonymous). split; [reflexivity|]. split; [exact R'|]. split; [exact X|]. split; [discriminate|]. intros F. destruct (Fine F) as (? & ? & ? & ? & ? & ? & Ex & Dr & Ne). injection Ex as <-. congruence.
          -- exists st', (Ok (off, x)). split; [reflexivity|]. split; [exact R'|]. split; [exact X|]. split; [|eauto]. intros b Hb. injection Hb as <-. exists id, (c :: name), t, lk, tags, ptags. cbn [fst snd]. repeat split; auto. discriminate.
        * exists st', (Err XNotFunc). split; [reflexivity|]. split; [exact R'|]. split; [exact X|]. split; [discriminate|]. intros F. destruct (Fine F) as (? & ? & ? & ? & ? & ? & Ex & Dr & _). injection Ex as <-. congruence.
      + exists st', (Err XType). split; [reflexivity|]. split; [exact R'|]. split; [exact X|]. split; [discriminate|]. intros F. destruct (Fine F) as (? & ? & ? & ? & ? & ? & Ex & _). discriminate Ex.
  Qed.
  Lemma fine_ok ws : func_fine ws -> func_ok ws.
  Proof.
    intros (off & id & r0 & name & -> & T & Rr & K & Nn & Ne). exists off, id. split; [reflexivity|]. intros st R. destruct (fine_type st id R T) as (st1 & x & f & E1 & Fx & D).
    destruct D as [->|D]; [destruct Rr; lia|]. destruct (decoded_func _ _ _ _ _ Rr K Nn D) as (t & lk & tags & ptags & Dr). rewrite Fx in Dr. exists st1, x, name, t, lk, tags, ptags. auto.
  Qed.
  Lemma funcs_stateful : stateful (newFuncOffset s) func_at func_fine.
  Proof. destruct funcs_stateful_ok as (St & H). split; [exact St|]. intros st ws R. destruct (H st ws R) as (st' & r & E & R' & X & V & G). exists st', r. repeat (split; [assumption|]). intros F. apply G. now apply fine_ok. Qed.
  Lemma relos_stateful : stateful (newRelocationInfo s) relo_at relo_fine.
  Proof.
    split.
    - intros st st' ws e X (a & text & E & C & D). exists a, text. split; [exact E|]. split; [eapply typed_ext; eassumption|exact D].
    - intros st ws R. assert (Bad : forall e, newRelocationInfo s st ws = (st, Err e) -> ~ relo_fine ws -> exists st' r, newRelocationInfo s st ws = (st', r) /\ reached st' /\ Ext st st' /\ (forall b, r = Ok b -> relo_at st' ws b) /\ (relo_fine ws -> exists b, r = Ok b)).
      { intros e E N. exists st, (Err e). split; [exact E|]. split; [exact R|]. split; [apply Ext_refl|]. split; [discriminate|]. intros F. contradiction. }
      destruct ws as [|off [|id [|accessOff [|k [|? ?]]]]]; try (eapply Bad; [reflexivity|]; intros (? & ? & ? & ? & ? & ? & X & _); discriminate X).
      clear Bad. unfold newRelocationInfo, s_type. fold nm recs. destruct (query st id R) as (st' & r & E & R' & X & V). rewrite E. destruct r as [x|].
      + destruct (V x eq_refl) as (Ax & Cx). eexists st', _. split; [reflexivity|]. split; [exact R'|]. split; [exact X|]. unfold lookupName. destruct (Lookup (s_strings s) accessOff) as [[text|]|] eqn:El.
        * destruct (parseCOREAccessor text) as [acc|] eqn:Ea.
          -- split; [|eauto]. intros b Hb. injection Hb as <-. exists accessOff, text. cbn. repeat split; auto; now apply C43_parse.
          -- split; [discriminate|]. intros (? & ? & ? & ? & text' & acc & Ew & _ & L & D). injection Ew as <- <- <- <-. rewrite El in L. injection L as <-. apply C43_parse in D. congruence.
        * split; [discriminate|]. intros (? & ? & ? & ? & text' & acc & Ew & _ & L & D). injection Ew as <- <- <- <-. congruence.
        * split; [discriminate|]. intros (? & ? & ? & ? & text' & acc & Ew & _ & L & D). injection Ew as <- <- <- <-. congruence.
      + exists st', (Err XType). split; [reflexivity|]. split; [exact R'|]. split; [exact X|]. split; [discriminate|]. intros (? & ? & ? & ? & ? & ? & Ew & T & _). injection Ew as <- <- <- <-. destruct (fine_type st id R T) as (st1 & x & f & E1 & _). congruence.
  Qed.
  Lemma line_col lc : Z.shiftr lc 10 * 1024 + Z.land lc 1023 = lc /\ 0 <= Z.land lc 1023 < 1024.
  Proof. change 1023 with (Z.ones 10). rewrite Z.shiftr_div_pow2, Z.land_ones by lia. change (2 ^ 10) with 1024. pose proof (Z.div_mod lc 1024). pose proof (Z.mod_pos_bound lc 1024). lia. Qed.
  Lemma newLineInfo_spec ws : (forall e, newLineInfo s ws = Ok e -> line_entry s ws e) /\ (line_fine ws -> exists e, newLineInfo s ws = Ok e).
  Proof.
    unfold newLineInfo. destruct ws as [|off [|fo [|lo [|lc [|? ?]]]]]; try (split; [discriminate|intros (? & ? & ? & ? & ? & ? & X & _); discriminate X]). unfold lookupName.
    split.
    - intros e. destruct (Lookup (s_strings s) lo) as [[ln|]|] eqn:L1; try discriminate. destruct (Lookup (s_strings s) fo) as [[fn|]|] eqn:L2; try discriminate. intros E. injection E as <-. exists fo, lo. cbn [fst snd l_number l_column l_file l_line].
      destruct (line_col lc) as (P & B). split; [repeat f_equal; lia|]. auto.
    - intros (? & ? & ? & ? & file & ln & Ew & L1 & L2). injection Ew as <- <- <- <-. rewrite L1, L2. eauto.
  Qed.
  Lemma lines_stateful : stateful (fun st ws => (st, newLineInfo s ws)) (fun _ => line_entry s) line_fine.
  Proof.
    split; [auto|]. intros st ws R. exists st, (newLineInfo s ws). destruct (newLineInfo_spec ws) as (V & G). split; [reflexivity|]. split; [exact R|]. split; [apply Ext_refl|]. split; assumption.
  Qed.
  Lemma mapRes_state {A B} (f : A -> res xerr B) l : forall st, mapState (fun st a => (st, f a)) st l = (st, mapRes f l).
  Proof. induction l as [|a l IH]; intros st; cbn; [reflexivity|]. destruct (f a); [|reflexivity]. rewrite IH. now destruct (mapRes f l). Qed.

  (** *** sections of entries *)
  Lemma sorted_stateful {A} (f : dstate -> list Z -> dstate * res xerr (Z * A)) E good less : (forall x y : Z * A, fst x <> fst y -> less x y = (fst x <? fst y)) -> stateful f E good ->
    stateful (fun st l => match mapState f st l with (st, Err e) => (st, Err e) | (st, Ok es) => (st, Ok (sortSlice _ less es)) end) (fun st => entries_of (E st)) (Forall good).
  Proof.
    intros L H. pose proof (stateful_map f E good H) as (St & G). split; [intros st st' a b X; apply entries_impl; intros; eapply (proj1 H); eauto|].
    intros st l R. destruct (G st l R) as (st' & r & E1 & R' & X & V & T). rewrite E1. exists st'. destruct r as [es|e].
    - eexists. split; [reflexivity|]. split; [exact R'|]. split; [exact X|]. split; [|eauto]. intros b Hb. injection Hb as <-. apply sorted_entries; auto.
    - eexists. split; [reflexivity|]. split; [exact R'|]. split; [exact X|]. split; [discriminate|]. intros F. destruct (T F). discriminate.
  Qed.
  Lemma less_le {A} (x y : Z * A) : fst x <> fst y -> (fst x <=? fst y) = (fst x <? fst y).
  Proof. intros N. destruct (Z.leb_spec (fst x) (fst y)), (Z.ltb_spec (fst x) (fst y)); lia. Qed.
  Lemma newFuncOffsets_stateful : stateful (newFuncOffsets sortSlice s) (fun st => entries_of (func_at st)) (Forall func_fine).
  Proof. apply sorted_stateful; [intros; now apply less_le|exact funcs_stateful]. Qed.
  Lemma newRelocationInfos_stateful : stateful (newRelocationInfos sortSlice s) (fun st => entries_of (relo_at st)) (Forall relo_fine).
  Proof. apply sorted_stateful; [auto|exact relos_stateful]. Qed.
  Lemma newLineInfos_stateful : stateful (fun st l => (st, newLineInfos sortSlice s l)) (fun _ => entries_of (line_entry s)) (Forall line_fine).
  Proof.
    pose proof (sorted_stateful (fun st ws => (st, newLineInfo s ws)) _ _ (fun x y => fst x <=? fst y) (fun x y => less_le x y) lines_stateful) as (St & H). split; [exact St|].
    intros st l R. destruct (H st l R) as (st' & r & E & X). exists st', r. split; [|exact X]. rewrite mapRes_state in E. unfold newLineInfos.
    assert (Q : forall x : res xerr (list (Z * line)), match x with Ok es => (st, Ok (sortSlice _ (fun x y => fst x <=? fst y) es)) | Err e => (st, Err e) end = (st', r) ->
      (st, match x with Err e => Err e | Ok lis => Ok (sortSlice _ (fun x y => fst x <=? fst y) lis) end) = (st', r)) by (intros [x|x]; auto). exact (Q _ E).
  Qed.

  Variable order : list (str * list (list Z)) -> list (str * list (list Z)).
  Hypothesis Horder : forall m, Permutation (order m) m.
  Definition loaded_insns {A} (E : list Z -> Z * A -> Prop) (m : list (str * list (list Z))) (out : list (str * list (Z * A))) : Prop :=
    NoDup (map fst out) /\ (forall name, In name (map fst out) <-> In name (map fst m)) /\
    forall name es, In (name, es) out -> exists rs, In (name, rs) m /\ entries_of E rs es.
  Lemma perSection_spec {A} (f : dstate -> list (list Z) -> dstate * res xerr (list (Z * A))) (E : dstate -> list Z -> Z * A -> Prop) good st m :
    stateful f (fun st => entries_of (E st)) good -> reached st -> NoDup (map fst m) ->
    exists st' r, perSection order f st m = (st', r) /\ reached st' /\ Ext st st' /\ (forall out, r = Ok out -> loaded_insns (E st') m out) /\ (Forall (fun e => good (snd e)) m -> exists out, r = Ok out).
  Proof.
    intros (St & H) R N.
    assert (S' : stateful (fun st e => match f st (snd e) with (st, Err x) => (st, Err x) | (st, Ok a) => (st, Ok (fst e, a)) end)
                   (fun st (e : str * list (list Z)) (o : str * list (Z * A)) => fst o = fst e /\ entries_of (E st) (snd e) (snd o)) (fun e => good (snd e))).
    { split; [intros st1 st2 a b X (E1 & E2); split; [exact E1|]; eapply St; eassumption|]. intros st1 (name & rs) R1. cbn [fst snd]. destruct (H st1 rs R1) as (st2 & r & E1 & R2 & X & V & G). rewrite E1. exists st2. destruct r as [a|e].
      - eexists. split; [reflexivity|]. split; [exact R2|]. split; [exact X|]. split; [|eauto]. intros b Hb. injection Hb as <-. cbn. auto.
      - eexists. split; [reflexivity|]. split; [exact R2|]. split; [exact X|]. split; [discriminate|]. intros Gd. destruct (G Gd). discriminate. }
    destruct (proj2 (stateful_map _ _ _ S') st (order m) R) as (st' & r & E1 & R' & X & V & G). exists st', r. split; [exact E1|]. split; [exact R'|]. split; [exact X|]. split.
    - intros out Ho. specialize (V out Ho). assert (Em : map fst out = map fst (order m)) by (clear -V; induction V as [|a b l l2 (H & _) F IH]; cbn; congruence).
      split; [rewrite Em; eapply Permutation_NoDup; [|exact N]; apply Permutation_map, Permutation_sym, Horder|]. split.
      + intros name. rewrite Em. split; intros Hn; eapply Permutation_in; try exact Hn; apply Permutation_map; [|apply Permutation_sym]; apply Horder.
      + intros name es Hi. clear -V Hi Horder. assert (Hx : exists e, In e (order m) /\ fst e = name /\ entries_of (E st') (snd e) es).
        { clear Horder. induction V as [|a b l l' (H1 & H2) F IH]; [destruct Hi|]. destruct Hi as [->|Hi]; [exists a; split; [now left|]; split; [symmetry; exact H1|exact H2]|]. destruct (IH Hi) as (e & H3 & H4). exists e. split; [now right|exact H4]. }
        destruct Hx as ((n & rs) & Hr & <- & En). exists rs. split; [|exact En]. eapply Permutation_in; [apply Horder|exact Hr].
    - intros F. apply G. eapply Permutation_Forall; [apply Permutation_sym, Horder|exact F].
  Qed.
End Load.
