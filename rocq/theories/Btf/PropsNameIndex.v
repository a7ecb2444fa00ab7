(** C33: lookup of types by their essential name.  C58: lookup by full name. *)
From Coq Require Import ZArith List Lia Bool Sorting.Sorted Sorting.Permutation.
From Verif.Base Require Import GoInt ListExtra.
From Verif.Btf Require Import Wire WireSpec WireProof Types TypesSpec TypesProof Names PropsNames Decode DecodeSpec DecodeRec DecodeTags DecodeProof PropsWire PropsDecode NameIndex.
Import ListNotations.
Open Scope Z_scope.

(** *** Specification *)
(** [e] is the essential name of [s]: [s] without the last suffix of the form ___flavour, if there is one that leaves
    something before it *)
Definition essential (s e : str) : Prop :=
  (s = e /\ forall i, occurs s i -> i = 0%nat) \/
  (e <> [] /\ exists flavour, s = e ++ [underscore; underscore; underscore] ++ flavour /\ forall i, occurs s i -> (i <= length e)%nat).
(** the type with the given ID has the name [s] *)
Definition has_name nm recs (id : Z) (s : str) : Prop := exists r, record recs id r /\ name_of nm r s.
(** [x] is the object that stands for [id] *)
Definition object nm recs (st : dstate) (id : Z) (x : ref) : Prop :=
  TypeID st x = Some id /\ exists st', TypeByID nm recs st id = Some (st', Some x).
(** a type that can be decoded after every history (C31_resolves) *)
Definition decodable nm recs id := all_sound nm recs id /\ protos_first nm recs id.

(** *** Names *)
Lemma essential_iff s e : essential s e <-> newEssentialName s = e.
Proof.
  split.
  - intros [(-> & H)|(Ne & fl & -> & H)]; [now apply C44_keep|now apply C44_strip].
  - intros <-. destruct (C44_total s) as [(E & H)|(fl & Ne & E & H)]; [left; split; [congruence|exact H]|right; split; [exact Ne|]; exists fl; auto].
Qed.
Lemma key_essential s e : s <> [] -> e <> [] -> ~ occurs e 0 -> newEssentialName s = e -> index_key s = e.
Proof.
  intros Ns Ne No E. unfold index_key. unfold newEssentialName in E. destruct s as [|c s]; [congruence|]. 
  destruct (lastIndex_spec (c :: s)) as [(El & _)|(i & El & O & M)]; rewrite El in *.
  - exact E.
  - destruct (Z.eqb_spec (Z.of_nat i) (-1)); [lia|]. destruct (Z.gtb_spec (Z.of_nat i) 0) as [|]; [exact E|]. assert (i = 0%nat) by lia. subst i. subst e. contradiction.
Qed.

(** *** Entries *)
Lemma entry_val h id : 0 <= h -> in_u 32 id -> entry h id = h * 2 ^ 32 + id.
Proof. intros H I. unfold entry. rewrite Z.shiftl_mul_pow2 by lia. apply lor_disjoint_add; [lia|exact I]. Qed.
Lemma entry_hash_val h id : 0 <= h -> in_u 32 id -> entry_hash (entry h id) = h.
Proof. intros H I. unfold entry_hash. rewrite entry_val by assumption. rewrite Z.shiftr_div_pow2 by lia. destruct I. rewrite Z.div_add_l by lia. rewrite Z.div_small by lia. lia. Qed.
Lemma entry_id_val h id : 0 <= h -> in_u 32 id -> entry_id (entry h id) = id.
Proof. intros H I. unfold entry_id, u32, wrapu. rewrite entry_val by assumption. destruct I. change 4294967296 with (2 ^ 32) in *. rewrite (Z.add_comm (h * 2 ^ 32)), Z.mod_add by lia. apply Z.mod_small. lia. Qed.

(** *** Sorting and searching *)
Lemma insert_perm x l : Permutation (x :: l) (insert x l).
Proof. induction l as [|y l IH]; cbn; [reflexivity|]. destruct (x <=? y); [reflexivity|]. rewrite perm_swap. now apply perm_skip. Qed.
Lemma sort_perm l : Permutation l (sort l).
Proof. induction l as [|x l IH]; cbn; [reflexivity|]. etransitivity; [apply perm_skip, IH|apply insert_perm]. Qed.
Lemma insert_sorted x l : StronglySorted Z.le l -> StronglySorted Z.le (insert x l).
Proof.
  induction 1 as [|y l S IH F]; cbn; [repeat constructor|]. destruct (Z.leb_spec x y).
  - constructor; [now constructor|]. constructor; [exact H|]. eapply Forall_impl; [|exact F]. cbn. intros. lia.
  - constructor; [exact IH|]. rewrite Forall_forall in *. intros z Hz. apply (Permutation_in _ (Permutation_sym (insert_perm x l))) in Hz. destruct Hz as [->|Hz]; [lia|auto].
Qed.
Lemma sort_sorted l : StronglySorted Z.le (sort l).
Proof. induction l; cbn; [constructor|now apply insert_sorted]. Qed.
Lemma sorted_strict l : StronglySorted Z.le l -> NoDup l -> StronglySorted Z.lt l.
Proof.
  induction 1 as [|x l S IH F]; intros N; [constructor|]. inversion N; subst. constructor; [auto|]. rewrite Forall_forall in *. intros y Hy. specialize (F y Hy).
  assert (x <> y) by congruence. lia.
Qed.
Lemma sorted_nth l : StronglySorted Z.lt l -> forall i j, (i < j < length l)%nat -> nth i l 0 < nth j l 0.
Proof.
  induction 1 as [|x l S IH F]; intros i j L; cbn [length] in L; [lia|]. destruct j as [|j]; [lia|]. destruct i as [|i]; cbn [nth].
  - rewrite Forall_forall in F. apply F. apply nth_In. lia.
  - apply IH. lia.
Qed.
Lemma binary_search_spec x target : StronglySorted Z.lt x -> forall fuel i j, (i <= j <= length x)%nat -> (j - i <= fuel)%nat ->
  (forall k, (k < i)%nat -> nth k x 0 < target) -> (forall k, (j <= k < length x)%nat -> target <= nth k x 0) ->
  let m := binary_search fuel x target i j in (m <= length x)%nat /\ (forall k, (k < m)%nat -> nth k x 0 < target) /\ (forall k, (m <= k < length x)%nat -> target <= nth k x 0).
Proof.
  intros S. induction fuel as [|f IH]; intros i j L F Lo Hi; cbn [binary_search].
  - assert (i = j) by lia. subst. cbv zeta. split; [lia|auto].
  - destruct (Nat.ltb_spec i j); [|assert (i = j) by lia; subst; cbv zeta; split; [lia|auto]]. cbv zeta.
    assert (Hd : (i <= Nat.div (i + j) 2 < j)%nat).
    { split; [apply Nat.div_le_lower_bound; lia|apply Nat.div_lt_upper_bound; lia]. }
    set (h := Nat.div (i + j) 2) in *. clearbody h. destruct (Z.ltb_spec (nth h x 0) target).
    + apply IH; [lia|lia| |exact Hi]. intros k Hk. destruct (Nat.eq_dec k h) as [->|]; [assumption|].
      pose proof (sorted_nth x S k h ltac:(lia)). lia.
    + apply IH; [lia|lia|exact Lo|]. intros k Hk. destruct (Nat.eq_dec k h) as [->|]; [assumption|].
      pose proof (sorted_nth x S h k ltac:(lia)). lia.
Qed.

Section Lookup.
  Variable hash : str -> Z.
  Hypothesis Hhash : forall s, in_u 32 (hash s).
  Variable nm : Z -> option str.
  Variable recs : list wrec.
  Hypothesis Hok : Forall rec_ok recs.
  Hypothesis Hlen : Z.of_nat (length recs) < 2 ^ 32.

  Definition is_entry (i : Z) (l : list wrec) (e : Z) : Prop := exists k r s, nth_error l k = Some r /\ nm (name_off r) = Some s /\ s <> [] /\ e = entry (hash (index_key s)) (i + Z.of_nat k).
  Lemma entries_spec : forall l i e, In e (entries_from hash nm i l) <-> is_entry i l e.
  Proof.
    induction l as [|r l IH]; intros i e; cbn [entries_from].
    - split; [intros []|intros (k & r & s & E & _); destruct k; discriminate E].
    - rewrite in_app_iff, IH. split.
      + intros [H|(k & r' & s & E & N & Ns & ->)].
        * change (NameOff (hdr r)) with (name_off r) in H. destruct (nm (name_off r)) as [[|c s]|] eqn:N; [destruct H| |destruct H]. destruct H as [<-|[]]. exists 0%nat, r, (c :: s). repeat split; try assumption; try congruence. f_equal. lia.
        * exists (S k), r', s. repeat split; try assumption. f_equal. lia.
      + intros ([|k] & r' & s & E & N & Ns & ->).
        * left. injection E as <-. change (NameOff (hdr r)) with (name_off r). rewrite N. destruct s as [|c s]; [congruence|]. left. f_equal. lia.
        * right. exists k, r', s. repeat split; try assumption. f_equal. lia.
  Qed.
  Lemma is_entry_range i l e : is_entry i l e -> 0 <= i -> i + Z.of_nat (length l) <= 2 ^ 32 -> exists h id, e = entry h id /\ in_u 32 h /\ in_u 32 id /\ i <= id.
  Proof.
    intros (k & r & s & E & _ & _ & ->) Hi L. assert (k < length l)%nat by (apply nth_error_Some; congruence). eexists _, _. split; [reflexivity|]. split; [apply Hhash|]. split; [unfold in_u; lia|lia].
  Qed.
  Lemma entries_nodup : forall l i, 0 <= i -> i + Z.of_nat (length l) <= 2 ^ 32 -> NoDup (entries_from hash nm i l).
  Proof.
    induction l as [|r l IH]; intros i Hi L; cbn [entries_from length] in *; [constructor|]. change (NameOff (hdr r)) with (name_off r). 
    assert (IHl : NoDup (entries_from hash nm (i + 1) l)) by (apply IH; lia).
    destruct (nm (name_off r)) as [[|c s]|]; cbn [app]; auto. constructor; [|exact IHl]. intros H. apply entries_spec in H. 
    destruct (is_entry_range _ _ _ H) as (h & id & E & Hh & Hid & Lid); [lia|lia|]. 
    assert (A : entry_id (entry (hash (index_key (c :: s))) i) = entry_id (entry h id)) by now rewrite E.
    rewrite !entry_id_val in A; [lia|apply Hh|exact Hid|apply Hhash|unfold in_u; lia].
  Qed.
  Lemma index_sorted : StronglySorted Z.lt (namedTypes hash nm recs).
  Proof.
    apply sorted_strict; [apply sort_sorted|]. eapply Permutation_NoDup; [apply sort_perm|]. apply entries_nodup; lia.
  Qed.
  Lemma index_In e : In e (namedTypes hash nm recs) <-> is_entry 1 recs e.
  Proof. rewrite <- entries_spec. split; apply Permutation_in; [apply Permutation_sym|]; apply sort_perm. Qed.

  Lemma take_hash_spec h l : 0 <= h -> StronglySorted Z.lt l -> (forall e, In e l -> exists h' id, e = entry h' id /\ 0 <= h' /\ in_u 32 id) -> (forall e, In e l -> Z.shiftl h 32 <= e) ->
    StronglySorted Z.lt (take_hash h l) /\ forall id, In id (take_hash h l) <-> in_u 32 id /\ In (entry h id) l.
  Proof.
    intros Hh S. induction S as [|e l S IH F]; intros V G; cbn [take_hash].
    - split; [constructor|]. intros id. split; [intros []|intros (_ & [])].
    - destruct (V e (or_introl eq_refl)) as (h' & id' & -> & Hh' & Hid'). rewrite entry_hash_val, entry_id_val by assumption.
      destruct IH as (S' & I'); [intros; apply V; now right|intros; apply G; now right|].
      rewrite Forall_forall in F. destruct (Z.eqb_spec h' h) as [->|Ne].
      + split.
        * constructor; [exact S'|]. apply Forall_forall. intros id Hi. apply I' in Hi as (Hu & Hi). specialize (F _ Hi). rewrite !entry_val in F by assumption. lia.
        * intros id. cbn [In]. rewrite I'. split.
          -- intros [<-|(Hu & H)]; [split; [exact Hid'|now left]|split; [exact Hu|now right]].
          -- intros (Hu & [E|H]); [left|right; auto]. rewrite !entry_val in E by assumption. lia.
      + split; [constructor|]. intros id. split; [intros []|]. intros (Hu & H). exfalso.
        assert (h <= h').
        { pose proof (G _ (or_introl eq_refl)) as G1. rewrite entry_val in G1 by assumption. rewrite Z.shiftl_mul_pow2 in G1 by lia. destruct Hid'. nia. }
        assert (entry h' id' <= entry h id) by (destruct H as [->|H]; [lia|specialize (F _ H); lia]).
        rewrite !entry_val in H1 by assumption. destruct Hid', Hu. nia.
  Qed.
  Lemma Find_spec name : StronglySorted Z.lt (Find hash (namedTypes hash nm recs) name) /\
    forall id, In id (Find hash (namedTypes hash nm recs) name) <-> exists r s, record recs id r /\ nm (name_off r) = Some s /\ s <> [] /\ hash (index_key s) = hash name.
  Proof.
    set (idx := namedTypes hash nm recs). pose proof index_sorted as Sd. fold idx in Sd. unfold Find.
    destruct (binary_search_spec idx (Z.shiftl (hash name) 32) Sd (length idx) 0 (length idx)) as (Lm & Lo & Hi); [lia|lia|intros; lia|intros; lia|].
    set (m := binary_search (length idx) idx (Z.shiftl (hash name) 32) 0 (length idx)) in *. clearbody m.
    assert (Hin : forall e, In e (skipn m idx) <-> In e idx /\ Z.shiftl (hash name) 32 <= e).
    { intros e. split.
      - intros H. split; [rewrite <- (firstn_skipn m idx); apply in_or_app; now right|]. apply In_nth with (d := 0) in H as (k & Lk & <-). rewrite skipn_length in Lk.
        assert (E : nth k (skipn m idx) 0 = nth (m + k) idx 0).
        { pose proof (nth_error_skipn idx m k) as E. erewrite !nth_error_nth' in E; [injection E as E; exact E|lia|rewrite skipn_length; lia]. }
        rewrite E. apply Hi. lia.
      - intros (H & L). rewrite <- (firstn_skipn m idx) in H. apply in_app_or in H as [H|H]; [|exact H]. exfalso.
        apply In_nth with (d := 0) in H as (k & Lk & <-). rewrite firstn_length in Lk.
        assert (E : nth k (firstn m idx) 0 = nth k idx 0).
        { pose proof (nth_error_firstn_lt idx m k ltac:(lia)) as E. erewrite !nth_error_nth' in E; [injection E as E; exact E|lia|rewrite firstn_length; lia]. }
        rewrite E in L. specialize (Lo k ltac:(lia)). lia. }
    assert (Sk : StronglySorted Z.lt (skipn m idx)).
    { clear -Sd. revert m. induction Sd as [|x l S IH F]; intros [|m]; cbn; try constructor; auto. }
    destruct (Hhash name) as [Hn1 Hn2].
    destruct (take_hash_spec (hash name) (skipn m idx)) as (S1 & I1); [exact Hn1|exact Sk| | |].
    - intros e He. apply Hin in He as (He & _). apply index_In in He. destruct (is_entry_range _ _ _ He) as (h & id & -> & [] & Hid & _); [lia|lia|]. eexists _, _. split; [reflexivity|]. split; assumption.
    - intros e He. now apply Hin in He.
    - split; [exact S1|]. intros id. rewrite I1, Hin. unfold idx. rewrite index_In. split.
      + intros (Hu & (k & r & s & E & N & Ns & Ee) & _).
        assert (Lk : (k < length recs)%nat) by (apply nth_error_Some; congruence).
        assert (Hk : in_u 32 (1 + Z.of_nat k)) by (unfold in_u; lia).
        pose proof (f_equal entry_hash Ee) as Eh. rewrite !entry_hash_val in Eh by (assumption || apply Hhash).
        pose proof (f_equal entry_id Ee) as Ei. rewrite !entry_id_val in Ei by (assumption || apply Hhash).
        exists r, s. split; [split; [lia|]; replace (Z.to_nat (id - 1)) with k by lia; exact E|]. auto.
      + intros (r & s & (P & E) & N & Ns & Eh).
        assert (Lk : (Z.to_nat (id - 1) < length recs)%nat) by (apply nth_error_Some; congruence).
        assert (Hu : in_u 32 id) by (unfold in_u; lia).
        split; [exact Hu|]. split.
        * exists (Z.to_nat (id - 1)), r, s. rewrite Eh. repeat split; try assumption. f_equal. lia.
        * rewrite entry_val by assumption. rewrite Z.shiftl_mul_pow2 by lia. destruct Hu. lia.
  Qed.
  Lemma type_id st id : Inv nm recs st -> cached st id -> In (addr st id, id) (d_ids st) -> TypeID st (addr st id) = Some id.
  Proof.
    intros I C J. unfold addr in *. destruct (Z.eqb_spec id 0) as [->|N]; [reflexivity|]. destruct C as [|(a & Aa)]; [contradiction|]. rewrite Aa in *. cbn.
    destruct (find_id_some _ _ _ J) as (id' & E). rewrite E. apply find_id_spec in E. f_equal. now apply (proj2 (proj2 (i_ids _ _ _ I a id J))).
  Qed.
  Lemma object_addr st id : Inv nm recs st -> GoodC nm recs st [] -> cached st id -> In (addr st id, id) (d_ids st) -> object nm recs st id (addr st id).
  Proof.
    intros I G C J. split; [now apply type_id|]. unfold TypeByID. replace (length recs + 2)%nat with (S (length recs + 1)) by lia. cbn [inflate].
    unfold addr, success. destruct (Z.eqb_spec id 0); [eauto|]. destruct C as [|(a & Aa)]; [contradiction|]. rewrite Aa. eauto.
  Qed.
  Lemma name_cached st id r s : Inv nm recs st -> cached st id -> record recs id r -> name_at st (addr st id) = s -> name_of nm r s.
  Proof.
    intros I C R <-. unfold name_at, addr. destruct (Z.eqb_spec id 0) as [->|N]; [destruct R; lia|]. destruct C as [|(a & Aa)]; [contradiction|]. rewrite Aa. cbn [deref].
    destruct (i_types _ _ _ I _ _ Aa) as (n & r' & p & -> & R' & _ & (_ & Nn & _)). now rewrite (record_fun _ _ _ _ R R').
  Qed.
  Lemma name_ext st st' id : Inv nm recs st -> Ext st st' -> cached st id -> name_at st' (addr st' id) = name_at st (addr st id).
  Proof.
    intros I E C. destruct (cached_ext _ _ _ E C) as (_ & ->). unfold name_at, addr. destruct (Z.eqb_spec id 0); [reflexivity|]. destruct C as [|(a & Aa)]; [contradiction|]. rewrite Aa. cbn [deref].
    rewrite (Ext_nth _ _ _ E); [reflexivity|]. eapply types_pos; eassumption.
  Qed.

  Lemma loop_ok name : forall ids st, Inv nm recs st -> GoodC nm recs st [] -> exists st' res, typesByName_loop nm recs st name ids = Some (st', res) /\
    Inv nm recs st' /\ GoodC nm recs st' [] /\ Ext st st' /\
    match res with
    | None => exists id, In id ids /\ ~ decodable nm recs id
    | Some rs => (forall id, In id ids -> cached st' id /\ In (addr st' id, id) (d_ids st')) /\
        rs = map (addr st') (filter (fun id => if list_eq_dec Z.eq_dec (newEssentialName (name_at st' (addr st' id))) name then true else false) ids)
    end.
  Proof.
    induction ids as [|id ids IH]; intros st I G; cbn [typesByName_loop].
    - exists st, (Some []). split; [reflexivity|]. split; [exact I|]. split; [exact G|]. split; [apply Ext_refl|]. split; [intros id []|reflexivity].
    - destruct (one_query nm recs Hok st id I G) as (st1 & r & E & [I1 E1 G1 T1 V1 _]). rewrite E. destruct r as [x|].
      + destruct (V1 x eq_refl) as (Ex & Cx & Jx). destruct (IH st1 I1 G1) as (st2 & res & E' & I2 & G2 & E2 & R). rewrite E'. exists st2.
        destruct res as [rs|].
        * eexists. split; [reflexivity|]. split; [exact I2|]. split; [exact G2|]. split; [eapply Ext_trans; eassumption|]. destruct R as (Rc & ->).
          destruct (cached_ext _ _ _ E2 Cx) as (Cx2 & Ax2). pose proof (name_ext _ _ _ I1 E2 Cx) as Nx. split.
          -- intros j [<-|Hj]; [|auto]. split; [exact Cx2|]. rewrite Ax2, <- Ex. now apply (e_ids _ _ E2).
          -- cbn [filter]. rewrite Ex, <- Nx. destruct (list_eq_dec Z.eq_dec _ _); cbn [app map]; [now rewrite Ax2|reflexivity].
        * exists None. split; [reflexivity|]. split; [exact I2|]. split; [exact G2|]. split; [eapply Ext_trans; eassumption|]. destruct R as (j & Hj & Nj). exists j. split; [now right|exact Nj].
      + exists st1, None. split; [reflexivity|]. split; [exact I1|]. split; [exact G1|]. split; [exact E1|]. exists id. split; [now left|]. intros D. exact (T1 D eq_refl).
  Qed.

  (** what TypesByName does *)
  Lemma types_by_name name st : Inv nm recs st -> GoodC nm recs st [] -> name <> [] -> ~ occurs name 0 ->
    exists st' res, TypesByName hash nm recs st name = Some (st', res) /\ Inv nm recs st' /\ GoodC nm recs st' [] /\ Ext st st' /\
    match res with
    | Types xs => exists ids, ids <> [] /\ StronglySorted Z.lt ids /\ (forall id, In id ids <-> exists s, has_name nm recs id s /\ newEssentialName s = name) /\
        xs = map (addr st') ids /\ (forall id, In id ids -> cached st' id /\ In (addr st' id, id) (d_ids st'))
    | NotFound => forall id s, has_name nm recs id s -> newEssentialName s <> name
    | Failed => exists id r s, record recs id r /\ nm (name_off r) = Some s /\ hash (index_key s) = hash name /\ ~ decodable nm recs id
    end.
  Proof.
    intros I G Nn No. unfold TypesByName. destruct (Find_spec name) as (S & F).
    destruct (loop_ok name (Find hash (namedTypes hash nm recs) name) st I G) as (st' & res & -> & I' & G' & E' & R).
    destruct res as [rs|].
    2:{ exists st', Failed. split; [reflexivity|]. repeat (split; [assumption|]). destruct R as (id & Hid & D). apply F in Hid as (r & s & Rc & N & _ & Eh). exists id, r, s. auto. }
    destruct R as (Rc & Rr).
    set (sel := filter _ _) in Rr.
    assert (Sel : forall id, In id sel <-> exists s, has_name nm recs id s /\ newEssentialName s = name).
    { intros id. unfold sel. rewrite filter_In, F. split.
      - intros ((r & s & Rr' & N & Ns & Eh) & H). destruct (list_eq_dec Z.eq_dec _ _) as [En|]; [|discriminate H]. eexists. split; [|exact En].
        exists r. split; [exact Rr'|]. eapply (name_cached st' id); eauto. apply (Rc id), F. exists r, s. auto.
      - intros (s & (r & Rr' & Ns) & En).
        assert (Ne : s <> []) by (intros ->; cbn in En; congruence).
        assert (N : nm (name_off r) = Some s) by (unfold name_of in Ns; destruct (named_kind (kind r)); [exact Ns|contradiction]).
        assert (Q : exists r s, record recs id r /\ nm (name_off r) = Some s /\ s <> [] /\ hash (index_key s) = hash name).
        { exists r, s. repeat split; try assumption; try apply Rr'. f_equal. apply key_essential; auto. }
        split; [exact Q|]. apply F in Q. destruct (Rc id Q) as (Cc & _). pose proof (name_cached st' id r _ I' Cc Rr' eq_refl) as Nc.
        assert (Es : name_at st' (addr st' id) = s). { unfold name_of in Nc, Ns. destruct (named_kind (kind r)); congruence. }
        rewrite Es, En. now destruct (list_eq_dec Z.eq_dec name name). }
    assert (Srt : StronglySorted Z.lt sel).
    { unfold sel. clear -S. induction S as [|x l S IH Fx]; cbn [filter]; [constructor|]. destruct (if list_eq_dec Z.eq_dec _ _ then true else false); [|exact IH].
      constructor; [exact IH|]. rewrite Forall_forall in *. intros y Hy. apply filter_In in Hy as (Hy & _). auto. }
    destruct rs as [|x rs].
    - exists st', NotFound. split; [reflexivity|]. repeat (split; [assumption|]). intros id s Hn En. assert (H : In id sel) by (apply Sel; eauto). destruct sel; [exact H|discriminate Rr].
    - exists st', (Types (x :: rs)). split; [reflexivity|]. repeat (split; [assumption|]). exists sel. split; [intros E; rewrite E in Rr; discriminate Rr|]. split; [exact Srt|]. split; [exact Sel|]. split; [exact Rr|].
      intros id H. unfold sel in H. apply filter_In in H as (H & _). auto.
  Qed.
End Lookup.

(** ** C33 *)
(** Whatever the hash function and after every history of queries, a lookup by an essential name returns the objects of
    exactly the types with that essential name, each once and in ascending order of their IDs, or ErrNotFound if there is
    none.  It fails otherwise only if a type whose index name has the same hash can't be decoded.
    Missing: names starting with ___ (see C33_prefix_refuted). *)
Theorem C33_exact_partial : forall hash nm recs ids st rs name, (forall s, in_u 32 (hash s)) -> Forall rec_ok recs -> Z.of_nat (length recs) < 2 ^ 32 ->
  queries nm recs fresh ids = Some (st, rs) -> name <> [] -> ~ occurs name 0 ->
  exists st' res, TypesByName hash nm recs st name = Some (st', res) /\
    match res with
    | Types xs => exists ids, ids <> [] /\ StronglySorted Z.lt ids /\ (forall id, In id ids <-> exists s, has_name nm recs id s /\ essential s name) /\
        Forall2 (object nm recs st') ids xs
    | NotFound => forall id s, has_name nm recs id s -> ~ essential s name
    | Failed => exists id r s, record recs id r /\ nm (name_off r) = Some s /\ hash (index_key s) = hash name /\ ~ decodable nm recs id
    end.
Proof.
  intros hash nm recs ids st rs name Hh Hok Hl Q Nn No. destruct (reachable _ _ Hok _ _ _ Q) as (I & G & _).
  destruct (types_by_name hash Hh nm recs Hok Hl name st I G Nn No) as (st' & res & E & I' & G' & _ & R). exists st', res. split; [exact E|]. destruct res as [xs| |].
  - destruct R as (sel & Ne & S & M & -> & C). exists sel. split; [exact Ne|]. split; [exact S|]. split.
    + intros id. rewrite M. split; intros (s & A & B); exists s; (split; [exact A|]); now apply essential_iff.
    + clear -C I' G'. induction sel as [|x sel IH]; cbn [map]; constructor; [|apply IH; intros; apply C; now right].
      destruct (C x (or_introl eq_refl)). now apply object_addr.
  - intros id s A B. apply essential_iff in B. exact (R id s A B).
  - exact R.
Qed.
(** In a section all of whose types can be decoded a lookup never fails. *)
Theorem C33_found_partial : forall hash nm recs ids st rs name, (forall s, in_u 32 (hash s)) -> Forall rec_ok recs -> Z.of_nat (length recs) < 2 ^ 32 ->
  queries nm recs fresh ids = Some (st, rs) -> name <> [] -> ~ occurs name 0 -> (forall id r, record recs id r -> decodable nm recs id) ->
  ((exists id s, has_name nm recs id s /\ essential s name) -> exists st' xs, TypesByName hash nm recs st name = Some (st', Types xs)) /\
  ((forall id s, has_name nm recs id s -> ~ essential s name) -> exists st', TypesByName hash nm recs st name = Some (st', NotFound)).
Proof.
  intros hash nm recs ids st rs name Hh Hok Hl Q Nn No D. destruct (C33_exact_partial hash nm recs ids st rs name Hh Hok Hl Q Nn No) as (st' & res & E & R). rewrite E. split.
  - intros (id & s & A & B). destruct res as [xs| |]; [eauto|destruct (R id s A B)|]. destruct R as (j & r & s' & Rr & _ & _ & N). destruct (N (D j r Rr)).
  - intros H. destruct res as [xs| |]; [|eauto|].
    + destruct R as (sel & Ne & _ & M & _). destruct sel as [|j sel]; [congruence|]. destruct (proj1 (M j) (or_introl eq_refl)) as (s & A & B). destruct (H j s A B).
    + destruct R as (j & r & s' & Rr & _ & _ & N). destruct (N (D j r Rr)).
Qed.

(** *** C33: what doesn't hold *)
Definition a_ : str := [97].
Definition a___b : str := [97; 95; 95; 95; 98].
Definition a___c : str := [97; 95; 95; 95; 99].
Definition ___a : str := [95; 95; 95; 97].
Definition names : Z -> option str := fun o => if o =? 0 then Some [] else if o =? 1 then Some a_ else if o =? 2 then Some a___b else if o =? 3 then Some a___c else if o =? 4 then Some ___a else if o =? 5 then Some [98; 98] else None.
Definition int_rec (name : Z) : wrec := mkRec (mkBtfType name (1 * 2 ^ 24) 4) [32].
Ltac recs_ok := repeat (apply Forall_cons; [split; [unfold type_ranges, in_u; cbn; lia|split; [apply DataLen_aux; reflexivity|repeat constructor; unfold in_u; cbn; lia]]|]); constructor.

(** A type whose name starts with ___ is indexed under the empty name, so that it isn't found (unless the hashes of its
    name and the empty name happen to be equal). *)
Theorem C33_prefix_refuted : forall hash, (forall s, in_u 32 (hash s)) -> hash ___a <> hash [] ->
  Forall rec_ok [int_rec 4] /\ has_name names [int_rec 4] 1 ___a /\ essential ___a ___a /\
  (exists st x, TypeByID names [int_rec 4] fresh 1 = Some (st, Some x)) /\ TypesByName hash names [int_rec 4] fresh ___a = Some (fresh, NotFound).
Proof.
  intros hash Hh Hn. split; [recs_ok|]. split; [exists (int_rec 4); split; [split; [lia|reflexivity]|reflexivity]|]. split; [apply essential_iff; reflexivity|].
  split; [eexists _, _; vm_compute; reflexivity|]. unfold TypesByName.
  destruct (Find_spec hash Hh names [int_rec 4] ltac:(cbn; lia) ___a) as (_ & F). destruct (Find hash (namedTypes hash names [int_rec 4]) ___a) as [|j l]; [reflexivity|].
  destruct (proj1 (F j) (or_introl eq_refl)) as (r & s & (P & R) & N & _ & Eh). destruct (Z.to_nat (j - 1)) as [|[|k]]; try discriminate R. injection R as <-. injection N as <-. 
  exfalso. apply Hn. now rewrite <- Eh.
Qed.
(** If the section has a type that can't be decoded, whether a lookup of another name fails depends on the hash function,
    which is chosen at random. *)
Theorem C33_hash_refuted : let recs := [int_rec 1; mkRec (mkBtfType 5 (8 * 2 ^ 24) 9) []] in
  let h1 := fun _ : str => 0 in let h2 := fun s : str => Z.of_nat (length s) in
  Forall rec_ok recs /\ has_name names recs 1 a_ /\ (exists st, TypesByName h1 names recs fresh a_ = Some (st, Failed)) /\
  exists st x, TypesByName h2 names recs fresh a_ = Some (st, Types [x]).
Proof.
  cbv zeta. split; [recs_ok|]. split; [exists (int_rec 1); split; [split; [lia|reflexivity]|reflexivity]|].
  split; [eexists; vm_compute; reflexivity|eexists _, _; vm_compute; reflexivity].
Qed.
(** three types with two flavours: all are found by the essential name, whatever the hash function *)
Definition flavours : list wrec := [int_rec 2; int_rec 1; int_rec 5; int_rec 3].
Lemma decodable_ints recs id : Forall rec_ok recs -> (forall t, ~ tags_type recs 0 t) -> (forall id r, record recs id r -> kind r = 1) -> (exists st x, TypeByID names recs fresh id = Some (st, Some x)) -> decodable names recs id.
Proof.
  intros Ok T0 K (st & x & E). split; [eapply (C31_errors names recs [] fresh []); eauto; try reflexivity; intros []|]. intros j r t _ R Kr. rewrite (K j r R) in Kr. discriminate Kr.
Qed.
Example C33_example : Forall rec_ok flavours /\ (forall id r, record flavours id r -> decodable names flavours id) /\
  forall hash, (forall s, in_u 32 (hash s)) -> hash [98; 98] <> hash a_ -> exists st, TypesByName hash names flavours fresh a_ = Some (st, Types [RPtr 0; RPtr 1; RPtr 2]) /\
    map (TypeID st) [RPtr 0; RPtr 1; RPtr 2] = [Some 1; Some 2; Some 4].
Proof.
  assert (Ok : Forall rec_ok flavours) by recs_ok. split; [exact Ok|]. split.
  - intros id r (P & R). apply decodable_ints; [exact Ok|intros t H; apply declTags_spec in H; exact H| |].
    + intros id' r' (_ & R'). apply nth_error_In in R'. cbn in R'. decompose [or] R'; subst; try reflexivity. contradiction.
    + assert (L : (Z.to_nat (id - 1) < length flavours)%nat) by (apply nth_error_Some; congruence). cbn in L. assert (id = 1 \/ id = 2 \/ id = 3 \/ id = 4) as [->|[->|[->| ->]]] by lia; eexists _, _; vm_compute; reflexivity.
  - intros hash Hh Hn. unfold TypesByName. destruct (Find_spec hash Hh names flavours ltac:(cbn; lia) a_) as (S & F).
    assert (E : Find hash (namedTypes hash names flavours) a_ = [1; 2; 4]).
    { apply sorted_ext; [exact S|repeat constructor|]. intros id. rewrite F. split.
      - intros (r & s & (P & R) & N & _ & Eh). cbn [In]. destruct (Z.to_nat (id - 1)) as [|[|[|[|k]]]] eqn:Ei; [lia|lia| |lia|now destruct k].
        injection R as <-. injection N as <-. exfalso. exact (Hn Eh).
      - intros [<-|[<-|[<-|[]]]]; eexists _, _; (split; [split; [lia|reflexivity]|]); (split; [reflexivity|]); (split; [discriminate|reflexivity]). }
    rewrite E. eexists. split; vm_compute; reflexivity.
Qed.

(** ** C58 *)
(** [matching name ids]: the types with that full name *)
Definition matching nm recs (name : str) (ids : list Z) : Prop := StronglySorted Z.lt ids /\ forall id, In id ids <-> has_name nm recs id name.
(** at most one type has the same essential name but another full name *)
Definition one_flavour nm recs (name : str) : Prop := forall e id id' s s', essential name e -> has_name nm recs id s -> essential s e -> s <> name ->
  has_name nm recs id' s' -> essential s' e -> s' <> name -> id = id'.
(** what the full names of the objects in the list are *)
Lemma filter_names_ok st name : forall l, (forall i j t t', nth_error l i = Some t -> nth_error l j = Some t' -> name_at st t <> name -> name_at st t' <> name -> i = j) ->
  filter_names st name l = filter (fun t => if list_eq_dec Z.eq_dec (name_at st t) name then true else false) l.
Proof.
  fix IH 1. intros [|t l] H; [reflexivity|]. cbn [filter_names filter]. 
  assert (Hl : forall i j t t', nth_error l i = Some t -> nth_error l j = Some t' -> name_at st t <> name -> name_at st t' <> name -> i = j).
  { intros i j u u' Hu Hu' N N'. specialize (H (S i) (S j) u u' Hu Hu' N N'). congruence. }
  destruct (list_eq_dec Z.eq_dec (name_at st t) name) as [E|E].
  - f_equal. apply IH. exact Hl.
  - destruct l as [|t' l]; [reflexivity|]. cbn [filter]. destruct (list_eq_dec Z.eq_dec (name_at st t') name) as [E'|E'].
    + f_equal. apply IH. intros i j u u' Hu Hu' N N'. specialize (Hl (S i) (S j) u u' Hu Hu' N N'). congruence.
    + specialize (H 0%nat 1%nat t t' eq_refl eq_refl E E'). discriminate H.
Qed.

Section ByFullName.
  Variable hash : str -> Z.
  Hypothesis Hhash : forall s, in_u 32 (hash s).
  Variable nm : Z -> option str.
  Variable recs : list wrec.
  Hypothesis Hok : Forall rec_ok recs.
  Hypothesis Hlen : Z.of_nat (length recs) < 2 ^ 32.
  Variable name : str.
  Hypothesis Hne : newEssentialName name <> [].
  Hypothesis Hocc : ~ occurs (newEssentialName name) 0.

  Lemma has_name_fun id s s' : has_name nm recs id s -> has_name nm recs id s' -> s = s'.
  Proof. intros (r & R & N) (r' & R' & N'). rewrite (record_fun _ _ _ _ R R') in *. unfold name_of in *. destruct (named_kind (kind r')); congruence. Qed.
  Lemma any_types st : Inv nm recs st -> GoodC nm recs st [] -> one_flavour nm recs name ->
    exists st' res, AnyTypesByName hash nm recs st name = Some (st', res) /\ Inv nm recs st' /\ GoodC nm recs st' [] /\
    match res with
    | Types xs => exists ids, matching nm recs name ids /\ xs = map (addr st') ids /\ (forall id, In id ids -> cached st' id /\ In (addr st' id, id) (d_ids st'))
    | NotFound => forall id, ~ has_name nm recs id name
    | Failed => exists id r s, record recs id r /\ nm (name_off r) = Some s /\ hash (index_key s) = hash (newEssentialName name) /\ ~ decodable nm recs id
    end.
  Proof.
    intros I G One. unfold AnyTypesByName. destruct (types_by_name hash Hhash nm recs Hok Hlen (newEssentialName name) st I G Hne Hocc) as (st' & res & -> & I' & G' & _ & R).
    destruct res as [xs| |].
    - destruct R as (ids & _ & S & M & -> & C). exists st', (Types (filter_names st' name (map (addr st') ids))). split; [reflexivity|]. split; [exact I'|]. split; [exact G'|].
      assert (Nm : forall id, In id ids -> has_name nm recs id (name_at st' (addr st' id))).
      { intros id Hi. destruct (proj1 (M id) Hi) as (s & (r & Rr & _) & _). exists r. split; [exact Rr|]. eapply name_cached; eauto. now apply C. }
      rewrite filter_names_ok.
      + exists (filter (fun id => if list_eq_dec Z.eq_dec (name_at st' (addr st' id)) name then true else false) ids). split; [split|split].
        * clear -S. induction S as [|x l S IH Fx]; cbn [filter]; [constructor|]. destruct (if list_eq_dec Z.eq_dec _ _ then true else false); [|exact IH].
          constructor; [exact IH|]. rewrite Forall_forall in *. intros y Hy. apply filter_In in Hy as (Hy & _). auto.
        * intros id. rewrite filter_In. split.
          -- intros (Hi & H). destruct (list_eq_dec Z.eq_dec _ _) as [E|]; [|discriminate H]. rewrite <- E. auto.
          -- intros H. assert (Hi : In id ids) by (apply M; exists name; auto). split; [exact Hi|]. rewrite (has_name_fun _ _ _ (Nm _ Hi) H). now destruct (list_eq_dec Z.eq_dec name name).
        * clear. induction ids as [|x ids IH]; [reflexivity|]. cbn [map filter]. destruct (if list_eq_dec Z.eq_dec _ _ then true else false); cbn [map]; now rewrite IH.
        * intros id Hi. apply filter_In in Hi as (Hi & _). auto.
      + intros i j t t' Hi Hj N N'. rewrite nth_error_map' in Hi, Hj. destruct (nth_error ids i) as [x|] eqn:Ei; [|discriminate Hi]. destruct (nth_error ids j) as [y|] eqn:Ej; [|discriminate Hj].
        cbn in Hi, Hj. injection Hi as <-. injection Hj as <-. pose proof (nth_error_In _ _ Ei) as Ix. pose proof (nth_error_In _ _ Ej) as Iy.
        assert (Ess : forall z, In z ids -> essential (name_at st' (addr st' z)) (newEssentialName name)).
        { intros z Hz. destruct (proj1 (M z) Hz) as (s & A & B). rewrite (has_name_fun _ _ _ (Nm _ Hz) A). now apply essential_iff. }
        assert (x = y) by (eapply (One (newEssentialName name) x y); eauto; now apply essential_iff). subst y.
        assert (Nd : NoDup ids) by (clear -S; induction S as [|z l S IH F]; constructor; [intros Hz; rewrite Forall_forall in F; specialize (F _ Hz); lia|exact IH]).
        apply (NoDup_nth_error ids); [exact Nd|apply nth_error_Some; congruence|congruence].
    - exists st', NotFound. split; [reflexivity|]. split; [exact I'|]. split; [exact G'|]. intros id H. exact (R id name H eq_refl).
    - exists st', Failed. split; [reflexivity|]. split; [exact I'|]. split; [exact G'|]. exact R.
  Qed.
End ByFullName.

Lemma essential_ne name : name <> [] -> newEssentialName name <> [].
Proof. intros N E. destruct (C44_total name) as [(K & _)|(fl & Ne & _)]; congruence. Qed.
Lemma essential_occ name : ~ occurs name 0 -> ~ occurs (newEssentialName name) 0.
Proof.
  intros N H. apply N. destruct (C44_total name) as [(K & _)|(fl & _ & E & _)]; [now rewrite K in H|]. rewrite E. clear E N. destruct H as (p & q & E & L). destruct p; [|discriminate L]. cbn in E.
  rewrite E. exists [], (q ++ [underscore; underscore; underscore] ++ fl). split; [|reflexivity]. reflexivity.
Qed.
Lemma map_objects nm recs st ids : Inv nm recs st -> GoodC nm recs st [] -> (forall id, In id ids -> cached st id /\ In (addr st id, id) (d_ids st)) -> Forall2 (object nm recs st) ids (map (addr st) ids).
Proof.
  intros I G C. induction ids as [|x sel IH]; cbn [map]; constructor; [|apply IH; intros; apply C; now right]. destruct (C x (or_introl eq_refl)). now apply object_addr.
Qed.

(** If at most one type has the same essential name and another full name, AnyTypesByName returns the objects of exactly the
    types with the given name in ascending order of their IDs.  (It may return an empty list, see C58_empty_refuted.) *)
Theorem C58_any_types_partial : forall hash nm recs ids st rs name, (forall s, in_u 32 (hash s)) -> Forall rec_ok recs -> Z.of_nat (length recs) < 2 ^ 32 ->
  queries nm recs fresh ids = Some (st, rs) -> name <> [] -> ~ occurs name 0 -> one_flavour nm recs name ->
  exists st' res, AnyTypesByName hash nm recs st name = Some (st', res) /\
    match res with
    | Types xs => exists ids, matching nm recs name ids /\ Forall2 (object nm recs st') ids xs
    | NotFound => forall id, ~ has_name nm recs id name
    | Failed => exists id r, record recs id r /\ ~ decodable nm recs id
    end.
Proof.
  intros hash nm recs ids st rs name Hh Hok Hl Q Nn No O. destruct (reachable _ _ Hok _ _ _ Q) as (I & G & _).
  destruct (any_types hash Hh nm recs Hok Hl name (essential_ne _ Nn) (essential_occ _ No) st I G O) as (st' & res & E & I' & G' & R). exists st', res. split; [exact E|]. destruct res as [xs| |].
  - destruct R as (sel & M & -> & C). exists sel. split; [exact M|]. now apply map_objects.
  - exact R.
  - destruct R as (id & r & s & A & _ & _ & B). eauto.
Qed.

Lemma kind_cached nm recs st id r : Inv nm recs st -> cached st id -> record recs id r -> go_kind st (addr st id) = go_type (kind r).
Proof.
  intros I C R. unfold go_kind, addr. destruct (Z.eqb_spec id 0) as [->|N]; [destruct R; lia|]. destruct C as [|(a & Aa)]; [contradiction|]. rewrite Aa. cbn [deref].
  destruct (i_types _ _ _ I _ _ Aa) as (n & r' & p & -> & R' & _ & (_ & _ & Nn)). rewrite (record_fun _ _ _ _ R R'), <- Nn. now destruct n.
Qed.
Lemma pick_spec st wanted : forall l c, match pick st wanted c l with
  | One t => match c with None => [] | Some x => [x] end ++ filter (fun t => go_kind st t =? wanted) l = [t]
  | OneNotFound => c = None /\ forall t, In t l -> go_kind st t <> wanted
  | Multiple => exists t t' rest, match c with None => [] | Some x => [x] end ++ filter (fun t => go_kind st t =? wanted) l = t :: t' :: rest
  | _ => False end.
Proof.
  induction l as [|t l IH]; intros c; cbn [pick filter].
  - destruct c; [reflexivity|]. split; [reflexivity|intros t []].
  - destruct (Z.eqb_spec (go_kind st t) wanted) as [E|E]; cbn [negb].
    + destruct c as [x|]; [cbn; eauto|]. specialize (IH (Some t)). cbn [app] in *. destruct (pick st wanted (Some t) l); auto. destruct IH as (D & _). discriminate D.
    + specialize (IH c). destruct (pick st wanted c l); auto. destruct IH as (-> & IH). split; [reflexivity|]. intros t' [<-|H]; auto.
Qed.
(** TypeByName under the same condition: it returns the object of the only type with that name whose Go type is the
    wanted one; it reports that there is none, or several. *)
Theorem C58_type_partial : forall hash nm recs ids st rs name wanted, (forall s, in_u 32 (hash s)) -> Forall rec_ok recs -> Z.of_nat (length recs) < 2 ^ 32 ->
  queries nm recs fresh ids = Some (st, rs) -> name <> [] -> ~ occurs name 0 -> one_flavour nm recs name ->
  exists st' res, TypeByName hash nm recs st name wanted = Some (st', res) /\
    let candidate id x := (exists r, record recs id r /\ name_of nm r name /\ go_type (kind r) = wanted) /\ object nm recs st' id x in
    match res with
    | One x => exists id, candidate id x /\ forall id' x', candidate id' x' -> id' = id /\ x' = x
    | OneNotFound => forall id x, ~ candidate id x
    | Multiple => exists id id' x x', id < id' /\ candidate id x /\ candidate id' x'
    | OneFailed => exists id r, record recs id r /\ ~ decodable nm recs id
    | Panic => False
    end.
Proof.
  intros hash nm recs ids st rs name wanted Hh Hok Hl Q Nn No O. destruct (reachable _ _ Hok _ _ _ Q) as (I & G & _).
  destruct (any_types hash Hh nm recs Hok Hl name (essential_ne _ Nn) (essential_occ _ No) st I G O) as (st' & res & E & I' & G' & R). unfold TypeByName. rewrite E. clear E.
  destruct res as [xs| |].
  2:{ exists st', OneNotFound. split; [reflexivity|]. cbv zeta. intros id x ((r & H1 & H2 & _) & _). apply (R id). exists r. auto. }
  2:{ exists st', OneFailed. split; [reflexivity|]. destruct R as (id & r & s & A & _ & _ & B). cbv zeta. eauto. }
  destruct R as (sel & (S & M) & -> & C). eexists st', _. split; [reflexivity|]. cbv zeta. pose proof (map_objects nm recs st' sel I' G' C) as Ob.
  assert (Obj : forall id, In id sel -> object nm recs st' id (addr st' id)) by (intros id H; destruct (C id H); now apply object_addr).
  assert (Fun : forall id x, In id sel -> object nm recs st' id x -> x = addr st' id).
  { intros id x H (_ & sa & A). destruct (Obj id H) as (_ & sb & B). congruence. }
  assert (Cand : forall id, In id sel -> go_kind st' (addr st' id) = wanted -> exists r, record recs id r /\ name_of nm r name /\ go_type (kind r) = wanted).
  { intros id H K. destruct (proj1 (M id) H) as (r & Rr & Nr). exists r. split; [exact Rr|]. split; [exact Nr|]. rewrite <- K. symmetry. eapply kind_cached; [exact I'|now apply C|exact Rr]. }
  assert (Cand' : forall id, (exists r, record recs id r /\ name_of nm r name /\ go_type (kind r) = wanted) -> In id sel /\ go_kind st' (addr st' id) = wanted).
  { intros id (r & Rr & Nr & K). assert (H : In id sel) by (apply M; exists r; auto). split; [exact H|]. rewrite <- K. eapply kind_cached; [exact I'|now apply C|exact Rr]. }
  pose proof (pick_spec st' wanted (map (addr st') sel) None) as P. destruct (pick st' wanted None (map (addr st') sel)) as [x| | | |]; cbn [app] in P; try contradiction.
  - assert (Fm : forall l, filter (fun t => go_kind st' t =? wanted) (map (addr st') l) = map (addr st') (filter (fun id => go_kind st' (addr st' id) =? wanted) l)).
    { induction l as [|y l IH]; [reflexivity|]. cbn [map filter]. destruct (go_kind st' (addr st' y) =? wanted); cbn [map]; now rewrite IH. }
    rewrite Fm in P. destruct (filter (fun id => go_kind st' (addr st' id) =? wanted) sel) as [|id [|]] eqn:Fi; try discriminate P. injection P as <-.
    assert (Hid : In id sel /\ (go_kind st' (addr st' id) =? wanted) = true) by (apply (proj1 (filter_In (fun id => go_kind st' (addr st' id) =? wanted) _ _)); rewrite Fi; now left). destruct Hid as (Hid & K). exists id. split; [split; [apply Cand; [exact Hid|lia]|auto]|].
    intros id' x' (H1 & H2). apply Cand' in H1 as (H1 & H3). pose proof (Fun _ _ H1 H2). subst x'.
    assert (In id' [id]) by (rewrite <- Fi; apply (proj2 (filter_In (fun id => go_kind st' (addr st' id) =? wanted) _ _)); split; [exact H1|lia]). destruct H as [<-|[]]. auto.
  - destruct P as (_ & P). intros id x (H1 & H2). apply Cand' in H1 as (H1 & H3). pose proof (Fun _ _ H1 H2). subst x. apply (P (addr st' id)); [|exact H3]. apply in_map. exact H1.
  - destruct P as (t & t' & rest & P).
    assert (Fm : forall l, filter (fun t => go_kind st' t =? wanted) (map (addr st') l) = map (addr st') (filter (fun id => go_kind st' (addr st' id) =? wanted) l)).
    { induction l as [|y l IH]; [reflexivity|]. cbn [map filter]. destruct (go_kind st' (addr st' y) =? wanted); cbn [map]; now rewrite IH. }
    rewrite Fm in P. destruct (filter (fun id => go_kind st' (addr st' id) =? wanted) sel) as [|id [|id' l]] eqn:Fi; try discriminate P.
    assert (Hid : In id sel /\ (go_kind st' (addr st' id) =? wanted) = true) by (apply (proj1 (filter_In (fun id => go_kind st' (addr st' id) =? wanted) _ _)); rewrite Fi; now left).
    assert (Hid' : In id' sel /\ (go_kind st' (addr st' id') =? wanted) = true) by (apply (proj1 (filter_In (fun id => go_kind st' (addr st' id) =? wanted) _ _)); rewrite Fi; right; now left).
    destruct Hid as (Hid & K), Hid' as (Hid' & K'). exists id, id', (addr st' id), (addr st' id'). split.
    + assert (Sf : StronglySorted Z.lt (filter (fun id => go_kind st' (addr st' id) =? wanted) sel)).
      { clear -S. induction S as [|x l S IH Fx]; cbn [filter]; [constructor|]. destruct (_ =? _); [|exact IH]. constructor; [exact IH|]. rewrite Forall_forall in *. intros y Hy. apply filter_In in Hy as (Hy & _). auto. }
      rewrite Fi in Sf. inversion Sf as [|? ? _ F]; subst. inversion F; subst. assumption.
    + split; (split; [apply Cand; [assumption|lia]|auto]).
Qed.

(** What goes wrong with more flavours: of the types a___b and a___c, a lookup of "a" returns the second, which has another
    name; and TypeByName stores it. *)
Lemma find_two hash (Hh : forall s, in_u 32 (hash s)) : Find hash (namedTypes hash names [int_rec 2; int_rec 3]) a_ = [1; 2].
Proof.
  destruct (Find_spec hash Hh names [int_rec 2; int_rec 3] ltac:(cbn; lia) a_) as (S & F). apply sorted_ext; [exact S|repeat constructor|]. intros id. rewrite F. split.
  - intros (r & s & (P & R) & N & _ & Eh). cbn [In]. destruct (Z.to_nat (id - 1)) as [|[|k]] eqn:Ei; [lia|lia|now destruct k].
  - intros [<-|[<-|[]]]; eexists _, _; (split; [split; [lia|reflexivity]|]); (split; [reflexivity|]); (split; [discriminate|reflexivity]).
Qed.
Theorem C58_flavours_refuted : forall hash, (forall s, in_u 32 (hash s)) -> let recs := [int_rec 2; int_rec 3] in
  Forall rec_ok recs /\ (forall id, ~ has_name names recs id a_) /\
  exists st, AnyTypesByName hash names recs fresh a_ = Some (st, Types [RPtr 1]) /\ AnyTypeByName hash names recs fresh a_ = Some (st, One (RPtr 1)) /\
    TypeByName hash names recs fresh a_ 1 = Some (st, One (RPtr 1)) /\ nth_error (d_heap st) 1 = Some (NInt a___c 4 0).
Proof.
  intros hash Hh. cbv zeta. split; [recs_ok|]. split.
  - intros id (r & (P & R) & N). destruct (Z.to_nat (id - 1)) as [|[|k]] eqn:Ei; [..|now destruct k]; injection R as <-; discriminate N.
  - unfold AnyTypeByName, TypeByName, AnyTypesByName, TypesByName. change (newEssentialName a_) with a_. rewrite (find_two hash Hh). eexists. repeat split; vm_compute; reflexivity.
Qed.
(** With a single flavour AnyTypesByName returns an empty list and no error, instead of ErrNotFound, and AnyTypeByName
    panics. *)
Theorem C58_empty_refuted : forall hash, (forall s, in_u 32 (hash s)) -> let recs := [int_rec 2] in
  Forall rec_ok recs /\ one_flavour names recs a_ /\ (forall id, ~ has_name names recs id a_) /\
  exists st, AnyTypesByName hash names recs fresh a_ = Some (st, Types []) /\ AnyTypeByName hash names recs fresh a_ = Some (st, Panic).
Proof.
  intros hash Hh. cbv zeta. split; [recs_ok|]. split; [|split].
  - intros e id id' s s' _ (r & (P & R) & _) _ _ (r' & (P' & R') & _) _ _. destruct (Z.to_nat (id - 1)) as [|k] eqn:Ei; [|now destruct k]. destruct (Z.to_nat (id' - 1)) as [|k] eqn:Ei'; [|now destruct k]. lia.
  - intros id (r & (P & R) & N). destruct (Z.to_nat (id - 1)) as [|k] eqn:Ei; [|now destruct k]; injection R as <-; discriminate N.
  - assert (E : Find hash (namedTypes hash names [int_rec 2]) a_ = [1]).
    { destruct (Find_spec hash Hh names [int_rec 2] ltac:(cbn; lia) a_) as (S & F). apply sorted_ext; [exact S|repeat constructor|]. intros id. rewrite F. split.
      - intros (r & s & (P & R) & N & _ & Eh). cbn [In]. destruct (Z.to_nat (id - 1)) as [|k] eqn:Ei; [lia|now destruct k].
      - intros [<-|[]]; eexists _, _; (split; [split; [lia|reflexivity]|]); (split; [reflexivity|]); (split; [discriminate|reflexivity]). }
    unfold AnyTypeByName, AnyTypesByName, TypesByName. change (newEssentialName a_) with a_. rewrite E. eexists. split; vm_compute; reflexivity.
Qed.
(** the hypotheses of C58_any_types_partial hold for a section with the types a___b and a *)
Example C58_example : let recs := [int_rec 2; int_rec 1] in Forall rec_ok recs /\ one_flavour names recs a_ /\
  exists st, AnyTypeByName (fun s => Z.of_nat (length s) mod 2 ^ 32) names recs fresh a_ = Some (st, One (RPtr 1)) /\ nth_error (d_heap st) 1 = Some (NInt a_ 4 0).
Proof.
  cbv zeta. split; [recs_ok|]. split.
  - intros e id id' s s' _ (r & (P & R) & N) _ D (r' & (P' & R') & N') _ D'. destruct (Z.to_nat (id - 1)) as [|[|k]] eqn:Ei; [|injection R as <-; injection N as <-; congruence|now destruct k].
    destruct (Z.to_nat (id' - 1)) as [|[|k]] eqn:Ei'; [|injection R' as <-; injection N' as <-; congruence|now destruct k]. lia.
  - eexists. split; vm_compute; reflexivity.
Qed.
(** AnyTypeByName under the same condition: the object of the only type with that name, or an error if there are several.
    If there is none it either returns ErrNotFound or panics. *)
Theorem C58_any_type_partial : forall hash nm recs ids st rs name, (forall s, in_u 32 (hash s)) -> Forall rec_ok recs -> Z.of_nat (length recs) < 2 ^ 32 ->
  queries nm recs fresh ids = Some (st, rs) -> name <> [] -> ~ occurs name 0 -> one_flavour nm recs name ->
  exists st' res, AnyTypeByName hash nm recs st name = Some (st', res) /\
    match res with
    | One x => exists id, has_name nm recs id name /\ object nm recs st' id x /\ forall id', has_name nm recs id' name -> id' = id
    | Multiple => exists id id', id < id' /\ has_name nm recs id name /\ has_name nm recs id' name
    | OneNotFound | Panic => forall id, ~ has_name nm recs id name
    | OneFailed => exists id r, record recs id r /\ ~ decodable nm recs id
    end.
Proof.
  intros hash nm recs ids st rs name Hh Hok Hl Q Nn No O. destruct (C58_any_types_partial hash nm recs ids st rs name Hh Hok Hl Q Nn No O) as (st' & res & E & R).
  unfold AnyTypeByName. rewrite E. destruct res as [xs| |]; [|exists st', OneNotFound; auto|exists st', OneFailed; auto].
  destruct R as (sel & (S & M) & F). destruct F as [|id x sel' xs' Ob F].
  - exists st', Panic. split; [reflexivity|]. intros id H. apply M in H. exact H.
  - destruct F as [|id' x' sel'' xs'' Ob' F].
    + exists st', (One x). split; [reflexivity|]. exists id. split; [apply M; now left|]. split; [exact Ob|]. intros id' H. apply M in H. destruct H as [<-|[]]. reflexivity.
    + exists st', Multiple. split; [reflexivity|]. exists id, id'. split; [|split; apply M; cbn; auto]. inversion S as [|? ? _ Fl]; subst. now inversion Fl.
Qed.
