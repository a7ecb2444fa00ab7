(** From a history of additions to the bytes and back. *)
From Coq Require Import ZArith List Lia Bool Permutation.
From Verif.Base Require Import GoInt ListExtra.
From Verif.Btf Require Import Strings StringsSpec StringsProof Wire WireSpec WireProof PropsWire Types TypesSpec TypesProof Decode DecodeSpec PropsDecode.
From Verif.Btf Require Import Encode EncodeSpec EncodeProof EncodeRun EncodeImage EncodeLoop EncodeTotal EncodeWire EncodeIso.
Import ListNotations.
Open Scope Z_scope.

(** ** the start of Marshal *)
Definition start (b : bldr) : enc :=
  mkEnc (map PType (bd_types b)) (match bd_strings b with Some st => st | None => newStringTableBuilder end) (bd_ids b) [] (u32 (Z.of_nat (length (bd_types b)))).
Lemma marshalRecs_start o h b : bd_types b <> [] \/ PreventNoTypeFound o = false -> marshalRecs o h b = deflatePending (pending_fuel h (bd_types b)) o h (start b).
Proof.
  intros H. unfold marshalRecs, start. destruct (bd_types b) as [|t l] eqn:E; [|reflexivity]. destruct H as [H|H]; [contradiction|]. rewrite H, andb_false_r. reflexivity.
Qed.
Lemma start_EI h b : numbered (bd_ids b) (bd_types b) -> Z.of_nat (length (bd_types b)) < 2 ^ 32 -> (forall t, In t (bd_types b) -> t <> RVoid) -> EI h (bd_types b) (start b) [].
Proof.
  intros N L V. assert (Pt : forall k r, nth_error (map PType (bd_types b)) k = Some (PType r) <-> nth_error (bd_types b) k = Some r).
  { intros k r. rewrite nth_error_map. destruct (nth_error (bd_types b) k); cbn; split; congruence. }
  constructor; unfold items, start; cbn [e_pending e_lastID e_ids e_visited app].
  - apply wrapu_range. lia.
  - rewrite map_length. unfold u32. apply wrapu_id. unfold in_u. lia.
  - intros r i. rewrite Pt. apply N.
  - intros x c [].
  - intros x [].
  - intros x. cbn. induction (bd_types b) as [|t l IH]; [reflexivity|]. cbn. clear -l. induction l; auto.
  - intros r [].
  - intros p Hp. apply in_map_iff in Hp as (t & <- & Ht). split; [auto|]. exists t. split; [exact Ht|constructor].
  - unfold ints. assert (X : filter (fun p => match p with PInt _ _ _ => true | _ => false end) (map PType (bd_types b)) = []); [|rewrite X; cbn; lia]. clear. induction (bd_types b); auto.
Qed.
Lemma fuel_enough h l : (bound h < pending_fuel h l)%nat.
Proof. unfold bound, pending_fuel, total_tags. lia. Qed.
Lemma bound_size h : bound h = graph_size h.
Proof.
  unfold bound, graph_size, total_tags. f_equal. generalize h at 2 4. intros l. induction l as [|n l IH]; [reflexivity|]. cbn [fold_right]. rewrite IH. now rewrite node_tags_length.
Qed.

(** ** what a history adds *)
Lemma added_reach h t r : In r (added h t) -> reach h t r /\ exists a, r = RPtr a.
Proof.
  unfold added. destruct t as [| |a]; [intros []..|]. intros H. apply in_app_or in H as [H|[<-|[]]]; [|split; [constructor|eauto]].
  destruct (deref h (RPtr a)) as [[]|] eqn:D; try destruct H. apply filter_In in H as (H & Q). unfold var_types in H. apply in_flat_map in H as (v & Hv & H).
  destruct (deref h (vs_type v)) as [[]|] eqn:Dv; try contradiction H. destruct H as [<-|[]]. split.
  - econstructor; [eexists; split; [exact D|]; cbn; apply in_map; exact Hv|]. econstructor; [eexists; split; [exact Dv|cbn; now left]|constructor].
  - unfold qualified in Q. destruct t; try discriminate Q. eauto.
Qed.
Lemma ops_added_reach h ops r : In r (ops_added h ops) -> exists t, In (OAdd t) ops /\ reach h t r /\ exists a, r = RPtr a.
Proof.
  unfold ops_added. intros H. apply in_concat in H as (l & Hl & Hr). apply in_map_iff in Hl as (o & <- & Ho). destruct o as [t|s]; [|destruct Hr]. exists t. split; [exact Ho|]. now apply added_reach.
Qed.
Lemma encodable_reach h S t x : encodable h S t -> reach h t x -> encodable h S x.
Proof. intros (C & N) R. split; [intros y Ry; apply C; eapply reach_trans; eassumption|]. intros y n Ry D. apply N; [eapply reach_trans; eassumption|exact D]. Qed.
(** strings added by the history *)
Lemma string_SI S b s b' r : In s S -> total ([] :: S) < 2 ^ 32 -> SI S (match bd_strings b with Some st => st | None => newStringTableBuilder end) -> addString b s = (b', r) ->
  SI S (match bd_strings b' with Some st => st | None => newStringTableBuilder end).
Proof.
  intros Hs T H E. unfold addString in E. set (st := match bd_strings b with Some st => st | None => newStringTableBuilder end) in *. destruct (b_add st s) as [r1 st1] eqn:Ea. injection E as <- <-. cbn [bd_strings].
  destruct r1 as [o|e].
  - destruct (add_string_ok st s o st1) as (_ & _ & K); [unfold add_string; now rewrite Ea|]. apply K; [now right|exact T|exact H].
  - unfold b_add in Ea. destruct (index_byte s 0); [injection Ea as _ <-; exact H|]. destruct (m_find (b_strings st) s); [discriminate Ea|]. unfold b_append in Ea. discriminate Ea.
Qed.
Lemma add_type_strings b t b' r : add_type b t = (b', r) -> bd_strings b' = bd_strings b.
Proof. unfold add_type. destruct (id_of (bd_ids b) t); [intros E; injection E as <- <-; reflexivity|]. destruct (negb _); intros E; injection E as <- <-; reflexivity. Qed.
Lemma workaround_strings h vars : forall b b' r, workaround h b vars = (b', r) -> bd_strings b' = bd_strings b.
Proof.
  induction vars as [|v vars IH]; intros b b' r E; cbn [workaround] in E; [injection E as <- <-; reflexivity|]. destruct (workaround_type h v) as [t|]; [|eapply IH; exact E].
  destruct (add_type b t) as [b1 [i|e]] eqn:Ea; apply add_type_strings in Ea; [|injection E as <- <-; exact Ea]. rewrite <- Ea. eapply IH; exact E.
Qed.
Lemma Add_strings h b t b' r : Add h b t = (b', r) -> bd_strings b' = bd_strings b.
Proof.
  unfold Add. destruct t as [| |a]; try (intros E; injection E as <- <-; reflexivity). destruct (deref h (RPtr a)) as [[]|]; try apply add_type_strings.
  destruct (workaround h b vars) as [b1 [e|]] eqn:W; apply workaround_strings in W; [intros E; injection E as <- <-; exact W|]. intros E. apply add_type_strings in E. congruence.
Qed.
Lemma run_SI h S : total ([] :: S) < 2 ^ 32 -> forall ops b b' rs, (forall s, In (OString s) ops -> In s S) -> SI S (match bd_strings b with Some st => st | None => newStringTableBuilder end) -> run h b ops = (b', rs) ->
  SI S (match bd_strings b' with Some st => st | None => newStringTableBuilder end).
Proof.
  intros T. induction ops as [|o ops IH]; intros b b' rs Hs H E; cbn [run] in E; [injection E as <- <-; exact H|]. destruct (apply_op h b o) as [b1 r] eqn:E1. destruct (run h b1 ops) as [b2 rs2] eqn:E2. injection E as <- <-.
  eapply IH; [intros s Hi; apply Hs; now right| |exact E2]. destruct o as [t|s]; cbn [apply_op] in E1.
  - apply Add_strings in E1. now rewrite E1.
  - eapply string_SI; [apply Hs; now left|exact T|exact H|exact E1].
Qed.
Lemma SI_new S : SI S newStringTableBuilder.
Proof. exists [[]]. split; [exact bok_new|]. intros s [<-|[]]. now left. Qed.

(** ** the string table that is written *)
Definition table_names (t : table) (o : Z) : option str := match Lookup t o with Some (Ok s) => Some s | _ => None end.
Lemma table_found b strs s : bok b strs -> stored b s -> table_names (Table None (encoding strs)) (off b s) = Some s.
Proof.
  intros (B1 & B2 & B3 & B4 & B5 & (l0 & B6)) (o & M). unfold off. rewrite M. rewrite B1 in M. apply m_find_entries in M. destruct (entry_bytes strs s o M) as (O1 & O2 & _).
  assert (SA : string_at (encoding strs) o s) by (apply entry_at; assumption). unfold table_names, Lookup. destruct (Z.eqb_spec o 0) as [->|N].
  - f_equal. apply (string_at_fun (encoding strs) 0); [|exact SA]. apply entry_at; [assumption|]. rewrite B6. left. reflexivity.
  - cbn [lookupSlow]. assert (X : lookup_here (encoding strs) o = Some (Ok s)) by (apply lookup_here_ok; [exact B3|lia|exact SA]). now rewrite X.
Qed.
Lemma off_u32 b strs s : bok b strs -> in_u 32 (off b s).
Proof.
  intros (B1 & B2 & B3 & _). unfold off, in_u. destruct (m_find (b_strings b) s) as [o|] eqn:M; [|lia]. rewrite B1 in M. apply m_find_entries in M. destruct (entry_bytes strs s o M) as (O1 & O2 & _). lia.
Qed.

(** ** the bytes *)
Lemma load_marshalled bo (rs : list wrec) strs : Forall rec_ok rs -> (exists l, strs = [] :: l) -> Forall bytes_ok strs ->
  let types := concat (map (encodeRec bo) rs) in
  let hdr := mkHeader btfMagic 1 0 24 0 (u32 (Z.of_nat (length types))) (u32 (Z.of_nat (length types))) (u32 (total strs)) in
  let buf := header_bytes bo hdr ++ types ++ encoding strs in
  Z.of_nat (length buf) < 2 ^ 32 ->
  loadSections buf None = Some (Ok (bo, Table None (encoding strs), types)) /\ readRecs bo types = Ok rs.
Proof.
  intros R (l0 & El) Bs types hdr buf Lb. split; [|now apply readRecs_encode].
  assert (Lh : length (header_bytes bo hdr) = 24%nat) by apply header_length.
  assert (Ll : length buf = (24 + length types + length (encoding strs))%nat) by (unfold buf; rewrite !app_length, Lh; lia).
  assert (Ut : u32 (Z.of_nat (length types)) = Z.of_nat (length types)) by (unfold u32; apply wrapu_id; unfold in_u; lia).
  assert (Us : u32 (total strs) = total strs) by (unfold u32; apply wrapu_id; unfold in_u, total; lia).
  assert (Hok : bytes_ok (header_bytes bo hdr)) by (unfold header_bytes; rewrite !bytes_ok_app; repeat split; try apply put_ok; cbn [hdr Version Flags]; repeat constructor; unfold is_byte; lia).
  assert (Eok : bytes_ok (encoding strs)).
  { clear -Bs. unfold encoding. induction Bs as [|s l H F IH]; [constructor|]. cbn. apply bytes_ok_app. split; [|exact IH]. apply bytes_ok_app. split; [exact H|]. repeat constructor; unfold is_byte; lia. }
  assert (B : bytes_ok buf) by (unfold buf; rewrite !bytes_ok_app; repeat split; auto; apply concat_encode_ok).
  apply (C27_sections buf None B Lb). exists hdr, (mkLayout 0 0). unfold hdr at 2 3 4 5 6 7 8 9 10. cbn [HdrLen StringOff StringLen TypeOff TypeLen]. rewrite Ut, Us.
  split; [|split; [unfold total in *; lia|split; [lia|split]]].
  - split; [unfold header_ranges, hdr; cbn [Magic Version Flags HdrLen TypeOff TypeLen StringOff StringLen]; rewrite Ut, Us; unfold in_u, total, btfMagic in *; lia|].
    split; [reflexivity|]. split; [reflexivity|]. split; [reflexivity|]. split; [unfold hdr; cbn [HdrLen]; lia|].
    left. split; [unfold hdr; cbn [HdrLen]; lia|]. split; [reflexivity|]. exists (types ++ encoding strs). reflexivity.
  - assert (X : at_ buf (Z.to_nat (24 + Z.of_nat (length types))) (Z.to_nat (total strs)) = encoding strs).
    { unfold at_, buf, total. rewrite Nat2Z.id. replace (Z.to_nat _) with (length (header_bytes bo hdr ++ types)) by (rewrite app_length, Lh; lia). rewrite app_assoc, skipn_app, skipn_all, Nat.sub_diag. cbn [skipn app]. apply firstn_all. }
    rewrite X. unfold newStringTable. rewrite last_encoding by (rewrite El; discriminate). rewrite El. reflexivity.
  - assert (E1 : Z.to_nat (TypeLen hdr) = length types) by (unfold hdr; cbn [TypeLen]; rewrite Ut; apply Nat2Z.id). assert (E2 : HdrLen hdr + TypeOff hdr = 24 + 0) by reflexivity. unfold at_, buf. rewrite E1, E2. replace (Z.to_nat (24 + 0)) with (length (header_bytes bo hdr)) by (rewrite Lh; reflexivity). rewrite skipn_app, skipn_all, Nat.sub_diag. cbn [skipn app]. rewrite firstn_app, firstn_all, Nat.sub_diag. cbn [firstn]. now rewrite app_nil_r.
Qed.

(** ** everything together *)
Section Done.
  Variable h : heap.
  Variable S : list str.
  Variable ops : list op.
  Variable b : bldr.
  Variable rs : list (res eerr Z).
  Hypothesis Hsize : Z.of_nat (graph_size h) < 2 ^ 32.
  Hypothesis Hstrs : Forall (fun s => bytes_ok s /\ ~ In 0 s) S.
  Hypothesis Htotal : Z.of_nat (length (encoding S)) + 1 < 2 ^ 32.
  Hypothesis Henc : forall t, In (OAdd t) ops -> t <> RNil -> encodable h S t.
  Hypothesis Hstring : forall s, In (OString s) ops -> In s S.
  Hypothesis Hrun : run h emptyBuilder ops = (b, rs).

  Lemma total_S : total ([] :: S) < 2 ^ 32.
  Proof using Htotal. clear -Htotal. rewrite total_cons. unfold total. cbn [length]. lia. Qed.
  Lemma NoDup_size (l : list ref) : NoDup l -> (forall r, In r l -> exists a, r = RPtr a /\ (a < length h)%nat) -> Z.of_nat (length l) < 2 ^ 32.
  Proof using Hsize. clear -Hsize. intros N H. pose proof (NoDup_bounded h l N H). unfold graph_size in Hsize. lia. Qed.
  Lemma ops_enc r : In r (ops_added h ops) -> encodable h S r /\ exists a, r = RPtr a /\ (a < length h)%nat.
  Proof.
    intros H. apply ops_added_reach in H as (t & Ht & R & a & ->). assert (Nt : t <> RNil) by (intros ->; inversion R as [|? ? ? E]; subst; destruct E as (n & D & _); discriminate D). pose proof (encodable_reach _ _ _ _ (Henc t Ht Nt) R) as E.
    split; [exact E|]. exists a. split; [reflexivity|]. exact (proj1 E (RPtr a) (reach_refl h (RPtr a))).
  Qed.
  Lemma ops_bound : Z.of_nat (length (firsts (ops_added h ops))) < 2 ^ 32.
  Proof. apply NoDup_size; [apply firsts_NoDup|]. intros r Hr. rewrite firsts_In in Hr. apply (ops_enc r Hr). Qed.
  Lemma run_added : added_so_far b (ops_added h ops) /\ Forall2 (fun o r => match o with
      | OAdd RNil => r = Err NilType | OAdd RVoid => r = Ok 0 | OAdd t => exists i, r = Ok i /\ id_of (bd_ids b) t = Some i | OString _ => True end) ops rs.
  Proof. destruct (id_stable h ops emptyBuilder [] b rs empty_added ops_bound Hrun) as (A & _ & F). auto. Qed.
  Lemma root_enc t : In t (bd_types b) -> encodable h S t /\ exists a, t = RPtr a /\ (a < length h)%nat.
  Proof. destruct run_added as ((T & _) & _). rewrite T, firsts_In. apply ops_enc. Qed.

  Lemma marshalled : exists e recs F, marshalRecs noOpts h b = Some (Ok (e, recs)) /\ EI h (bd_types b) e F /\ e_pending e = [] /\
    (exists new, F = map PType (bd_types b) ++ new) /\ ids_ext (bd_ids b) (e_ids e) /\ SI S (e_strings e) /\
    (forall p, In p F -> match p with PInt _ _ _ => False | _ => True end) /\ Forall2 (written noOpts h e F) F recs /\
    strs_ext (match bd_strings b with Some st => st | None => newStringTableBuilder end) (e_strings e).
  Proof.
    destruct run_added as ((T & N) & _).
    assert (Hroots : forall t, In t (bd_types b) -> complete h t) by (intros t Ht; apply (root_enc t Ht)).
    assert (Huser : forall t x n, In t (bd_types b) -> reach h t x -> deref h x = Some n -> user_type n) by (intros t x n Ht R D; destruct (root_enc t Ht) as ((_ & K) & _); apply (K x n R D)).
    assert (Hnode : forall t x n, In t (bd_types b) -> reach h t x -> deref h x = Some n -> go_range n /\ enum_in_range n /\ Forall (fun s => ~ In 0 s) (strings_of h n)).
    { intros t x n Ht R D. destruct (root_enc t Ht) as ((_ & K) & _). destruct (K x n R D) as (_ & G & _ & En & _ & I). split; [exact G|]. split; [exact En|]. rewrite Forall_forall in *. intros s Hs. apply (Hstrs s). now apply I. }
    assert (J : EI h (bd_types b) (start b) []).
    { apply start_EI; [exact N|rewrite T; exact ops_bound|]. intros t Ht. destruct (root_enc t Ht) as (_ & a & -> & _). discriminate. }
    pose proof (fuel_enough h (bd_types b)) as Fu.
    assert (Hb : Z.of_nat (bound h) < 2 ^ 32) by (rewrite bound_size; exact Hsize).
    destruct (pending_total noOpts h (bd_types b) Hroots Huser Hb Hnode (pending_fuel h (bd_types b)) (start b) [] J) as ((e & recs) & E); [| cbn [length]; lia|].
    { intros s z en Hi. unfold items, start in Hi. cbn in Hi. apply in_map_iff in Hi as (t & X & _). discriminate X. }
    destruct (pending_ok noOpts h (bd_types b) Hroots Huser (pending_fuel h (bd_types b)) (start b) [] J) as (res & E' & K); [cbn [length]; lia|]. rewrite E in E'. injection E' as <-.
    destruct (K e recs eq_refl) as (X & J' & P & (new & Nw) & Ie & Se & SIe & Q & W). cbn [app] in *. exists e, recs, X.
    split; [rewrite marshalRecs_start by (right; reflexivity); exact E|]. split; [exact J'|]. split; [exact P|]. split; [exists new; exact Nw|]. split; [exact Ie|]. split; [|split; [|split; [exact W|exact Se]]].
    - apply SIe; [|exact total_S|exact (run_SI h S total_S ops emptyBuilder b rs Hstring (SI_new S) Hrun)].
      intros p Hp s Hs. right. assert (Hs' : In s (match p with PType r => match deref h r with Some n => names_of n | None => [] end | PTag _ v _ => [v] | PInt s _ _ => [s] | PDummy => [] end)) by (unfold item_names, placeholders in Hs; cbn in Hs; rewrite app_nil_r in Hs; exact Hs). clear Hs.
      assert (Hp' : In p (items e X)) by (unfold items; rewrite P, app_nil_r; exact Hp). pose proof (ei_root _ _ _ _ J' _ Hp') as Rp. destruct p as [r|o v k|s0 z en|].
      + destruct (deref h r) as [n|] eqn:D; [|destruct Hs']. destruct Rp as (_ & t & Ht & R). destruct (root_enc t Ht) as ((_ & Kt) & _). destruct (Kt r n R D) as (U & _ & _ & _ & _ & I). apply I. now apply names_strings.
      + destruct Hs' as [<-|[]]. pose proof (ei_owner _ _ _ _ _ _ _ J' Hp') as Hv. pose proof (ei_tags _ _ _ _ J' o) as Tg. apply ref_in_In in Hv as Hv'. rewrite Hv' in Tg.
        assert (Tv : In (v, k) (tags_at h o)) by (rewrite <- Tg; unfold ptags; apply in_flat_map; exists (PTag o v k); split; [exact Hp'|]; destruct (ref_eq_dec o o); [now left|contradiction]).
        unfold tags_at in Tv. destruct (deref h o) as [n|] eqn:D; [|destruct Tv]. destruct (ei_vids _ _ _ _ J' _ Hv) as [->|(i & Hi)]; [discriminate D|]. apply (ei_ids _ _ _ _ J') in Hi as (_ & Hi). apply nth_error_In in Hi. apply (ei_root _ _ _ _ J') in Hi as (_ & t & Ht & R).
        destruct (root_enc t Ht) as ((_ & Kt) & _). destruct (Kt o n R D) as (U & _ & _ & _ & _ & I). apply I. eapply tags_strings. exact Tv.
      + exfalso. specialize (Q _ Hp). cbn in Q. destruct Q as [Q|(p' & Hp2 & Q)]; [unfold items, start in Q; cbn in Q; apply in_map_iff in Q as (t & Y & _); discriminate Y|].
        unfold item_ints, new_int in Q. destruct p' as [r| | |]; try discriminate Q. destruct (deref h r) as [[]|]; try discriminate Q. cbn [noOpts ReplaceEnum64] in Q. rewrite andb_false_r in Q. discriminate Q.
      + destruct Rp.
    - intros p Hp. specialize (Q p Hp). destruct p as [| |s z en|]; auto. destruct Q as [Q|(p' & Hp2 & Q)]; [unfold items, start in Q; cbn in Q; apply in_map_iff in Q as (t & Y & _); discriminate Y|].
      unfold item_ints, new_int in Q. destruct p' as [r| | |]; try discriminate Q. destruct (deref h r) as [[]|]; try discriminate Q. cbn [noOpts ReplaceEnum64] in Q. rewrite andb_false_r in Q. discriminate Q.
  Qed.

  Lemma stored_known e strs s : bok (e_strings e) strs -> stored (e_strings e) s -> table_names (Table None (encoding strs)) (off (e_strings e) s) = Some s.
  Proof using. clear. apply table_found. Qed.

  (** the round trip *)
  Theorem round_trip bo order : (forall m, Permutation (order m) m) ->
    exists e recs strs,
      marshalRecs noOpts h b = Some (Ok (e, recs)) /\ bok (e_strings e) strs /\ Forall rec_ok recs /\
      (let types := concat (map (encodeRec bo) recs) in
       let hdr := mkHeader btfMagic 1 0 24 0 (u32 (Z.of_nat (length types))) (u32 (Z.of_nat (length types))) (u32 (total strs)) in
       Marshal noOpts bo order h b = Some (Ok (header_bytes bo hdr ++ types ++ encoding strs))) /\
      Forall bytes_ok strs /\
      let nm := table_names (Table None (encoding strs)) in
      let idf := idz (e_ids e) in
      ids_ext (bd_ids b) (e_ids e) /\ idf RVoid = 0 /\
      (forall x y, live h (bd_types b) x -> live h (bd_types b) y -> idf x = idf y -> x = y) /\
      (forall x n (f : Z -> ref), live h (bd_types b) x -> deref h x = Some n -> exists r, record recs (idf x) r /\ describes nm recs f r (bare (fun c => f (idf c)) n) (ids_in idf n)) /\
      (forall x, live h (bd_types b) x -> tag_list nm recs (idf x) (tags_at h x)) /\
      (forall j r, record recs j r -> (exists x, live h (bd_types b) x /\ x <> RVoid /\ j = idf x) \/ (kind r = 17 /\ exists x, live h (bd_types b) x /\ x <> RVoid /\ size_or_type r = idf x)) /\
      (forall x, live h (bd_types b) x -> forall ids st rs, queries nm recs fresh ids = Some (st, rs) ->
         exists st' f, TypeByID nm recs st (idf x) = Some (st', Some (f x)) /\ isomorphic f h x (d_heap st') (f x)).
  Proof.
    intros Hord. destruct marshalled as (e & recs & F & E & J & P & (new & Fn) & Ie & (strs & B & Is) & NoI & W & _).
    assert (It : items e F = F) by (unfold items; rewrite P; apply app_nil_r).
    pose proof (ei_u32 _ _ _ _ J) as U. pose proof (ei_last _ _ _ _ J) as La. pose proof (ei_ids _ _ _ _ J) as Ids. pose proof (ei_tags _ _ _ _ J) as Tg. pose proof (ei_root _ _ _ _ J) as Ro.
    pose proof (fun o v k => ei_owner _ _ _ _ o v k J) as Ow. rewrite It in *.
    pose (idf := idz (e_ids e)). pose (nmz := off (e_strings e)).
    assert (Hidp : forall x i, x <> RVoid -> id_of (e_ids e) x = Some i -> idf x = i /\ 1 <= i /\ nth_error F (Z.to_nat (i - 1)) = Some (PType x)).
    { intros x i Nx H. split; [unfold idf, idz; rewrite H; destruct x; congruence|]. now apply Ids. }
    assert (Vis : forall x, In x (e_visited e) -> x = RVoid \/ (1 <= idf x /\ nth_error F (Z.to_nat (idf x - 1)) = Some (PType x))).
    { intros x Hx. destruct (ref_eq_dec x RVoid) as [|Nx]; [now left|]. destruct (ei_vids _ _ _ _ J _ Hx) as [|(i & Hi)]; [contradiction|]. right. destruct (Hidp x i Nx Hi) as (-> & X). exact X. }
    assert (Reach : forall x y, reach h x y -> In x (e_visited e) -> In y (e_visited e)).
    { intros x y R. induction R as [|a c d Ed R IH]; [auto|]. intros Ha. apply IH. eapply (ei_closed _ _ _ _ J); eassumption. }
    assert (LV : forall x, live h (bd_types b) x -> In x (e_visited e)).
    { intros x (t & Ht & R). eapply Reach; [exact R|]. apply (ei_done _ _ _ _ J). rewrite Fn. apply in_or_app. left. now apply in_map. }
    assert (Hnmz : forall s, in_u 32 (nmz s)) by (intros s; eapply off_u32; exact B).
    assert (Hidf : forall r, in_u 32 (idf r)).
    { intros r. unfold idf, idz. destruct r; [|unfold in_u; lia|]; (destruct (id_of (e_ids e) _) as [i|] eqn:Ei; [|unfold in_u; lia]); apply Ids in Ei as (I1 & I2); (assert (I3 : (Z.to_nat (i - 1) < length F)%nat) by (apply nth_error_Some; congruence)); unfold in_u in *; lia. }
    assert (Hrecs : Forall2 (fun p r => exists ph, r = item_image h noOpts nmz idf ph p) F recs).
    { eapply Forall2_mono; [|exact W]. intros p r (ph & Er & _). exists ph. exact Er. }
    assert (Hitems : forall p, In p F -> match p with PType r => r <> RVoid /\ live h (bd_types b) r | PTag o _ _ => o <> RVoid /\ live h (bd_types b) o | _ => False end).
    { intros p Hp. pose proof (Ro _ Hp) as Rp. pose proof (NoI _ Hp) as Np. destruct p as [r|o v k|s z en|]; try contradiction; [exact Rp|].
      pose proof (Ow _ _ _ Hp) as Hv. assert (No : o <> RVoid).
      { intros ->. pose proof (Tg RVoid) as T0. apply ref_in_In in Hv. rewrite Hv in T0. assert (X : In (v, k) (ptags RVoid F)); [|rewrite T0 in X; destruct X].
        unfold ptags. apply in_flat_map. exists (PTag RVoid v k). split; [exact Hp|]. destruct (ref_eq_dec RVoid RVoid); [now left|contradiction]. }
      split; [exact No|]. destruct (Vis _ Hv) as [|(_ & X)]; [contradiction|]. apply nth_error_In in X. apply (Ro _ X). }
    assert (Hid : forall x, live h (bd_types b) x -> x <> RVoid -> 1 <= idf x /\ nth_error F (Z.to_nat (idf x - 1)) = Some (PType x)).
    { intros x L Nx. destruct (Vis _ (LV x L)) as [|X]; [contradiction|exact X]. }
    assert (Huniq : forall k x, nth_error F k = Some (PType x) -> idf x = Z.of_nat k + 1).
    { intros k x Hk. assert (Hi : id_of (e_ids e) x = Some (Z.of_nat k + 1)) by (apply Ids; split; [lia|]; replace (Z.to_nat _) with k by lia; exact Hk). destruct (Ro _ (nth_error_In _ _ Hk)) as (Nx & _). apply (Hidp x _ Nx Hi). }
    assert (Htags : forall x, live h (bd_types b) x -> ptags x F = tags_at h x).
    { intros x L. rewrite Tg. apply LV in L. apply ref_in_In in L. now rewrite L. }
    assert (Hpres : forall x, live h (bd_types b) x -> present h x).
    { intros x (t & Ht & R). destruct (root_enc t Ht) as ((C & _) & _). now apply C. }
    assert (Known : forall p, In p F -> Forall (fun s => table_names (Table None (encoding strs)) (nmz s) = Some s) (item_names h noOpts p)).
    { intros p Hp. apply In_nth_error in Hp as (k & Hk). destruct (Forall2_nth_l _ _ _ _ _ W Hk) as (r & _ & ph & _ & _ & St). specialize (St eq_refl). eapply Forall_impl; [|exact St]. intros s Hs. apply (stored_known e strs s B Hs). }
    assert (Hnode : forall x n, live h (bd_types b) x -> deref h x = Some n ->
      user_type n /\ go_range n /\ fits n /\ enum_in_range n /\ func_ok h x /\ Forall (fun s => table_names (Table None (encoding strs)) (nmz s) = Some s) (strings_of h n)).
    { intros x n L D. pose proof L as (t & Ht & R). destruct (root_enc t Ht) as ((_ & K) & _). destruct (K x n R D) as (Un & Gn & Fi & En & Fo & _). repeat (split; [assumption|]).
      assert (Nx : x <> RVoid) by (intros ->; discriminate D). destruct (Hid x L Nx) as (_ & Hx). apply nth_error_In in Hx. pose proof (Known _ Hx) as Kx. unfold item_names, placeholders in Kx. cbn [noOpts ReplaceDeclTags ReplaceEnum64] in Kx. rewrite D, app_nil_r in Kx.
      assert (Kt : forall v k, In (v, k) (decl_tags h n) -> table_names (Table None (encoding strs)) (nmz v) = Some v).
      { intros v k Hv. assert (Hv' : In (v, k) (ptags x F)) by (rewrite (Htags x L); unfold tags_at; rewrite D; exact Hv). unfold ptags in Hv'. apply in_flat_map in Hv' as (p & Hp & Hi). destruct p as [|o v' k'| |]; try destruct Hi.
        destruct (ref_eq_dec o x) as [->|]; [|destruct Hi]. destruct Hi as [Hi|[]]. injection Hi as -> ->. pose proof (Known _ Hp) as Kp. unfold item_names in Kp. cbn [app] in Kp. now inversion Kp. }
      apply Forall_forall. intros s Hs. rewrite Forall_forall in Kx. destruct Hs as [<-|Hs]; [apply Kx; now left|]. apply in_app_or in Hs as [Hs|Hs]; [apply in_map_iff in Hs as ((v & k) & <- & Hv); eapply Kt; exact Hv|]. apply Kx. right. destruct n; try (destruct Un; fail); exact Hs. }
    assert (Hvoid : idf RVoid = 0) by reflexivity.
    assert (Bs : Forall bytes_ok strs) by (apply Forall_forall; intros s Hs; destruct (Is s Hs) as [<-|Hs']; [constructor|]; rewrite Forall_forall in Hstrs; now apply Hstrs).
    exists e, recs, strs. split; [exact E|]. split; [exact B|]. split; [eapply recs_ok; eassumption|]. split; [|split; [exact Bs|]].
    - cbv zeta. unfold Marshal. rewrite E. rewrite (encoded_ok (e_strings e) strs (order (b_strings (e_strings e))) _ B (Hord _)). pose proof B as (_ & -> & _). reflexivity.
    - cbv zeta. split; [exact Ie|]. split; [reflexivity|]. split; [eapply idf_inj; eassumption|]. split; [|split; [|split]].
      + intros x n f L D. destruct (at_id h nmz idf (bd_types b) F recs Hrecs Hid x n L D) as (ph & R). exists (image noOpts nmz idf ph n). split; [exact R|]. eapply live_describes; eassumption.
      + intros x L. eapply tag_list_live; eassumption.
      + intros j r R. destruct (item_of h _ nmz idf (bd_types b) F recs Hidf Hrecs Hitems Hid Huniq Htags Hpres Hnode j r R) as [(x & n & ph & L & D & -> & _)|(o & v & k & No & L & En & ->)].
        * left. exists x. split; [exact L|]. split; [intros ->; discriminate D|reflexivity].
        * right. split; [|exists o; auto]. assert (Ds : describes (table_names (Table None (encoding strs))) recs (fun _ => RVoid) (im_tag noOpts nmz idf o v k) (NDeclTag RVoid v k) [idf o]) by (eapply (item_describes h _ nmz idf (bd_types b) F recs) with (f := fun _ => RVoid); eassumption). eapply describes_tag. exact Ds.
      + intros x L. eapply decodes; eassumption.
  Qed.
  (** the strings added by the history keep their offsets *)
  Lemma strings_kept e recs : marshalRecs noOpts h b = Some (Ok (e, recs)) -> strs_ext (match bd_strings b with Some st => st | None => newStringTableBuilder end) (e_strings e).
  Proof. intros E. destruct marshalled as (e' & recs' & F & E' & _ & _ & _ & _ & _ & _ & _ & X). rewrite E in E'. injection E' as <- <-. exact X. Qed.
End Done.
