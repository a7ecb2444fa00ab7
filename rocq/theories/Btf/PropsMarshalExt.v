(** C61: function and line infos survive MarshalExtInfos, Builder.Marshal, loading of the types and LoadFuncInfos /
    LoadLineInfos. *)
From Coq Require Import ZArith List Lia Bool Sorting.Sorted Permutation.
From Verif.Base Require Import GoInt ListExtra.
From Verif.Btf Require Import Strings StringsSpec StringsProof Wire WireSpec WireProof Types TypesSpec Decode DecodeSpec DecodeProof PropsDecode Encode EncodeSpec EncodeImage EncodeDone PropsEncode
  ExtInfo ExtInfoSpec ExtInfoProof ExtInfoLoad.
Import ListNotations.
Open Scope Z_scope.

(** ** What is to be recorded about a program *)
(** the functions and the source lines, with the raw offsets of their instructions *)
Fixpoint funcs_of (off : Z) (insns : list xins) : list (Z * ref) :=
  match insns with
  | [] => []
  | i :: insns' => match i_func i with Some f => [(off, f)] | None => [] end ++ funcs_of (off + i_width i) insns'
  end.
Fixpoint lines_of (off : Z) (insns : list xins) : list (Z * line) :=
  match insns with
  | [] => []
  | i :: insns' => match i_source i with Some src => [(off, line_of src)] | None => [] end ++ lines_of (off + i_width i) insns'
  end.
(** the types and strings to be added to the builder *)
Fixpoint mentions (insns : list xins) : list op :=
  match insns with
  | [] => []
  | i :: insns' =>
      match i_func i with Some f => [OAdd f] | None => [] end ++
      match i_source i with Some src => [OString (l_file (line_of src)); OString (l_line (line_of src))] | None => [] end ++ mentions insns'
  end.
(** what fits into a record *)
Definition line_ok (ln : line) : Prop := 0 <= l_number ln < 2 ^ 22 /\ 0 <= l_column ln < 2 ^ 10.

(** ** Marshalling *)
Lemma run_app h ops1 : forall b ops2, run h b (ops1 ++ ops2) = let '(b1, r1) := run h b ops1 in let '(b2, r2) := run h b1 ops2 in (b2, r1 ++ r2).
Proof.
  induction ops1 as [|o ops1 IH]; intros b ops2; cbn [run app]; [now destruct (run h b ops2)|]. destruct (apply_op h b o) as [b1 r]. rewrite IH. destruct (run h b1 ops1) as [b2 r1]. now destruct (run h b2 ops2).
Qed.
Lemma run_length h ops : forall b, length (snd (run h b ops)) = length ops.
Proof. induction ops as [|o ops IH]; intros b; cbn [run]; [reflexivity|]. destruct (apply_op h b o) as [b1 r]. specialize (IH b1). destruct (run h b1 ops). cbn in *. now rewrite IH. Qed.
(** an entry, with the ID or the offsets of the strings *)
Definition func_rec (e : Z * ref) (id : Z) : list Z := [fst e; id].
Definition line_rec (e : Z * line) (offs : Z * Z) : list Z := [fst e; fst offs; snd offs; 1024 * l_number (snd e) + l_column (snd e)].
Definition done (ops : list op) (rs : list (res eerr Z)) (o : op) (x : Z) : Prop := In (o, Ok x) (combine ops rs).
Lemma done_app ops1 rs1 ops2 rs2 o x : length ops1 = length rs1 -> done ops1 rs1 o x \/ done ops2 rs2 o x -> done (ops1 ++ ops2) (rs1 ++ rs2) o x.
Proof.
  intros L H. unfold done in *. assert (E : combine (ops1 ++ ops2) (rs1 ++ rs2) = combine ops1 rs1 ++ combine ops2 rs2).
  { clear H. revert rs1 L. induction ops1 as [|p ops1 IH]; intros [|r rs1] L; try discriminate L; [reflexivity|]. cbn. f_equal. apply IH. cbn in L. lia. }
  rewrite E. apply in_or_app. exact H.
Qed.
Lemma pack ln : 0 <= l_number ln <= 4194303 -> 0 <= l_column ln <= 1023 -> Z.lor (u32 (Z.shiftl (l_number ln) 10)) (l_column ln) = 1024 * l_number ln + l_column ln.
Proof.
  intros N C. rewrite Z.shiftl_mul_pow2 by lia. change (2 ^ 10) with 1024. assert (E : u32 (l_number ln * 1024) = l_number ln * 1024) by (unfold u32, wrapu; apply Z.mod_small; lia). rewrite E.
  assert (A : Z.land (l_number ln * 1024) (l_column ln) = 0).
  { replace (l_column ln) with (Z.land (l_column ln) (Z.ones 10)) by (rewrite Z.land_ones by lia; apply Z.mod_small; change (2 ^ 10) with 1024; lia). rewrite (Z.land_comm (l_column ln)), Z.land_assoc, (Z.land_ones (l_number ln * 1024)) by lia. change (2 ^ 10) with 1024. rewrite Z.mod_mul by lia. reflexivity. }
  rewrite <- Z.lxor_lor by exact A. rewrite <- Z.add_nocarry_lxor by exact A. lia.
Qed.
Lemma rec_words bo ws : concat (map (put bo 4) ws) = encode_record bo ws.
Proof. reflexivity. Qed.
Lemma records_snoc bo rs ws : encode_records bo rs ++ encode_record bo ws = encode_records bo (rs ++ [ws]).
Proof. rewrite encode_records_app. unfold encode_records at 3. cbn [map concat]. now rewrite app_nil_r. Qed.
(** every instruction has a positive number of raw instructions, and offsets fit into 32 bits *)
Definition offsets_ok (off : Z) (insns : list xins) : Prop := 0 <= off /\ Forall (fun i => 0 < i_width i) insns /\ off + fold_right Z.add 0 (map i_width insns) <= 2 ^ 32.
Lemma sum_pos insns : Forall (fun i => 0 < i_width i) insns -> 0 <= fold_right Z.add 0 (map i_width insns).
Proof. induction 1; cbn; lia. Qed.
Lemma offsets_step off i insns : offsets_ok off (i :: insns) -> in_u 32 off /\ offsets_ok (off + i_width i) insns.
Proof. intros (P & F & L). inversion F; subst. cbn in L. pose proof (sum_pos insns ltac:(assumption)). unfold in_u. split; [lia|]. split; [lia|]. split; [assumption|lia]. Qed.

(** line numbers and columns are unsigned (btf/ext_info.go:465-470) *)
Definition lines_fit (insns : list xins) : Prop := Forall (fun e => 0 <= l_number (snd e) /\ 0 <= l_column (snd e)) (lines_of 0 insns).
Lemma lines_shift a b insns : Forall (fun e => 0 <= l_number (snd e) /\ 0 <= l_column (snd e)) (lines_of a insns) -> Forall (fun e => 0 <= l_number (snd e) /\ 0 <= l_column (snd e)) (lines_of b insns).
Proof.
  revert a b. induction insns as [|i insns IH]; intros a b F; [constructor|]. cbn [lines_of] in *. apply Forall_app in F as (F1 & F2). apply Forall_app. split; [|eapply IH; exact F2]. destruct (i_source i); [|constructor]. inversion F1; subst. constructor; [assumption|constructor].
Qed.
Lemma marshalLoop_run bo h : forall insns b off fi li b' fi' li', offsets_ok off insns -> lines_fit insns ->
  marshalLoop bo h b off insns fi li = (b', Ok (fi', li')) ->
  exists rs ids offs, run h b (mentions insns) = (b', rs) /\
    length ids = length (funcs_of off insns) /\ fi' = fi ++ encode_records bo (map (fun p => func_rec (fst p) (snd p)) (combine (funcs_of off insns) ids)) /\
    Forall2 (fun e id => done (mentions insns) rs (OAdd (snd e)) id) (funcs_of off insns) ids /\
    length offs = length (lines_of off insns) /\ li' = li ++ encode_records bo (map (fun p => line_rec (fst p) (snd p)) (combine (lines_of off insns) offs)) /\
    Forall2 (fun e o => line_ok (snd e) /\ done (mentions insns) rs (OString (l_file (snd e))) (fst o) /\ done (mentions insns) rs (OString (l_line (snd e))) (snd o)) (lines_of off insns) offs.
Proof.
  induction insns as [|i insns IH]; intros b off fi li b' fi' li' Oo Lf E; cbn [marshalLoop mentions funcs_of lines_of] in *.
  - injection E as <- <- <-. exists [], [], []. cbn. rewrite !app_nil_r. repeat split; constructor.
  - destruct (offsets_step _ _ _ Oo) as (Ou & Oo'). assert (U : u32 off = off) by (unfold u32, wrapu; apply Z.mod_small; exact Ou).
    unfold lines_fit in Lf. cbn [lines_of] in Lf. apply Forall_app in Lf as (Lf1 & Lf2). apply (lines_shift _ 0) in Lf2.
    destruct (match i_func i with Some fn => marshalFunc bo h b off fn | None => (b, Ok []) end) as (b1 & [f|]) eqn:Ef; [|discriminate E].
    destruct (match i_source i with Some src => marshalLine bo b1 off (line_of src) | None => (b1, Ok []) end) as (b2 & [l|]) eqn:El; [|discriminate E].
    destruct (IH _ _ _ _ _ _ _ Oo' Lf2 E) as (rs & ids & offs & Er & Li & Ei & Fi & Lo & Eo & Fo).
    assert (Kf : exists rf idf, run h b (match i_func i with Some f => [OAdd f] | None => [] end) = (b1, rf) /\ length idf = length (match i_func i with Some f => [(off, f)] | None => [] end) /\
      f = encode_records bo (map (fun p => func_rec (fst p) (snd p)) (combine (match i_func i with Some f => [(off, f)] | None => [] end) idf)) /\
      Forall2 (fun e id => done (match i_func i with Some f => [OAdd f] | None => [] end) rf (OAdd (snd e)) id) (match i_func i with Some f => [(off, f)] | None => [] end) idf).
    { destruct (i_func i) as [fn|].
      - unfold marshalFunc in Ef. destruct (Add h b fn) as (b3 & [id|]) eqn:Ea; [|discriminate Ef]. injection Ef as <- <-. exists [Ok id], [id]. split; [cbn [run apply_op]; now rewrite Ea|]. split; [reflexivity|]. split.
        + unfold encode_records, encode_record, func_rec. cbn [combine map concat fst snd]. rewrite !app_nil_r, U. reflexivity.
        + constructor; [|constructor]. left. reflexivity.
      - injection Ef as <- <-. exists [], []. repeat split. constructor. }
    assert (Kl : exists rl ofs, run h b1 (match i_source i with Some src => [OString (l_file (line_of src)); OString (l_line (line_of src))] | None => [] end) = (b2, rl) /\
      length ofs = length (match i_source i with Some src => [(off, line_of src)] | None => [] end) /\
      l = encode_records bo (map (fun p => line_rec (fst p) (snd p)) (combine (match i_source i with Some src => [(off, line_of src)] | None => [] end) ofs)) /\
      Forall2 (fun e o => line_ok (snd e) /\ done (match i_source i with Some src => [OString (l_file (line_of src)); OString (l_line (line_of src))] | None => [] end) rl (OString (l_file (snd e))) (fst o) /\
        done (match i_source i with Some src => [OString (l_file (line_of src)); OString (l_line (line_of src))] | None => [] end) rl (OString (l_line (snd e))) (snd o)) (match i_source i with Some src => [(off, line_of src)] | None => [] end) ofs).
    { destruct (i_source i) as [src|].
      - inversion Lf1 as [|? ? (P1 & P2) _]; subst. cbn [snd] in *. unfold marshalLine in El. rewrite !Z.gtb_ltb in El. destruct (Z.ltb_spec 4194303 (l_number (line_of src))); [discriminate El|]. destruct (Z.ltb_spec 1023 (l_column (line_of src))); [discriminate El|].
        destruct (addString b1 (l_file (line_of src))) as (b3 & [o1|]) eqn:E1; [|discriminate El]. destruct (addString b3 (l_line (line_of src))) as (b4 & [o2|]) eqn:E2; [|discriminate El]. rewrite pack, U in El by lia. injection El as <- <-.
        exists [Ok o1; Ok o2], [(o1, o2)]. split; [cbn [run apply_op]; rewrite E1; cbn [run apply_op]; now rewrite E2|]. split; [reflexivity|]. split.
        + unfold encode_records, encode_record, line_rec. cbn [combine map concat fst snd]. rewrite !app_nil_r. now rewrite <- ?app_assoc.
        + constructor; [|constructor]. cbn [fst snd]. split; [unfold line_ok; change (2 ^ 22) with 4194304; change (2 ^ 10) with 1024; lia|]. split; [left; reflexivity|right; left; reflexivity].
      - injection El as <- <-. exists [], []. repeat split. constructor. }
    destruct Kf as (rf & idf & Rf & Lif & Ef' & Ff), Kl as (rl & ofs & Rl & Lol & El' & Fl).
    set (mf := match i_func i with Some f => [OAdd f] | None => [] end) in *. set (ml := match i_source i with Some src => [OString (l_file (line_of src)); OString (l_line (line_of src))] | None => [] end) in *.
    set (qf := match i_func i with Some f => [(off, f)] | None => [] end) in *. set (ql := match i_source i with Some src => [(off, line_of src)] | None => [] end) in *.
    exists (rf ++ rl ++ rs), (idf ++ ids), (ofs ++ offs).
    assert (Lrf : length mf = length rf) by (pose proof (run_length h mf b) as X; rewrite Rf in X; symmetry; exact X). assert (Lrl : length ml = length rl) by (pose proof (run_length h ml b1) as X; rewrite Rl in X; symmetry; exact X).
    assert (Cb : forall (A B : Type) (a1 a2 : list A) (c1 c2 : list B), length c1 = length a1 -> combine (a1 ++ a2) (c1 ++ c2) = combine a1 c1 ++ combine a2 c2).
    { clear. intros A B. induction a1 as [|x a1 IH]; intros a2 [|y c1] c2 L; try discriminate L; [reflexivity|]. cbn. f_equal. apply IH. cbn in L. lia. }
    split; [rewrite !run_app, Rf, run_app, Rl, Er; reflexivity|]. split; [rewrite !app_length; lia|]. split; [|split; [|split; [rewrite !app_length; lia|split]]].
    + rewrite Ei, Ef', Cb by exact Lif. rewrite map_app, encode_records_app, app_assoc. reflexivity.
    + apply Forall2_app; [eapply Forall2_impl'; [|exact Ff]|eapply Forall2_impl'; [|exact Fi]]; intros e id D; cbn beta in D |- *; apply done_app; auto; right; apply done_app; auto.
    + rewrite Eo, El', Cb by exact Lol. rewrite map_app, encode_records_app, app_assoc. reflexivity.
    + apply Forall2_app; [eapply Forall2_impl'; [|exact Fl]|eapply Forall2_impl'; [|exact Fo]]; intros e o (D0 & D1 & D2); (split; [exact D0|]); split; apply done_app; auto; right; apply done_app; auto.
Qed.
Lemma findFirst_spec : forall insns off, match findFirst off insns with
  | None => funcs_of off insns = [] /\ lines_of off insns = [] /\ mentions insns = []
  | Some (off', insns') => funcs_of off insns = funcs_of off' insns' /\ lines_of off insns = lines_of off' insns' /\ mentions insns = mentions insns' /\ (offsets_ok off insns -> offsets_ok off' insns')
  end.
Proof.
  induction insns as [|i insns IH]; intros off; cbn [findFirst]; [repeat split|]. destruct (i_source i) as [src|] eqn:Es; [do 3 (split; [reflexivity|]); auto|]. destruct (i_func i) as [f|] eqn:Ef; [do 3 (split; [reflexivity|]); auto|].
  specialize (IH (off + i_width i)). cbn [funcs_of lines_of mentions]. rewrite Es, Ef. cbn [app]. destruct (findFirst (off + i_width i) insns) as [(off' & insns')|]; [|exact IH].
  destruct IH as (I1 & I2 & I3 & I4). repeat (split; [assumption|]). intros O. apply I4. now apply offsets_step in O.
Qed.
Lemma marshal_run bo h insns b b' fi li : offsets_ok 0 insns -> lines_fit insns -> MarshalExtInfos bo h b insns = (b', Ok (fi, li)) ->
  exists rs ids offs, run h b (mentions insns) = (b', rs) /\
    length ids = length (funcs_of 0 insns) /\ fi = encode_records bo (map (fun p => func_rec (fst p) (snd p)) (combine (funcs_of 0 insns) ids)) /\
    Forall2 (fun e id => done (mentions insns) rs (OAdd (snd e)) id) (funcs_of 0 insns) ids /\
    length offs = length (lines_of 0 insns) /\ li = encode_records bo (map (fun p => line_rec (fst p) (snd p)) (combine (lines_of 0 insns) offs)) /\
    Forall2 (fun e o => line_ok (snd e) /\ done (mentions insns) rs (OString (l_file (snd e))) (fst o) /\ done (mentions insns) rs (OString (l_line (snd e))) (snd o)) (lines_of 0 insns) offs.
Proof.
  intros Oo Lf E. unfold MarshalExtInfos in E. pose proof (findFirst_spec insns 0) as H. destruct (findFirst 0 insns) as [(off' & insns')|].
  - destruct H as (-> & H2 & -> & O). assert (Lf' : lines_fit insns') by (unfold lines_fit in *; rewrite H2 in Lf; eapply lines_shift; exact Lf). rewrite H2. exact (marshalLoop_run bo h insns' b off' [] [] b' fi li (O Oo) Lf' E).
  - destruct H as (-> & -> & ->). injection E as <- <- <-. exists [], [], []. repeat split; constructor.
Qed.

(** ** Loading *)
Lemma sorted_perm_eq {A} (l1 : list (Z * A)) : forall l2, Permutation l1 l2 -> StronglySorted Z.lt (map fst l1) -> StronglySorted Z.lt (map fst l2) -> l1 = l2.
Proof.
  induction l1 as [|x l1 IH]; intros l2 P S1 S2; [now apply Permutation_nil in P|]. destruct l2 as [|y l2]; [apply Permutation_sym in P; now apply Permutation_nil in P|].
  cbn in S1, S2. inversion S1 as [|? ? S1' F1]; subst. inversion S2 as [|? ? S2' F2]; subst. rewrite Forall_forall in F1, F2.
  assert (E : x = y).
  { assert (Hx : In x (y :: l2)) by (eapply Permutation_in; [exact P|now left]). assert (Hy : In y (x :: l1)) by (eapply Permutation_in; [apply Permutation_sym; exact P|now left]).
    destruct Hx as [->|Hx]; [reflexivity|]. destruct Hy as [->|Hy]; [reflexivity|]. pose proof (F1 _ (in_map fst _ _ Hy)). pose proof (F2 _ (in_map fst _ _ Hx)). lia. }
  subst y. f_equal. apply IH; auto. eapply Permutation_cons_inv. exact P.
Qed.
Lemma funcs_sorted : forall insns off, Forall (fun i => 0 < i_width i) insns -> StronglySorted Z.lt (map fst (funcs_of off insns)) /\ Forall (Z.le off) (map fst (funcs_of off insns)).
Proof.
  induction insns as [|i insns IH]; intros off F; cbn [funcs_of]; [split; constructor|]. inversion F as [|? ? P F']; subst. destruct (IH (off + i_width i) F') as (S & L).
  assert (L' : Forall (Z.lt off) (map fst (funcs_of (off + i_width i) insns))) by (eapply Forall_impl; [|exact L]; cbn; lia). destruct (i_func i); cbn; [split; [constructor; assumption|constructor; [lia|]]|split; [exact S|]]; eapply Forall_impl; try exact L'; cbn; lia.
Qed.
Lemma lines_sorted : forall insns off, Forall (fun i => 0 < i_width i) insns -> StronglySorted Z.lt (map fst (lines_of off insns)) /\ Forall (Z.le off) (map fst (lines_of off insns)).
Proof.
  induction insns as [|i insns IH]; intros off F; cbn [lines_of]; [split; constructor|]. inversion F as [|? ? P F']; subst. destruct (IH (off + i_width i) F') as (S & L).
  assert (L' : Forall (Z.lt off) (map fst (lines_of (off + i_width i) insns))) by (eapply Forall_impl; [|exact L]; cbn; lia). destruct (i_source i); cbn; [split; [constructor; assumption|constructor; [lia|]]|split; [exact S|]]; eapply Forall_impl; try exact L'; cbn; lia.
Qed.
Lemma sorted_NoDup l : StronglySorted Z.lt l -> NoDup l.
Proof. induction 1 as [|x l S IH F]; constructor; auto. intros H. rewrite Forall_forall in F. specialize (F x H). lia. Qed.
Lemma funcs_range : forall insns off, offsets_ok off insns -> Forall (fun e => in_u 32 (fst e)) (funcs_of off insns).
Proof. induction insns as [|i insns IH]; intros off O; cbn [funcs_of]; [constructor|]. destruct (offsets_step _ _ _ O) as (U & O'). apply Forall_app. split; [destruct (i_func i); repeat constructor; apply U|auto]. Qed.
Lemma lines_range : forall insns off, offsets_ok off insns -> Forall (fun e => in_u 32 (fst e)) (lines_of off insns).
Proof. induction insns as [|i insns IH]; intros off O; cbn [lines_of]; [constructor|]. destruct (offsets_step _ _ _ O) as (U & O'). apply Forall_app. split; [destruct (i_source i); repeat constructor; apply U|auto]. Qed.
Lemma done_nth ops rs o x : done ops rs o x -> exists k, nth_error ops k = Some o /\ nth_error rs k = Some (Ok x).
Proof.
  unfold done. revert rs. induction ops as [|p ops IH]; intros [|r rs] H; try destruct H. - injection H as -> ->. exists 0%nat. auto. - destruct (IH rs H) as (k & K). exists (S k). exact K.
Qed.

Lemma cached_same s st id : cached st id -> exists st', TypeByID (table_names (s_strings s)) (s_recs s) st id = Some (st', Some (addr st id)) /\ d_heap st' = d_heap st.
Proof.
  intros C. unfold TypeByID, addr. rewrite Nat.add_comm. cbn [inflate Nat.add]. destruct (Z.eqb_spec id 0) as [->|N]; [eexists; split; reflexivity|]. destruct C as [|(a & A)]; [contradiction|]. rewrite A. eexists; split; reflexivity.
Qed.
Lemma encode_records_bytes bo rs : bytes_ok (encode_records bo rs).
Proof.
  unfold encode_records, encode_record. induction rs as [|ws rs IH]; cbn [map concat]; [constructor|]. apply bytes_ok_app. split; [|exact IH]. clear. induction ws as [|w ws IH]; cbn [map concat]; [constructor|]. apply bytes_ok_app. split; [apply put_ok|exact IH].
Qed.
Lemma Forall2_combine {A B} (P : A -> B -> Prop) l m : Forall2 P l m -> Forall (fun p => P (fst p) (snd p)) (combine l m).
Proof. induction 1; cbn; constructor; auto. Qed.
Lemma Forall2_perm_sorted {A B} (R : A -> B -> Prop) (key : A -> Z) (kb : B -> Z) : (forall a b, R a b -> key a = kb b) -> forall l m, Forall2 R l m -> map key l = map kb m.
Proof. intros H l m F. induction F; cbn; f_equal; auto. Qed.

(** ** C61 *)
Theorem C61_limits : forall bo h b0 insns b fi li, MarshalExtInfos bo h b0 insns = (b, Ok (fi, li)) ->
  Forall (fun e => l_number (snd e) < 2 ^ 22 /\ l_column (snd e) < 2 ^ 10) (lines_of 0 insns).
Proof.
  intros bo h b0 insns b fi li E. unfold MarshalExtInfos in E. pose proof (findFirst_spec insns 0) as H. destruct (findFirst 0 insns) as [(off' & insns')|]; [|destruct H as (_ & -> & _); constructor].
  destruct H as (_ & -> & _). revert b0 E. generalize (@nil Z) at 1 as f0. generalize (@nil Z) as l0. revert off'. induction insns' as [|i l IH]; intros off l0 f0 b0 E; cbn [marshalLoop lines_of] in *; [constructor|].
  destruct (match i_func i with Some fn => marshalFunc bo h b0 off fn | None => (b0, Ok []) end) as (b1 & [f|]); [|discriminate E].
  destruct (match i_source i with Some src => marshalLine bo b1 off (line_of src) | None => (b1, Ok []) end) as (b2 & [x|]) eqn:El; [|discriminate E].
  apply Forall_app. split; [|eapply IH; exact E]. destruct (i_source i) as [src|]; [|constructor]. constructor; [|constructor]. cbn [snd]. unfold marshalLine in El. rewrite !Z.gtb_ltb in El.
  destruct (Z.ltb_spec 4194303 (l_number (line_of src))); [discriminate El|]. destruct (Z.ltb_spec 1023 (l_column (line_of src))); [discriminate El|]. change (2 ^ 22) with 4194304. change (2 ^ 10) with 1024. lia.
Qed.
Print Assumptions C61_limits.

(** All of it succeeds if the types can be encoded, the strings have no zero bytes and the numbers fit. *)
Lemma marshalLoop_ok bo h : forall insns b off fi li b' rs, Forall (fun e => l_number (snd e) < 2 ^ 22 /\ l_column (snd e) < 2 ^ 10) (lines_of off insns) ->
  run h b (mentions insns) = (b', rs) -> Forall (fun r => exists x, r = Ok x) rs -> exists fi' li', marshalLoop bo h b off insns fi li = (b', Ok (fi', li')).
Proof.
  induction insns as [|i insns IH]; intros b off fi li b' rs F R G; cbn [marshalLoop mentions lines_of] in *; [injection R as <- <-; eauto|].
  rewrite run_app in R. destruct (run h b (match i_func i with Some f => [OAdd f] | None => [] end)) as (b1 & r1) eqn:R1. rewrite run_app in R.
  destruct (run h b1 (match i_source i with Some src => [OString (l_file (line_of src)); OString (l_line (line_of src))] | None => [] end)) as (b2 & r2) eqn:R2. destruct (run h b2 (mentions insns)) as (b3 & r3) eqn:R3. injection R as <- <-.
  apply Forall_app in G as (G1 & G2). apply Forall_app in G2 as (G2 & G3). apply Forall_app in F as (F1 & F2).
  assert (Kf : exists f, match i_func i with Some fn => marshalFunc bo h b off fn | None => (b, Ok []) end = (b1, Ok f)).
  { destruct (i_func i) as [fn|]; cbn [run apply_op] in R1; [|injection R1 as <- <-; eauto]. unfold marshalFunc. destruct (Add h b fn) as (b4 & r). injection R1 as <- <-. inversion G1 as [|? ? (x & ->) _]. eauto. }
  destruct Kf as (f & ->).
  assert (Kl : exists l, match i_source i with Some src => marshalLine bo b1 off (line_of src) | None => (b1, Ok []) end = (b2, Ok l)).
  { destruct (i_source i) as [src|]; cbn [run apply_op] in R2; [|injection R2 as <- <-; eauto]. inversion F1 as [|? ? (P1 & P2) _]; subst. cbn [snd] in *. change (2 ^ 22) with 4194304 in P1. change (2 ^ 10) with 1024 in P2. unfold marshalLine. rewrite !Z.gtb_ltb.
    destruct (Z.ltb_spec 4194303 (l_number (line_of src))); [lia|]. destruct (Z.ltb_spec 1023 (l_column (line_of src))); [lia|].
    destruct (addString b1 (l_file (line_of src))) as (b4 & x1). destruct (addString b4 (l_line (line_of src))) as (b5 & x2). injection R2 as <- <-. inversion G2 as [|? ? (y1 & ->) G2']; subst. inversion G2' as [|? ? (y2 & ->) _]. eauto. }
  destruct Kl as (l & ->). eapply IH; eassumption.
Qed.
Lemma mentions_func insns : forall off t, In (OAdd t) (mentions insns) -> In t (map snd (funcs_of off insns)).
Proof.
  induction insns as [|i insns IH]; intros off t H; [destruct H|]. cbn [mentions funcs_of] in *. rewrite map_app. apply in_or_app. apply in_app_or in H as [H|H].
  - left. destruct (i_func i); [|destruct H]. destruct H as [H|[]]. injection H as ->. now left.
  - apply in_app_or in H as [H|H]; [|right; now apply IH]. destruct (i_source i); [|destruct H]. destruct H as [H|[H|[]]]; discriminate H.
Qed.
Theorem C61_marshals : forall h S ops b0 rs0 bo insns,
  admissible h S (ops ++ mentions insns) -> run h emptyBuilder ops = (b0, rs0) -> ~ In RNil (map snd (funcs_of 0 insns)) ->
  Forall (fun e => l_number (snd e) < 2 ^ 22 /\ l_column (snd e) < 2 ^ 10) (lines_of 0 insns) ->
  exists b fi li, MarshalExtInfos bo h b0 insns = (b, Ok (fi, li)).
Proof.
  intros h S ops b0 rs0 bo insns (A1 & A2 & A3 & A4 & A5) R0 Nn F. destruct (run h b0 (mentions insns)) as (b & rs) eqn:R.
  assert (Ra : run h emptyBuilder (ops ++ mentions insns) = (b, rs0 ++ rs)) by (rewrite run_app, R0, R; reflexivity).
  assert (L0 : length ops = length rs0) by (pose proof (run_length h ops emptyBuilder) as X; rewrite R0 in X; symmetry; exact X).
  assert (G : Forall (fun r => exists x, r = Ok x) rs).
  { destruct (run_added h S _ _ _ A1 A4 Ra) as (_ & Fa). destruct (run_strings h _ _ _ _ Ra) as (_ & Fs).
    assert (Sp : forall P, Forall2 P (ops ++ mentions insns) (rs0 ++ rs) -> Forall2 P (mentions insns) rs).
    { clear -L0. revert rs0 L0. induction ops as [|o ops IH]; intros [|r rs0] L0 P F; try discriminate L0; [exact F|]. apply (IH rs0); [now injection L0|]. now inversion F. }
    apply Sp in Fa, Fs. clear Sp.
    assert (H1 : forall t, In (OAdd t) (mentions insns) -> t <> RNil) by (intros t Ht ->; apply Nn; now apply mentions_func).
    assert (H2 : forall s, In (OString s) (mentions insns) -> ~ In 0 s) by (intros s Hs; rewrite Forall_forall in A2; apply A2, A5; apply in_or_app; now right).
    clear -Fa Fs H1 H2. induction Fa as [|o r l rs Ho Fa IH]; [constructor|]. inversion Fs as [|? ? ? ? Hs Fs']; subst. constructor.
    - destruct o as [t|s]; [destruct t as [| |a]|].
      + destruct (H1 RNil); [now left|reflexivity].
      + eauto.
      + destruct Ho as (i & -> & _). eauto.
      + apply (proj1 Hs). apply H2. now left.
    - apply IH; auto; intros; [apply H1|apply H2]; now right. }
  unfold MarshalExtInfos. pose proof (findFirst_spec insns 0) as H. destruct (findFirst 0 insns) as [(off' & insns')|]; [|eauto]. destruct H as (_ & E2 & E3 & _). rewrite E2 in F. rewrite E3 in R.
  destruct (marshalLoop_ok bo h insns' b0 off' [] [] b rs F R G) as (fi & li & E). eauto.
Qed.
Print Assumptions C61_marshals.

(** Function and line infos, with the types and strings of the builder, denote what was put on the instructions. *)
Theorem C61_round_trip : forall h S ops b0 rs0 bo insns b fi li order,
  admissible h S (ops ++ mentions insns) -> run h emptyBuilder ops = (b0, rs0) -> offsets_ok 0 insns ->
  lines_fit insns -> (forall e, In e (funcs_of 0 insns) -> exists name t lk tags ptags, deref h (snd e) = Some (NFunc name t lk tags ptags) /\ name <> []) ->
  MarshalExtInfos bo h b0 insns = (b, Ok (fi, li)) -> (forall m, Permutation (order m) m) ->
  exists bytes t types recs,
    Marshal noOpts bo order h b = Some (Ok bytes) /\
    (Z.of_nat (length bytes) < 2 ^ 32 -> loadSections bytes None = Some (Ok (bo, t, types)) /\ readRecs bo types = Ok recs) /\
    forall sort, go_sort sort ->
    (forall st, reached (mkSpec t recs) st -> exists st' fos,
       LoadFuncInfos sort (mkSpec t recs) bo st (Z.of_nat (length (funcs_of 0 insns))) fi = (st', Ok fos) /\
       Forall2 (fun e e' => fst e' = fst e /\ exists f, isomorphic f h (snd e) (d_heap st') (snd e')) (funcs_of 0 insns) fos) /\
    LoadLineInfos sort (mkSpec t recs) bo (Z.of_nat (length (lines_of 0 insns))) li = Ok (lines_of 0 insns).
Proof.
  intros h S ops b0 rs0 bo insns b fi li order A R0 Oo Lf Hf M P. destruct (marshal_run bo h insns b0 b fi li Oo Lf M) as (rs & ids & offs & R & Li & Efi & Fi & Lo & Eli & Fo).
  assert (Ra : run h emptyBuilder (ops ++ mentions insns) = (b, rs0 ++ rs)) by (rewrite run_app, R0, R; reflexivity).
  assert (L0 : length ops = length rs0) by (pose proof (run_length h ops emptyBuilder) as X; rewrite R0 in X; symmetry; exact X).
  destruct (round_trip_all h S _ _ _ bo order A Ra P) as (bytes & t & types & recs & Mb & Rok & Ld & Ds & Dt). exists bytes, t, types, recs. split; [exact Mb|]. split; [exact Ld|]. intros sort Hs. set (s := mkSpec t recs).
  assert (Dn : forall o x, done (mentions insns) rs o x -> exists k, nth_error (ops ++ mentions insns) k = Some o /\ nth_error (rs0 ++ rs) k = Some (Ok x)) by (intros o x D; apply done_nth, done_app; auto).
  pose proof Oo as (_ & Wp & _). split.
  - intros st Rst. set (frecs := map (fun p => func_rec (fst p) (snd p)) (combine (funcs_of 0 insns) ids)) in *.
    assert (Lfr : length frecs = length (funcs_of 0 insns)) by (unfold frecs; rewrite map_length, combine_length; lia).
    assert (Wf : Forall (words_ok 2) frecs).
    { unfold frecs. apply Forall_map. pose proof (funcs_range insns 0 Oo) as Fr. apply Forall2_combine in Fi. rewrite Forall_forall in *. intros (e & id) Hp. specialize (Fi _ Hp). cbn [fst snd] in *. split; [reflexivity|]. constructor; [apply Fr; eapply in_combine_l; exact Hp|]. constructor; [|constructor].
      destruct (Dn _ _ Fi) as (k & K1 & K2). apply (Dt k (snd e) id K1 K2). }
    unfold LoadFuncInfos. assert (Ep : parseFuncInfoRecords bo FuncInfoSize (Z.of_nat (length (funcs_of 0 insns))) false fi = Ok (frecs, [])).
    { apply (func_records bo FuncInfoSize false eq_refl); [rewrite Efi; apply encode_records_bytes|lia|]. exists frecs. rewrite app_nil_r. split; [exact Efi|]. split; [lia|]. split; [exact Wf|]. split; [discriminate|reflexivity]. }
    rewrite Ep.
    pose proof (sorted_stateful s sort Hs (newFuncOffset s) (func_at) (func_ok s) (fun x y => fst x <=? fst y) (fun x y => less_le x y) (funcs_stateful_ok s Rok)) as (_ & Sf).
    destruct (Sf st frecs Rst) as (st' & r & E & R' & X & V & G).
    assert (Gd : Forall (func_ok s) frecs).
    { unfold frecs. apply Forall_map. apply Forall2_combine in Fi. rewrite Forall_forall in *. intros (e & id) Hp. specialize (Fi _ Hp). cbn [fst snd] in *. exists (fst e), id. split; [reflexivity|]. intros st1 (qids & qs & Q).
      destruct (Dn _ _ Fi) as (k & K1 & K2). destruct (Dt k (snd e) id K1 K2) as (_ & D). destruct (D qids st1 qs Q) as (st2 & f & T & (I1 & I2 & I3 & I4 & I5)).
      destruct (Hf e (in_combine_l _ _ _ _ Hp)) as (name & ty & lk & tags & ptags & De & Ne). destruct (I5 (snd e) _ (reach_refl _ _) De) as (n' & Dn' & Sm). cbn [rename same_type] in Sm. destruct n'; try discriminate Sm. destruct Sm as (<- & _).
      do 7 eexists. split; [exact T|]. split; [exact Dn'|exact Ne]. }
    destruct (G Gd) as (fos & ->). exists st', fos. split; [exact E|]. destruct (V fos eq_refl) as ((es' & Fe & Pe) & So).
    assert (Ef : forall l, Forall2 (fun e id => done (mentions insns) rs (OAdd (snd e)) id) l ids -> forall es, Forall2 (func_at st') (map (fun p => func_rec (fst p) (snd p)) (combine l ids)) es ->
      Forall2 (fun e e' => fst e' = fst e /\ exists f, isomorphic f h (snd e) (d_heap st') (snd e')) l es).
    { clear -Dn Dt R'. intros l Fl. induction Fl as [|e id l ids' D Fl IH]; intros es F; cbn [combine map] in F; [inversion F; constructor|]. inversion F as [|? e' ? es'' Hx Ft]; subst; constructor; [|exact (IH _ Ft)].
      destruct Hx as (id' & name & ty & lk & tags & ptags & Ew & (C & Ad) & _). unfold func_rec in Ew. cbn [fst snd] in Ew. injection Ew as Eo <-. split; [symmetry; exact Eo|].
      destruct (Dn _ _ D) as (k & K1 & K2). destruct (Dt k (snd e) id K1 K2) as (_ & D'). destruct R' as (qids & qs & Q). destruct (D' qids st' qs Q) as (st2 & f & T & Is). destruct (cached_same s st' id C) as (st3 & T' & Eh).
      cbn [s s_strings s_recs] in T'. rewrite T in T'. injection T' as <- Ea. exists f. rewrite <- Eh, Ad, <- Ea. exact Is. }
    pose proof (Ef _ Fi es' Fe) as Fes. assert (Em : map fst es' = map fst (funcs_of 0 insns)).
    { clear -Fes. induction Fes as [|e e' l l' (H & _) F IH]; cbn; congruence. }
    assert (Ss : StronglySorted Z.lt (map fst es')) by (rewrite Em; apply (funcs_sorted insns 0 Wp)).
    assert (es' = fos) by (apply sorted_perm_eq; [exact Pe|exact Ss|]; apply So; eapply Permutation_NoDup; [apply Permutation_map; exact Pe|now apply sorted_NoDup]). subst fos. exact Fes.
  - set (lrecs := map (fun p => line_rec (fst p) (snd p)) (combine (lines_of 0 insns) offs)) in *.
    assert (Llr : length lrecs = length (lines_of 0 insns)) by (unfold lrecs; rewrite map_length, combine_length; lia).
    unfold lines_fit in Lf.
    assert (Wl : Forall (words_ok 4) lrecs).
    { unfold lrecs. apply Forall_map. pose proof (lines_range insns 0 Oo) as Fr. pose proof (Forall2_combine _ _ _ Fo) as Fo'. rewrite Forall_forall in Fr, Fo' |- *. intros (e & o) Hp. destruct (Fo' _ Hp) as ((N & C) & D1 & D2). cbn [fst snd] in *. split; [reflexivity|].
      destruct (Dn _ _ D1) as (k1 & K1 & K1'). destruct (Dn _ _ D2) as (k2 & K2 & K2'). unfold line_rec. constructor; [apply Fr; eapply in_combine_l; exact Hp|]. constructor; [apply (Ds k1 _ _ K1 K1')|]. constructor; [apply (Ds k2 _ _ K2 K2')|]. constructor; [|constructor].
      change (2 ^ 22) with 4194304 in N. change (2 ^ 10) with 1024 in C. unfold in_u. change (2 ^ 32) with 4294967296. lia. }
    unfold LoadLineInfos. assert (Ep : parseLineInfoRecords bo LineInfoSize (Z.of_nat (length (lines_of 0 insns))) false li = Ok (lrecs, [])).
    { apply (line_records bo LineInfoSize false eq_refl); [rewrite Eli; apply encode_records_bytes|lia|]. exists lrecs. rewrite app_nil_r. split; [exact Eli|]. split; [lia|]. split; [exact Wl|]. split; [discriminate|reflexivity]. }
    rewrite Ep. unfold newLineInfos.
    assert (Em : mapRes (newLineInfo s) lrecs = Ok (lines_of 0 insns)).
    { unfold lrecs. clear -Fo Dn Ds. induction Fo as [|e o l offs' ((N & C) & D1 & D2) Fo IH]; [reflexivity|]. cbn [combine map mapRes]. cbn [fst snd] in *. unfold line_rec at 1. unfold newLineInfo at 1.
      destruct (Dn _ _ D1) as (k1 & K1 & K1'). destruct (Dn _ _ D2) as (k2 & K2 & K2'). destruct (Ds k1 _ _ K1 K1') as (_ & E1). destruct (Ds k2 _ _ K2 K2') as (_ & E2). unfold lookupName. cbn [fst snd]. change (s_strings s) with t. rewrite E1, E2, IH.
      destruct e as (off & [file ln num col]). cbn [fst snd l_file l_line l_number l_column] in *. change (2 ^ 10) with 1024 in C. do 2 f_equal. f_equal. destruct (line_col s (1024 * num + col)) as (Q & B). f_equal; lia. }
    rewrite Em. f_equal. destruct (Hs _ (fun x y : lineOffset => fst x <=? fst y) (lines_of 0 insns)) as (Pe & So). pose proof (lines_sorted insns 0 Wp) as (Ss & _). symmetry. apply sorted_perm_eq; [exact Pe|exact Ss|]. apply So; [intros x y _ _ Nxy; now apply less_le|now apply sorted_NoDup].
Qed.
Print Assumptions C61_round_trip.

(** ** A case which meets the hypotheses *)
Definition ex_insns : list xins :=
  [mkXins 1 None None None; mkXins 2 None (Some (SOther [120])) None; mkXins 1 (Some (RPtr 6)) (Some (SLine (mkLine [102] [97] 4194303 1023))) None; mkXins 1 None None None; mkXins 1 (Some (RPtr 6)) None None].
Example C61_example : admissible ex_heap ex_strs (ex_ops ++ mentions ex_insns) /\ offsets_ok 0 ex_insns /\ lines_fit ex_insns /\
  (forall e, In e (funcs_of 0 ex_insns) -> exists name t lk tags ptags, deref ex_heap (snd e) = Some (NFunc name t lk tags ptags) /\ name <> []) /\
  funcs_of 0 ex_insns = [(3, RPtr 6); (5, RPtr 6)] /\ lines_of 0 ex_insns = [(1, mkLine [] [120] 0 0); (3, mkLine [102] [97] 4194303 1023)] /\
  snd (MarshalExtInfos LE ex_heap (fst (run ex_heap emptyBuilder ex_ops)) ex_insns) =
    Ok ([3; 0; 0; 0; 4; 0; 0; 0; 5; 0; 0; 0; 4; 0; 0; 0],
        [1; 0; 0; 0; 0; 0; 0; 0; 3; 0; 0; 0; 0; 0; 0; 0; 3; 0; 0; 0; 5; 0; 0; 0; 7; 0; 0; 0; 255; 255; 255; 255]).
Proof.
  destruct C29_example as ((A1 & A2 & A3 & A4 & A5) & _). split; [|split; [|split; [|split; [|split; [|split]]]]].
  - split; [exact A1|]. split; [exact A2|]. split; [exact A3|]. split.
    + intros t Ht Nt. apply A4; [|exact Nt]. apply in_app_or in Ht as [Ht|Ht]; [exact Ht|]. cbn in Ht. decompose [or] Ht; try discriminate; try contradiction; match goal with H : OAdd _ = OAdd t |- _ => injection H as <- end; unfold ex_ops; cbn; tauto.
    + intros s Hs. apply in_app_or in Hs as [Hs|Hs]; [now apply A5|]. cbn in Hs. decompose [or] Hs; try discriminate; try contradiction; match goal with H : OString _ = OString s |- _ => injection H as <- end; unfold ex_strs; cbn; tauto.
  - split; [lia|]. split; [repeat constructor|]. vm_compute. discriminate.
  - unfold lines_fit. repeat constructor; cbn; lia.
  - intros e [<-|[<-|[]]]; cbn; do 5 eexists; (split; [reflexivity|discriminate]).
  - reflexivity.
  - reflexivity.
  - vm_compute. reflexivity.
Qed.
