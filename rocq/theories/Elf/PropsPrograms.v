(** C76: the programs of an object file. *)
From Coq Require Import String Ascii Sorting.Sorted Permutation.
From Verif Require Import Base.GoInt Asm.Model Asm.Spec Asm.Proof Asm.ProofStream Asm.Props Link.Flatten Link.PropsFlatten Elf.Programs Elf.ProgramsSpec Elf.ProgramsProof Elf.ProgramsStep.
Open Scope string_scope. Open Scope list_scope. Open Scope Z_scope.

(** ** Functions of a section *)
Lemma relocateAll_spec : forall o x m symbols l off js, relocateAll o x m symbols off l = Ok js <->
  (List.length js = List.length l /\ forall k ins j, nth_error l k = Some ins -> nth_error js k = Some j -> step o x m symbols (off + 8 * raw_offset l k) ins = Ok j).
Proof.
  intros o x m symbols. induction l as [|ins l IH]; intros off js; cbn [relocateAll].
  - split; [intros H; injection H as <-; split; [reflexivity|intros [|k] ? ? Hk; discriminate]|]. intros (H & _). destruct js; [reflexivity|discriminate].
  - change (match relAt m off with Some rel => relocateInstruction o x ins rel | None => referenceRelativeJump ins off symbols end) with (step o x m symbols off ins).
    assert (RW : rawInstructions (OpCode ins) = slots ins) by (unfold rawInstructions, slots; now rewrite IsDWordLoad_eq). rewrite RW. split.
    + destruct (step o x m symbols off ins) as [j|] eqn:Es; [|discriminate]. destruct (relocateAll _ _ _ _ _ l) as [js'|] eqn:Er; [|discriminate]. intros H. injection H as <-. apply IH in Er as (L & P). split; [cbn; now rewrite L|].
      intros [|k] i0 j0 Hk Hj; cbn [nth_error raw_offset] in *; [injection Hk as <-; injection Hj as <-; now rewrite Z.add_0_r|]. replace (off + 8 * (slots ins + raw_offset l k)) with (off + 8 * slots ins + 8 * raw_offset l k) by lia. now apply P.
    + intros (L & P). destruct js as [|j js]; [discriminate|]. pose proof (P 0%nat ins j eq_refl eq_refl) as P0. cbn [raw_offset] in P0. replace (off + 8 * 0) with off in P0 by lia. rewrite P0.
      rewrite (proj2 (IH (off + 8 * slots ins) js)); [reflexivity|]. split; [now injection L|]. intros k i0 j0 Hk Hj. specialize (P (S k) i0 j0 Hk Hj). cbn [raw_offset] in P. now replace (off + 8 * slots ins + 8 * raw_offset l k) with (off + 8 * (slots ins + raw_offset l k)) by lia.
Qed.
Lemma decode_spec : forall o s y l, in_u 64 (y_value y) -> in_u 64 (y_size y) -> decodeFunction o s y = Some (Ok l) <-> in_bounds s y /\ exists i l', code o s y (i :: l') /\ l = set_sym i (y_name y) :: l'.
Proof.
  intros o s y l Hv Hz. unfold decodeFunction, in_bounds, code, code_bytes, in_u in *.
  destruct (Z.ltb_spec (2 ^ 32 - 1) (y_value y)) as [A|A]; cbn [orb]; [split; [discriminate|lia]|]. destruct (Z.ltb_spec (2 ^ 32 - 1) (y_size y)) as [B|B]; [split; [discriminate|lia]|].
  rewrite u64_small by lia. destruct (Z.ltb_spec (o_size s) (y_value y + y_size y)) as [C|C]; [split; [discriminate|lia]|].
  destruct (AppendInstructions _ _ _ _) as [[[|i l']|e]|]; (split; [intros H; try discriminate|intros (_ & i0 & l0 & H & ->); try discriminate]).
  - injection H as <-. split; [lia|]. eauto.
  - injection H as -> ->. reflexivity.
Qed.
Lemma decode_total : forall o s y, exists r, decodeFunction o s y = Some r.
Proof. intros o s y. unfold decodeFunction. destruct (_ || _); [eauto|]. destruct (_ <? _); [eauto|]. destruct (C04_total (o_order o) PLinux [] (firstn (Z.to_nat (y_size y)) (skipn (Z.to_nat (y_value y)) (o_data s)))) as (r & ->). destruct r as [[|]|]; eauto. Qed.
(** loading one function *)
Definition loadOne (o : obj) (x : externs) (s : osec) (m : rels) (symbols : list sym) (y : sym) (js : list lins) : Prop :=
  exists l, decodeFunction o s y = Some (Ok l) /\ relocateAll o x m symbols (y_value y) l = Ok js.
Lemma raw_offset_first : forall i l n k, raw_offset (set_sym i n :: l) k = raw_offset (i :: l) k.
Proof. intros i l n [|k]; reflexivity. Qed.
Lemma loadOne_spec : forall o x i s m y js, regular o -> usual_file o -> program_section o i s -> function_symbol o i y -> relocationsOf o i = Some (Ok m) ->
  loadOne o x s m (symbolsOf o i) y js <-> translated o x i s y js.
Proof.
  intros o x i s m y js R Uf Hs Hy Hm. destruct (rg_syms o R y (proj1 Hy)) as (_ & V1 & V2 & _). unfold loadOne, translated.
  assert (Sp : forall ib i0 l', in_bounds s y -> code o s y (i0 :: l') -> ib = set_sym i0 (y_name y) :: l' -> forall k ins, nth_error (i0 :: l') k = Some ins ->
     nth_error ib k = Some (match k with O => set_sym ins (y_name y) | S _ => ins end) /\ usual o i (y_value y + 8 * raw_offset (i0 :: l') k) (match k with O => set_sym ins (y_name y) | S _ => ins end)).
  { intros ib i0 l' Hb Hc -> k ins Hk. pose proof (Uf i s y _ k ins Hs Hy Hb Hc Hk) as Us. destruct k as [|k]; cbn [nth_error] in *; [injection Hk as <-|]; (split; [auto|exact Us]). }
  split.
  - intros (l & D & Rl). apply decode_spec in D as (Hb & i0 & l' & Hc & ->); auto. split; [exact Hb|]. exists (i0 :: l'). split; [exact Hc|]. split; [discriminate|]. apply relocateAll_spec in Rl as (L & P). split; [exact L|].
    intros k ins j Hk Hj. destruct (Sp _ i0 l' Hb Hc eq_refl k ins Hk) as (Hk' & Us). specialize (P k _ j Hk' Hj). rewrite raw_offset_first in P. eapply step_resolved; eassumption.
  - intros (Hb & l & Hc & Nn & L & P). destruct l as [|i0 l']; [congruence|]. exists (set_sym i0 (y_name y) :: l'). split; [apply decode_spec; auto; split; eauto|]. apply relocateAll_spec. split; [exact L|].
    intros k ins' j Hk' Hj. destruct (nth_error (i0 :: l') k) as [ins|] eqn:Hk.
    + destruct (Sp _ i0 l' Hb Hc eq_refl k ins Hk) as (Hk2 & Us). rewrite Hk' in Hk2. injection Hk2 as ->. rewrite raw_offset_first. eapply resolved_step; try eassumption. now apply P.
    + apply nth_error_None in Hk. cbn [List.length] in Hk. assert (N : nth_error (set_sym i0 (y_name y) :: l') k = None) by (apply nth_error_None; cbn [List.length]; lia). congruence.
Qed.
Lemma lookup_None : forall A (m : list (string * A)) n, lookup n m = None <-> ~ In n (map fst m).
Proof. intros A m n. induction m as [|[k v] m IH]; cbn [lookup map In fst]; [tauto|]. destruct (String.eqb_spec n k) as [->|N]; [split; [discriminate|intros H; destruct H; now left]|]. rewrite IH. split; [intros H [E|E]; [congruence|auto]|tauto]. Qed.
Lemma NoDup_snoc : forall A (l : list A) a, NoDup (l ++ [a]) <-> NoDup l /\ ~ In a l.
Proof. intros A l a. split. - intros H. apply NoDup_remove in H. rewrite app_nil_r in H. exact H. - intros (H1 & H2). apply NoDup_Add with (a := a) (l := l); [|auto]. clear. induction l as [|b l IH]; cbn [app]; constructor; exact IH. Qed.
Lemma NoDup_left : forall A (l m : list A), NoDup (l ++ m) -> NoDup l.
Proof. intros A l m. induction l as [|a l IH]; cbn [app]; intros H; [constructor|]. inversion H; subst. constructor; [intros I; apply H2; apply in_or_app; now left|auto]. Qed.
Lemma NoDup_right : forall A (l m : list A), NoDup (l ++ m) -> NoDup m.
Proof. intros A l m. induction l as [|a l IH]; cbn [app]; intros H; [exact H|]. inversion H; subst. auto. Qed.
Lemma loadSymbols_spec : forall o x s m symbols todo acc r, NoDup (map fst acc) ->
  loadSymbols o x s m symbols todo acc = Some (Ok r) <-> exists fs, r = acc ++ fs /\ Forall2 (fun y p => fst p = y_name y /\ loadOne o x s m symbols y (snd p)) todo fs /\ NoDup (map fst r).
Proof.
  intros o x s m symbols. induction todo as [|y todo IH]; intros acc r Nd; cbn [loadSymbols].
  - split.
    + intros H. injection H as <-. exists []. rewrite app_nil_r. auto.
    + intros (fs & -> & F & _). inversion F; subst. now rewrite app_nil_r.
  - destruct (lookup (y_name y) acc) eqn:Lk.
    + split; [discriminate|]. intros (fs & -> & F & N). inversion F as [|? p ? ps (E & _) F']; subst. rewrite map_app in N. cbn [map] in N. rewrite E in N. apply NoDup_remove_2 in N. exfalso. apply N. apply in_or_app. left.
      destruct (in_dec string_dec (y_name y) (map fst acc)) as [I|I]; [exact I|]. apply lookup_None in I. congruence.
    + apply lookup_None in Lk. split.
      * destruct (decodeFunction o s y) as [[l|]|] eqn:D; try discriminate. destruct (relocateAll _ _ _ _ _ l) as [js|] eqn:Rl; [|discriminate]. intros H. apply IH in H.
        -- destruct H as (fs & -> & F & N). exists ((y_name y, js) :: fs). rewrite <- app_assoc in *. split; [reflexivity|]. split; [|exact N]. constructor; [|exact F]. cbn. split; [reflexivity|]. exists l. auto.
        -- rewrite map_app. cbn [map fst]. apply NoDup_snoc. auto.
      * intros (fs & -> & F & N). inversion F as [|? [n js] ? ps (E & l & D & Rl) F']; subst. cbn [fst snd] in *. subst n. rewrite D, Rl. apply IH; [rewrite map_app; cbn [map fst]; apply NoDup_snoc; auto|]. exists ps. rewrite <- app_assoc. auto.
Qed.
Lemma loadSymbols_total : forall o x s m symbols todo acc, exists r, loadSymbols o x s m symbols todo acc = Some r.
Proof. intros o x s m symbols. induction todo as [|y todo IH]; intros acc; cbn [loadSymbols]; [eauto|]. destruct (lookup _ _); [eauto|]. destruct (decode_total o s y) as ([l|] & ->); [|eauto]. destruct (relocateAll _ _ _ _ _ l); eauto. Qed.
Lemma addProgs_spec : forall sect fs acc r, NoDup (map g_name acc) ->
  addProgs sect fs acc = Ok r <-> r = acc ++ map (fun p => mkProg (fst p) sect (snd p)) fs /\ NoDup (map g_name r).
Proof.
  intros sect. induction fs as [|[n l] fs IH]; intros acc r Nd; cbn [addProgs map].
  - rewrite app_nil_r. split; [intros H; injection H as <-; auto|intros (-> & _); reflexivity].
  - unfold hasProg. destruct (existsb (fun p => String.eqb (g_name p) n) acc) eqn:E.
    + split; [discriminate|]. intros (-> & N). apply existsb_exists in E as (p & Hp & En). apply String.eqb_eq in En. rewrite map_app in N. cbn [map fst g_name] in N. apply NoDup_remove_2 in N. exfalso. apply N. apply in_or_app. left. rewrite <- En. now apply List.in_map.
    + rewrite IH; [rewrite <- app_assoc; reflexivity|]. rewrite map_app. cbn [map g_name]. apply NoDup_snoc. split; [exact Nd|]. intros I. apply in_map_iff in I as (p & <- & Hp). assert (existsb (fun q => String.eqb (g_name q) (g_name p)) acc = true) by (apply existsb_exists; exists p; split; [exact Hp|apply String.eqb_refl]). congruence.
Qed.
(** ** All sections *)
(** the programs of section [i] *)
Definition sectionProgs (o : obj) (x : externs) (i : Z) (ps : list prog) : Prop :=
  exists s m fs, section o i = Some s /\ o_compressed s = false /\ symbolsOf o i <> [] /\ relocationsOf o i = Some (Ok m) /\
    Forall2 (fun y p => fst p = y_name y /\ loadOne o x s m (symbolsOf o i) y (snd p)) (symbolsOf o i) fs /\ ps = map (fun p => mkProg (fst p) (o_name s) (snd p)) fs.
Definition isProg (o : obj) (i : Z) : bool := match kindAt o i with Some KProg => true | _ => false end.
Lemma loadSections_spec : forall o x order acc r, NoDup (map g_name acc) ->
  loadSections o x order acc = Some (Ok r) <-> exists pss, Forall2 (sectionProgs o x) (filter (isProg o) order) pss /\ r = acc ++ concat pss /\ NoDup (map g_name r).
Proof.
  intros o x. induction order as [|i order IH]; intros acc r Nd; cbn [loadSections filter].
  - split; [intros H; injection H as <-; exists []; rewrite app_nil_r; auto|]. intros (pss & F & -> & _). inversion F; subst. now rewrite app_nil_r.
  - unfold isProg at 1. destruct (kindAt o i) as [[]|] eqn:K; try (apply IH; exact Nd).
    assert (Es : exists s, section o i = Some s) by (apply kind_prog in K as (s & Hs & _); exists s; now apply sect_section). destruct Es as (s & Es). rewrite Es.
    destruct (symbolsOf o i) as [|y0 ys] eqn:Ey.
    { split; [discriminate|]. intros (pss & F & _). inversion F as [|? ? ? ? (s' & m & fs & _ & _ & N & _)]; subst. congruence. }
    destruct (o_compressed s) eqn:Ec.
    { split; [discriminate|]. intros (pss & F & _). inversion F as [|? ? ? ? (s' & m & fs & S & C & _)]; subst. congruence. }
    unfold loadFunctions. destruct (relocations_total o i) as ([m|e] & Em); rewrite Em.
    2:{ split; [discriminate|]. intros (pss & F & _). inversion F as [|? ? ? ? (s' & m & fs & _ & _ & _ & M & _)]; subst. congruence. }
    assert (SU : forall ps, sectionProgs o x i ps <-> exists fs, Forall2 (fun y p => fst p = y_name y /\ loadOne o x s m (symbolsOf o i) y (snd p)) (symbolsOf o i) fs /\ ps = map (fun p => mkProg (fst p) (o_name s) (snd p)) fs).
    { intros ps. split.
      - intros (s' & m' & fs & S & _ & _ & M & H). assert (s' = s) by congruence. assert (m' = m) by congruence. subst. eauto.
      - intros (fs & F & E). exists s, m, fs. rewrite Ey. repeat split; auto; try discriminate. rewrite <- Ey. exact F. }
    split.
    + destruct (loadSymbols o x s m (symbolsOf o i) (symbolsOf o i) []) as [[fs|]|] eqn:El; try discriminate. apply loadSymbols_spec in El as (fs' & E & F & Nf); [|constructor]. cbn [app] in E. subst fs'.
      destruct (addProgs (o_name s) fs acc) as [acc'|] eqn:Ea; [|discriminate]. apply addProgs_spec in Ea as (-> & Na); [|exact Nd]. intros H. apply IH in H as (pss & Fp & -> & N); [|exact Na].
      exists (map (fun p => mkProg (fst p) (o_name s) (snd p)) fs :: pss). split; [constructor; [apply SU; eauto|exact Fp]|]. cbn [concat]. rewrite <- app_assoc in *. auto.
    + intros (pss & F & -> & N). inversion F as [|? ps ? pss' Sp F']; subst. apply SU in Sp as (fs & Ff & ->). cbn [concat] in *.
      assert (Nf : NoDup (map fst fs)). { rewrite !map_app in N. apply NoDup_right in N. apply NoDup_left in N. rewrite map_map in N. exact N. }
      assert (El : loadSymbols o x s m (symbolsOf o i) (symbolsOf o i) [] = Some (Ok fs)) by (apply loadSymbols_spec; [constructor|]; exists fs; auto). rewrite El.
      assert (Na : NoDup (map g_name (acc ++ map (fun p => mkProg (fst p) (o_name s) (snd p)) fs))). { rewrite app_assoc, map_app in N. apply NoDup_left in N. exact N. }
      assert (Ea : addProgs (o_name s) fs acc = Ok (acc ++ map (fun p => mkProg (fst p) (o_name s) (snd p)) fs)) by (apply addProgs_spec; auto). rewrite Ea. apply IH; [exact Na|]. exists pss'. rewrite <- app_assoc. auto.
Qed.
Lemma loadSections_total : forall o x order acc, exists r, loadSections o x order acc = Some r.
Proof.
  intros o x. induction order as [|i order IH]; intros acc; cbn [loadSections]; [eauto|]. destruct (kindAt o i) as [[]|]; auto. destruct (section o i); auto. destruct (symbolsOf o i) as [|y ys]; [eauto|]. destruct (o_compressed _); [eauto|]. unfold loadFunctions.
  destruct (relocations_total o i) as ([m|e] & ->); [|eauto]. destruct (loadSymbols_total o x o0 m (symbolsOf o i) (symbolsOf o i) []) as ([fs|] & ->); [|eauto]. destruct (addProgs _ fs acc); eauto.
Qed.

(** ** Linking *)
Definition exported (progs : list prog) (n : string) : bool := existsb (fun g => String.eqb (g_name g) n && negb (String.eqb (g_section g) ".text")) progs.
Lemma lookup_filter : forall A (p : string -> bool) (m : list (string * A)) n, lookup n (filter (fun q => p (fst q)) m) = if p n then lookup n m else None.
Proof.
  intros A p m n. induction m as [|[k v] m IH]; cbn [filter lookup fst]; [now destruct (p n)|]. destruct (String.eqb_spec n k) as [->|N].
  - destruct (p k) eqn:E; cbn [lookup]; [now rewrite String.eqb_refl|exact IH].
  - destruct (p k); cbn [lookup]; [destruct (String.eqb_spec n k); [contradiction|]|]; exact IH.
Qed.
Lemma lookup_insns : forall progs n, NoDup (map g_name progs) -> forall l, lookup n (insnsOf progs) = Some l <-> exists p, In p progs /\ g_name p = n /\ l = map fst (g_insns p).
Proof.
  intros progs n. induction progs as [|p progs IH]; intros Nd l; cbn [insnsOf map lookup]; [split; [discriminate|intros (p & [] & _)]|]. inversion Nd as [|? ? Nin Nd']; subst. destruct (String.eqb_spec n (g_name p)) as [->|N].
  - split; [intros H; injection H as <-; exists p; split; [now left|auto]|]. intros (q & [<-|Hq] & E & ->); [reflexivity|]. exfalso. apply Nin. rewrite <- E. now apply List.in_map.
  - fold (insnsOf progs). rewrite (IH Nd'). split; intros (q & Hq & E & L); exists q; split; auto; [now right|]. destruct Hq as [->|Hq]; [congruence|exact Hq].
Qed.
Lemma exported_spec : forall progs n, exported progs n = true <-> In n (map g_name (filter (fun p => negb (String.eqb (g_section p) ".text")) progs)).
Proof.
  intros progs n. unfold exported. rewrite existsb_exists, in_map_iff. split.
  - intros (p & Hp & E). apply andb_true_iff in E as (E1 & E2). apply String.eqb_eq in E1. exists p. split; [exact E1|]. apply filter_In. auto.
  - intros (p & E & Hp). apply filter_In in Hp as (Hp & E2). exists p. split; [exact Hp|]. rewrite E, String.eqb_refl. exact E2.
Qed.
Lemma link_spec : forall o x po, match loadSections o x po [] with
  | Some (Ok progs) => exists linked, loadProgramSections o x po = Some (Ok (progs, linked)) /\ forall n, lookup n linked = if exported progs n then flattenInstructions n (insnsOf progs) else None
  | Some (Err e) => loadProgramSections o x po = Some (Err e)
  | None => False end.
Proof.
  intros o x po. destruct (loadSections_total o x po []) as (r & E). unfold loadProgramSections. rewrite E. destruct r as [progs|e]; [|reflexivity].
  pose proof (proj1 (loadSections_spec o x po [] progs ltac:(constructor)) E) as (pss & _ & _ & Nd).
  destruct (C45_programs (insnsOf progs) (map g_name (filter (fun p => negb (String.eqb (g_section p) ".text")) progs))) as (linked & -> & H).
  { intros n Hn. apply in_map_iff in Hn as (p & <- & Hp). apply filter_In in Hp as (Hp & _). exists (map fst (g_insns p)). apply lookup_insns; eauto. }
  eexists. split; [reflexivity|]. intros n. change (fun p : string * list instr => existsb (fun g => String.eqb (g_name g) (fst p) && negb (String.eqb (g_section g) ".text")) progs) with (fun p : string * list instr => exported progs (fst p)). rewrite lookup_filter.
  destruct (exported progs n) eqn:Ex; [|reflexivity]. apply exported_spec in Ex. now apply H.
Qed.
Lemma flatten_ext : forall n p p', (forall n, lookup n p = lookup n p') -> flatten_fuel p = flatten_fuel p' -> flattenInstructions n p = flattenInstructions n p'.
Proof.
  intros n p p' H F. unfold flattenInstructions. rewrite <- H, F. destruct (lookup n p) as [l|]; [|reflexivity]. destruct (FunctionReferences l) as [|r rs]; [reflexivity|].
  assert (G : forall fuel insns pending linked, flatten_loop fuel p insns pending linked = flatten_loop fuel p' insns pending linked).
  { induction fuel as [|fuel IH]; intros insns pending linked; cbn [flatten_loop]; [reflexivity|]. destruct pending as [|q pending]; [reflexivity|]. destruct (existsb _ linked); [apply IH|]. rewrite <- H. unfold refs_of. rewrite <- H. destruct (lookup q p); apply IH. }
  apply G.
Qed.
Lemma perm_concat : forall A (a b : list (list A)), Permutation a b -> Permutation (concat a) (concat b).
Proof. intros A a b H. induction H; cbn [concat]; [constructor|now apply Permutation_app_head|rewrite !app_assoc; apply Permutation_app_tail; apply Permutation_app_comm|eapply Permutation_trans; eassumption]. Qed.
Lemma perm_filter : forall A (p : A -> bool) a b, Permutation a b -> Permutation (filter p a) (filter p b).
Proof. intros A p a b H. induction H; cbn [filter]; [constructor|destruct (p x); [now constructor|assumption]|destruct (p x), (p y); try apply Permutation_refl; constructor|eapply Permutation_trans; eassumption]. Qed.
Lemma perm_lookup : forall progs progs' n, NoDup (map g_name progs) -> Permutation progs progs' -> lookup n (insnsOf progs) = lookup n (insnsOf progs').
Proof.
  intros progs progs' n Nd P. assert (Nd' : NoDup (map g_name progs')) by (eapply Permutation_NoDup; [apply Permutation_map; exact P|exact Nd]).
  destruct (lookup n (insnsOf progs)) as [l|] eqn:E.
  - apply lookup_insns in E as (p & Hp & E & L); [|exact Nd]. symmetry. apply lookup_insns; [exact Nd'|]. exists p. split; [now apply (Permutation_in _ P)|auto].
  - destruct (lookup n (insnsOf progs')) as [l|] eqn:E'; [|reflexivity]. apply lookup_insns in E' as (p & Hp & E' & L); [|exact Nd']. assert (X : lookup n (insnsOf progs) = Some l) by (apply lookup_insns; [exact Nd|]; exists p; split; [now apply (Permutation_in _ (Permutation_sym P))|auto]). congruence.
Qed.
Lemma perm_fuel : forall progs progs', Permutation progs progs' -> flatten_fuel (insnsOf progs) = flatten_fuel (insnsOf progs').
Proof. intros progs progs' P. unfold flatten_fuel. do 2 f_equal. induction P; cbn [insnsOf map fold_right snd]; try lia; fold (insnsOf l); try fold (insnsOf l'); lia. Qed.

(** ** C76 *)
(** Loading always ends. *)
Theorem C76_total : forall o x ro po, exists r, loadPrograms o x ro po = Some r.
Proof.
  intros o x ro po. unfold loadPrograms. destruct (existsb _ _); [eauto|].
  assert (T : exists r, loadRelocations o ro = Some r). { induction ro as [|i ro IH]; cbn [loadRelocations]; [eauto|]. destruct (relocations_total o i) as ([m|e] & ->); eauto. }
  destruct T as ([u|e] & ->); [|eauto]. pose proof (link_spec o x po) as L. destruct (loadSections o x po []) as [[progs|e]|]; [|eauto|contradiction]. destruct L as (linked & -> & _). eauto.
Qed.
(** Neither success nor the result depends on the order in which sections are visited. *)
Theorem C76_order : forall o x ro ro' po po' progs linked, Permutation ro ro' -> Permutation po po' -> loadPrograms o x ro po = Some (Ok (progs, linked)) ->
  exists progs' linked', loadPrograms o x ro' po' = Some (Ok (progs', linked')) /\ Permutation progs progs' /\ forall n, lookup n linked = lookup n linked'.
Proof.
  intros o x ro ro' po po' progs linked Pr Pp H. unfold loadPrograms in *. destruct (existsb _ _); [discriminate|].
  assert (Rl : forall l, loadRelocations o l = Some (Ok tt) <-> forall i, In i l -> exists m, relocationsOf o i = Some (Ok m)).
  { induction l as [|i l IH]; cbn [loadRelocations]; [split; [intros _ i []|reflexivity]|]. destruct (relocations_total o i) as ([m|e] & E); rewrite E.
    - rewrite IH. split; [intros Q j [<-|Hj]; eauto|intros Q j Hj; apply Q; now right].
    - split; [discriminate|]. intros Q. destruct (Q i (or_introl eq_refl)) as (m & Em). congruence. }
  destruct (loadRelocations o ro) as [[[]|e]|] eqn:Er; try discriminate. rewrite (proj2 (Rl ro')); [|intros i Hi; apply (proj1 (Rl ro) Er); now apply (Permutation_in _ (Permutation_sym Pr))].
  pose proof (link_spec o x po) as L. destruct (loadSections o x po []) as [[ps|e]|] eqn:Es; [|rewrite L in H; discriminate|contradiction]. destruct L as (lk & E & HL). rewrite E in H. injection H as -> ->.
  apply loadSections_spec in Es as (pss & F & Ec & Nd); [|constructor]. cbn [app] in Ec.
  destruct (Permutation_Forall2 (perm_filter _ (isProg o) _ _ Pp) F) as (pss' & Ps & F'). pose proof (perm_concat _ _ _ Ps) as Pc. rewrite <- Ec in Pc.
  assert (Nd' : NoDup (map g_name (concat pss'))) by (eapply Permutation_NoDup; [apply Permutation_map; exact Pc|exact Nd]).
  assert (Es' : loadSections o x po' [] = Some (Ok (concat pss'))) by (apply loadSections_spec; [constructor|]; exists pss'; auto).
  pose proof (link_spec o x po') as L'. rewrite Es' in L'. destruct L' as (lk' & E' & HL'). exists (concat pss'), lk'. split; [exact E'|]. split; [exact Pc|]. intros n. rewrite HL, HL'.
  assert (Ex : exported progs n = exported (concat pss') n). { apply eq_true_iff_eq. unfold exported. rewrite !existsb_exists. split; intros (p & Hp & Q); exists p; (split; [|exact Q]); [now apply (Permutation_in _ Pc)|now apply (Permutation_in _ (Permutation_sym Pc))]. }
  rewrite Ex. case (exported (concat pss') n); [|reflexivity]. apply flatten_ext; [intros k; now apply perm_lookup|now apply perm_fuel].
Qed.

Lemma index_in : forall o po i s, Permutation po (indices o) -> sect o i s -> In i po.
Proof.
  intros o po i s P (H0 & H). apply (Permutation_in _ (Permutation_sym P)). unfold indices. apply in_map_iff. exists (Z.to_nat i). split; [lia|]. apply in_seq. split; [lia|]. assert (nth_error (o_sects o) (Z.to_nat i) <> None) by congruence. apply nth_error_Some in H1. lia.
Qed.
Lemma Forall2_ex : forall A B (P : A -> B -> Prop) l, (forall a, In a l -> exists b, P a b) -> exists bs, Forall2 P l bs.
Proof. intros A B P l. induction l as [|a l IH]; intros H; [exists []; constructor|]. destruct (H a (or_introl eq_refl)) as (b & Hb). destruct IH as (bs & F); [intros; apply H; now right|]. exists (b :: bs). now constructor. Qed.
Lemma Forall2_left : forall A B (P : A -> B -> Prop) l m a, Forall2 P l m -> In a l -> exists b, In b m /\ P a b.
Proof. intros A B P l m a F. induction F as [|c b l m Hc F IH]; intros Ha; [destruct Ha|]. destruct Ha as [->|Ha]; [exists b; split; [now left|exact Hc]|]. destruct (IH Ha) as (d & Hd & Q). exists d. split; [now right|exact Q]. Qed.
Lemma Forall2_right : forall A B (P : A -> B -> Prop) l m b, Forall2 P l m -> In b m -> exists a, In a l /\ P a b.
Proof. intros A B P l m b F. induction F as [|c d l m Hc F IH]; intros Hb; [destruct Hb|]. destruct Hb as [->|Hb]; [exists c; split; [now left|exact Hc]|]. destruct (IH Hb) as (a & Ha & Q). exists a. split; [now right|exact Q]. Qed.

(** the names *)
Lemma section_names : forall o x is pss, Forall2 (sectionProgs o x) is pss -> map g_name (concat pss) = map y_name (concat (map (symbolsOf o) is)).
Proof.
  intros o x is pss F. induction F as [|i ps is pss (s & m & fs & _ & _ & _ & _ & F2 & ->) F IH]; [reflexivity|]. cbn [concat map]. rewrite !map_app, IH. f_equal. rewrite map_map. cbn [g_name]. clear -F2. induction F2 as [|y p l fs (E & _) F2 IH]; [reflexivity|]. cbn [map]. now rewrite E, IH.
Qed.
Lemma NoDup_inj : forall A B (f : A -> B) l a b, NoDup (map f l) -> In a l -> In b l -> f a = f b -> a = b.
Proof.
  intros A B f l a b. induction l as [|c l IH]; intros Nd Ha Hb E; [destruct Ha|]. cbn [map] in Nd. inversion Nd as [|? ? Nin Nd']; subst. destruct Ha as [->|Ha], Hb as [->|Hb]; auto.
  - exfalso. apply Nin. rewrite E. now apply List.in_map.
  - exfalso. apply Nin. rewrite <- E. now apply List.in_map.
Qed.
Lemma prog_in : forall o po i s, Permutation po (indices o) -> program_section o i s -> In i (filter (isProg o) po).
Proof. intros o po i s P Hs. apply filter_In. split; [eapply index_in; [exact P|apply Hs]|]. unfold isProg. now rewrite (proj2 (kind_prog o i) (ex_intro _ s Hs)). Qed.

(** The programs are the functions of the executable sections, each translated as specified.  What is returned are those
    outside of .text, followed by the functions they call (C45). *)
Theorem C76_programs : forall o x ro po progs linked, regular o -> usual_file o -> Permutation po (indices o) -> loadPrograms o x ro po = Some (Ok (progs, linked)) ->
  NoDup (map g_name progs) /\
  (forall i j s t f g, program_section o i s -> program_section o j t -> function_symbol o i f -> function_symbol o j g -> y_name f = y_name g -> f = g) /\
  (forall i s f, program_section o i s -> function_symbol o i f -> exists js, In (mkProg (y_name f) (o_name s) js) progs /\ translated o x i s f js) /\
  (forall p, In p progs -> exists i s f, program_section o i s /\ function_symbol o i f /\ g_name p = y_name f /\ g_section p = o_name s /\ translated o x i s f (g_insns p)) /\
  (forall n l, lookup n linked = Some l <-> exists p, In p progs /\ g_name p = n /\ g_section p <> ".text" /\ flattenInstructions n (insnsOf progs) = Some l).
Proof.
  intros o x ro po progs linked R Uf P H. unfold loadPrograms in H. destruct (existsb _ _); [discriminate|]. destruct (loadRelocations o ro) as [[u|]|]; try discriminate.
  pose proof (link_spec o x po) as L. destruct (loadSections o x po []) as [[ps|e]|] eqn:Es; [|rewrite L in H; discriminate|contradiction]. destruct L as (lk & E & HL). rewrite E in H. injection H as -> ->.
  apply loadSections_spec in Es as (pss & F & Ec & Nd); [|constructor]. cbn [app] in Ec. split; [exact Nd|]. split; [|split; [|split]].
  - intros i j s t f g Hs Ht Hf Hg En. rewrite Ec, (section_names _ _ _ _ F) in Nd. assert (X : forall i s f, program_section o i s -> function_symbol o i f -> In f (concat (map (symbolsOf o) (filter (isProg o) po)))).
    { intros i0 s0 f0 Hs0 Hf0. apply in_concat. exists (symbolsOf o i0). split; [apply List.in_map; eapply prog_in; eassumption|]. eapply symbols_In; eassumption. }
    apply (NoDup_inj _ _ _ _ _ _ Nd); eauto.
  - intros i s f Hs Hf. assert (Ii : In i (filter (isProg o) po)) by (eapply prog_in; eassumption).
    destruct (Forall2_left _ _ _ _ _ _ F Ii) as (qs & Hq & s' & m & fs & S & _ & _ & M & F2 & ->). assert (s' = s). { apply sect_section in S. destruct Hs as ((_ & H1) & _), S as (_ & H2). congruence. } subst s'.
    pose proof (proj2 (symbols_In o i s f R Hs) Hf) as Hin. destruct (Forall2_left _ _ _ _ _ _ F2 Hin) as ([n js] & Hp & En & Lo). cbn [fst snd] in *. subst n. exists js. split.
    + rewrite Ec. apply in_concat. eexists. split; [exact Hq|]. apply in_map_iff. exists (y_name f, js). auto.
    + eapply loadOne_spec; eassumption.
  - intros p Hp. rewrite Ec in Hp. apply in_concat in Hp as (qs & Hq & Hp). destruct (Forall2_right _ _ _ _ _ _ F Hq) as (i & Hi & s & m & fs & S & _ & _ & M & F2 & ->). apply filter_In in Hi as (_ & Hi). unfold isProg in Hi. destruct (kindAt o i) as [[]|] eqn:K; try discriminate. apply kind_prog in K as (s' & Hs).
    assert (s' = s). { apply sect_section in S. destruct Hs as ((_ & H1) & _), S as (_ & H2). congruence. } subst s'. apply in_map_iff in Hp as ([n js] & <- & Hp). destruct (Forall2_right _ _ _ _ _ _ F2 Hp) as (f & Hf & En & Lo). cbn [fst snd g_name g_section g_insns] in *. subst n. exists i, s, f. pose proof (proj1 (symbols_In o i s f R Hs) Hf) as Hf'. split; [exact Hs|]. split; [exact Hf'|]. split; [reflexivity|]. split; [reflexivity|]. eapply loadOne_spec; eassumption.
  - intros n l. rewrite HL. assert (X : exported progs n = true <-> exists p, In p progs /\ g_name p = n /\ g_section p <> ".text").
    { rewrite exported_spec, in_map_iff. split; intros (p & H1 & H2); [apply filter_In in H2 as (H2 & H3); exists p; split; [exact H2|]; split; [exact H1|]; destruct (String.eqb_spec (g_section p) ".text"); [discriminate|assumption]|].
      exists p. destruct H2 as (H2 & H3). split; [exact H2|]. apply filter_In. split; [exact H1|]. destruct (String.eqb_spec (g_section p) ".text"); [contradiction|reflexivity]. }
    destruct (exported progs n); split.
    + intros Hl. destruct (proj1 X eq_refl) as (p & H1 & H2 & H3). exists p. auto.
    + intros (p & _ & _ & _ & Hl). exact Hl.
    + discriminate.
    + intros (p & H1 & H2 & H3 & _). assert (false = true) by (apply X; eauto). discriminate.
Qed.
