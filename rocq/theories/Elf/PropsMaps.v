(** C79: the maps of an object file. *)
From Coq Require Import String Sorting.Sorted Permutation.
From Verif Require Import Base.GoInt Asm.Model Asm.Spec Elf.Programs Elf.ProgramsSpec Elf.ProgramsProof Elf.ProgramsStep Elf.PropsPrograms Elf.PropsProgramsLoad Elf.Data Elf.PropsData Elf.BtfMaps Elf.BtfMapsSpec Elf.BtfMapsProof Elf.PropsBtfMaps Btf.Types Btf.TypesSpec.
Open Scope string_scope. Open Scope list_scope. Open Scope Z_scope.

(** ** Specification *)
Definition legacy_section (o : obj) (i : Z) (s : osec) : Prop := sect o i s /\ begins "maps" (o_name s).
Definition btf_section (o : obj) (i : Z) (s : osec) : Prop := sect o i s /\ o_name s = ".maps".
(** entry [e] of a data section stands for variable [v] *)
Definition stands_for (h : heap) (e : secinfo) (v : bvar) : Prop :=
  exists r n t l tags, UnderlyingType h (Types.vs_type e) = Some r /\ deref h r = Some (NVar n t l tags) /\ v = mkBvar (unlit n) t tags.
(** an entry of the data section which BTF has for section [s] *)
Definition entry_of (btf : option btfspec) (s : osec) (h : heap) (e : secinfo) : Prop := exists b ds, btf = Some b /\ h = b_heap b /\ b_datasec b (o_name s) = Some ds /\ In e ds.
Definition var_of (btf : option btfspec) (s : osec) (h : heap) (v : bvar) : Prop := exists e, entry_of btf s h e /\ stands_for h e v.
Definition in_section (s : osec) (y : sym) : Prop := y_value y < 2 ^ 32 /\ y_size y < 2 ^ 32 /\ y_value y + y_size y <= o_size s.
(** the bytes of a symbol *)
Definition bytes_of (s : osec) (y : sym) : list Z := firstn (Z.to_nat (y_size y)) (skipn (Z.to_nat (y_value y)) (o_data s)).
(** struct bpf_map_def: five integers; what follows is left to the user *)
Definition the_legacy (o : obj) (btf : option btfspec) (s : osec) (y : sym) (mp : mapspec) : Prop :=
  exists t k v m f extra tags, Forall (in_u 32) [t; k; v; m; f] /\ bytes_of s y = put (o_order o) 4 t ++ put (o_order o) 4 k ++ put (o_order o) 4 v ++ put (o_order o) 4 m ++ put (o_order o) 4 f ++ extra /\
    ((exists h w, var_of btf s h w /\ b_name w = y_name y /\ tags = b_tags w) \/ ((forall h w, var_of btf s h w -> b_name w <> y_name y) /\ tags = [])) /\
    mp = mkMap (sanitizeName (y_name y)) t k v m f None None 0 None [] tags 0 extra.
(** the definition of symbol [y]: the members of the struct which is the type of the variable of that name *)
Definition defined_by (btf : option btfspec) (s : osec) (y : sym) (h : heap) (tags : list str) (ms : list member) : Prop :=
  exists v r n sz tg, var_of btf s h v /\ b_name v = y_name y /\ tags = b_tags v /\ UnderlyingType h (b_type v) = Some r /\ deref h r = Some (NStruct n sz ms tg).
Definition the_btf_map (o : obj) (btf : option btfspec) (i : Z) (s : osec) (y : sym) (mp : mapspec) : Prop :=
  exists h tags ms, defined_by btf s y h tags ms /\ the_definition h o i y tags (y_name y) ms mp.

(** what compilers guarantee *)
Record usual_maps (o : obj) (btf : option btfspec) (al : Z -> Z) : Prop := {
  um_alias : forall i s f g, legacy_section o i s \/ btf_section o i s -> object_symbol o i f -> object_symbol o i g -> y_value f = y_value g -> f = g;
  um_type : forall i s, legacy_section o i s \/ btf_section o i s -> o_type s = 1;
  um_vars : forall i s h v w, legacy_section o i s \/ btf_section o i s -> var_of btf s h v -> var_of btf s h w -> b_name v = b_name w -> v = w;
  um_defs : forall i s y h tags ms, btf_section o i s -> object_symbol o i y -> defined_by btf s y h tags ms -> usual_defs h ms;
  um_align : forall i s, btf_section o i s -> al i = 8 }.
(** sections without errors *)
Record sound_legacy (o : obj) (btf : option btfspec) (i : Z) (s : osec) : Prop := {
  sl_some : exists y, object_symbol o i y;
  sl_plain : o_compressed s = false;
  sl_vars : forall h e, entry_of btf s h e -> exists v, stands_for h e v;
  sl_syms : forall y, object_symbol o i y -> in_section s y /\ 20 <= y_size y }.
Record sound_btf (o : obj) (btf : option btfspec) (i : Z) (s : osec) : Prop := {
  sb_btf : btf <> None;
  sb_plain : o_compressed s = false;
  sb_vars : forall h e, entry_of btf s h e -> exists v, stands_for h e v;
  sb_symbol : forall h v, var_of btf s h v -> exists y, object_symbol o i y /\ y_name y = b_name v;
  sb_def : forall y, object_symbol o i y -> in_section s y /\ Forall (eq 0) (bytes_of s y) /\
    exists h tags ms, defined_by btf s y h tags ms /\ sound_def h ms false /\ forall m, has ms "values" m -> sound_values h o i y ms m }.

(** ** Loops *)
Section Run.
Context {X E A : Type} (f : X -> list (string * A) -> res E (list (string * A))) (P : X -> Prop) (def : X -> string -> A -> Prop).
Lemma run_spec : forall l, (forall x ms, In x l -> ((exists r, f x ms = Ok r) <-> P x /\ forall n a, def x n a -> lookup n ms = None) /\
    (forall r, f x ms = Ok r -> forall n a, lookup n r = Some a <-> def x n a \/ lookup n ms = Some a)) -> forall ms,
  ((exists r, run f l ms = Ok r) <-> (forall x, In x l -> P x) /\ (forall x n a, In x l -> def x n a -> lookup n ms = None) /\ ForallOrdPairs (fun x y => forall n a b, def x n a -> def y n b -> False) l) /\
  (forall r, run f l ms = Ok r -> forall n a, lookup n r = Some a <-> (exists x, In x l /\ def x n a) \/ lookup n ms = Some a).
Proof.
  induction l as [|x l IH]; intros Hf ms; cbn [run].
  - split; [split; [intros _; split; [intros x []|]; split; [intros x n a []|constructor]|eauto]|]. intros r H n a. injection H as <-. split; [auto|intros [(x & [] & _)|H]; exact H].
  - destruct (Hf x ms (or_introl eq_refl)) as (A1 & A2). specialize (IH (fun y ms H => Hf y ms (or_intror H))). destruct (f x ms) as [ms1|e].
    + destruct (proj1 A1 (ex_intro _ ms1 eq_refl)) as (Px & Dx). specialize (A2 ms1 eq_refl). destruct (IH ms1) as (B1 & B2). split.
      * rewrite B1. split.
        -- intros (C1 & C2 & C3). split; [intros y [<-|Hy]; auto|]. split.
           ++ intros y n a [<-|Hy] D; [eauto|]. specialize (C2 y n a Hy D). destruct (lookup n ms) as [b|] eqn:El; [|reflexivity]. assert (Q : lookup n ms1 = Some b) by (apply A2; now right). congruence.
           ++ constructor; [|exact C3]. apply Forall_forall. intros y Hy n a b D D'. specialize (C2 y n b Hy D'). assert (Q : lookup n ms1 = Some a) by (apply A2; now left). congruence.
        -- intros (C1 & C2 & C3). inversion C3 as [|? ? C4 C5]; subst. rewrite Forall_forall in C4. split; [intros y Hy; apply C1; now right|]. split; [|exact C5]. intros y n a Hy D. destruct (lookup n ms1) as [b|] eqn:El; [|reflexivity]. exfalso. apply A2 in El as [D'|El]; [exact (C4 y Hy n b a D' D)|]. rewrite (C2 y n a (or_intror Hy) D) in El. discriminate.
      * intros r H n a. rewrite (B2 r H n a), A2. split.
        -- intros [(y & Hy & D)|[D|D]]; [left; exists y; split; [now right|exact D]|left; exists x; split; [now left|exact D]|now right].
        -- intros [(y & [<-|Hy] & D)|D]; [right; now left|left; eauto|right; now right].
    + split; [|discriminate]. split; [intros (r & H); discriminate|]. intros (C1 & C2 & _). assert (Q : exists r, Err e = Ok r :> res E (list (string * A))) by (apply A1; split; [apply C1; now left|]; intros n a D; apply (C2 x n a); [now left|exact D]). destruct Q. discriminate.
Qed.
Lemma pairs_iff : forall (R : X -> X -> Prop) l, NoDup l -> (forall x y, R x y -> R y x) -> ForallOrdPairs R l <-> forall x y, In x l -> In y l -> x <> y -> R x y.
Proof.
  intros R l Nd Sy. split.
  - intros H. induction H as [|a l Ha H IH]; [intros x y []|]. rewrite Forall_forall in Ha. inversion Nd; subst. intros x y [<-|Hx] [<-|Hy] N; try contradiction; auto.
  - induction l as [|a l IH]; intros H; constructor; inversion Nd; subst.
    + apply Forall_forall. intros y Hy. apply H; [now left|now right|]. intros ->. contradiction.
    + apply IH; [assumption|]. intros x y Hx Hy. apply H; now right.
Qed.
End Run.

(** ** Variables *)
Lemma setB_In : forall vars v w, NoDup (map b_name vars) -> In w (setB vars v) <-> w = v \/ (In w vars /\ b_name w <> b_name v).
Proof.
  induction vars as [|u vars IH]; intros v w Nd; cbn [setB].
  - cbn [In]. split; [intros [<-|[]]; now left|]. intros [->|([] & _)]. now left.
  - inversion Nd as [|? ? N1 N2]; subst. destruct (String.eqb_spec (b_name u) (b_name v)) as [E|E]; cbn [In].
    + split.
      * intros [<-|H]; [now left|]. right. split; [now right|]. intros Q. apply N1. rewrite E, <- Q. now apply List.in_map.
      * intros [->|([<-|H] & Q)]; [now left|contradiction|now right].
    + rewrite (IH v w N2). split.
      * intros [<-|[->|(H & Q)]]; [right; split; [now left|exact E]|now left|right; split; [now right|exact Q]].
      * intros [->|([<-|H] & Q)]; [right; now left|now left|right; now right].
Qed.
Lemma setB_names : forall vars v, NoDup (map b_name vars) -> NoDup (map b_name (setB vars v)).
Proof.
  induction vars as [|u vars IH]; intros v Nd; cbn [setB map]; [repeat constructor; intros []|]. inversion Nd as [|? ? N1 N2]; subst. destruct (String.eqb_spec (b_name u) (b_name v)) as [E|E]; cbn [map]; constructor; try rewrite <- E; auto.
  intros I. apply in_map_iff in I as (w & Ew & Hw). apply (setB_In vars v w N2) in Hw as [->|(Hw & _)]; [congruence|]. apply N1. rewrite <- Ew. now apply List.in_map.
Qed.
Lemma varsOf_spec : forall h ds vars, NoDup (map b_name vars) ->
  ((exists r, varsOf h ds vars = Ok r) <-> forall e, In e ds -> exists v, stands_for h e v) /\
  (forall r, varsOf h ds vars = Ok r -> NoDup (map b_name r) /\ (forall v, In v r -> In v vars \/ exists e, In e ds /\ stands_for h e v) /\ (forall v, (In v vars \/ exists e, In e ds /\ stands_for h e v) -> exists w, In w r /\ b_name w = b_name v)).
Proof.
  intros h. induction ds as [|e ds IH]; intros vars Nd; cbn [varsOf].
  - split; [split; [intros _ e []|eauto]|]. intros r H. injection H as <-. split; [exact Nd|]. split; [auto|]. intros v [H|(e & [] & _)]. eauto.
  - assert (Fail : (forall v, ~ stands_for h e v) -> ((exists r, Err BNotVar = Ok r :> res berr (list bvar)) <-> forall e', In e' (e :: ds) -> exists v, stands_for h e' v) /\
      (forall r, Err BNotVar = Ok r -> NoDup (map b_name r) /\ (forall v, In v r -> In v vars \/ exists e', In e' (e :: ds) /\ stands_for h e' v) /\ (forall v, (In v vars \/ exists e', In e' (e :: ds) /\ stands_for h e' v) -> exists w, In w r /\ b_name w = b_name v))).
    { intros N. split; [|discriminate]. split; [intros (r & H); discriminate|]. intros H. destruct (H e (or_introl eq_refl)) as (v & Hv). destruct (N v Hv). }
    destruct (UnderlyingType h (Types.vs_type e)) as [r0|] eqn:Eu; [|apply Fail; intros v (r & n & t & l & tg & Q & _); congruence].
    destruct (deref h r0) as [nd|] eqn:Ed; [|apply Fail; intros v (r & n & t & l & tg & Q & Q' & _); congruence].
    destruct nd; try (apply Fail; intros v (r & n0 & t0 & l0 & tg & Q & Q' & _); congruence).
    set (v0 := mkBvar (unlit name) t tags). assert (S0 : forall v, stands_for h e v <-> v = v0).
    { intros v. split; [intros (r & n & t' & l & tg & Q & Q' & ->); rewrite Eu in Q; injection Q as <-; rewrite Ed in Q'; injection Q' as <- <- <- <-; reflexivity|]. intros ->. unfold stands_for. exists r0, name, t, linkage, tags. auto. }
    destruct (IH (setB vars v0) (setB_names vars v0 Nd)) as (A & B). split.
    + rewrite A. split; [intros H e' [<-|He]; [exists v0; now apply S0|auto]|]. intros H e' He. apply H. now right.
    + intros r H. destruct (B r H) as (B1 & B2 & B3). split; [exact B1|]. split.
      * intros v Hv. destruct (B2 v Hv) as [I|(e' & He & Q)]; [|right; exists e'; split; [now right|exact Q]]. apply (setB_In vars v0 v Nd) in I as [->|(I & _)]; [right; exists e; split; [now left|now apply S0]|now left].
      * intros v [Hv|(e' & [<-|He] & Q)].
        -- destruct (string_dec (b_name v) (b_name v0)) as [E|N]; [rewrite E; apply B3; left; apply (setB_In vars v0 v0 Nd); now left|]. apply B3. left. apply (setB_In vars v0 v Nd). auto.
        -- apply S0 in Q. subst v. apply B3. left. apply (setB_In vars v0 v0 Nd). now left.
        -- apply B3. right. eauto.
Qed.
Lemma findB_iff : forall vars n v, NoDup (map b_name vars) -> findB vars n = Some v <-> In v vars /\ b_name v = n.
Proof.
  induction vars as [|u vars IH]; intros n v Nd; cbn [findB]; [split; [discriminate|intros ([] & _)]|]. inversion Nd as [|? ? N1 N2]; subst. destruct (String.eqb_spec (b_name u) n) as [E|E].
  - split; [intros Q; injection Q as <-; split; [now left|exact E]|]. intros ([<-|I] & Q); [reflexivity|]. exfalso. apply N1. rewrite E, <- Q. now apply List.in_map.
  - rewrite (IH n v N2). cbn [In]. split; intros (I & Q); (split; [|exact Q]); [now right|]. destruct I as [<-|I]; [contradiction|exact I].
Qed.
Lemma symNamed_spec : forall l n acc, symNamed l n acc = None <-> acc = None /\ ~ In n (map y_name l).
Proof.
  induction l as [|y l IH]; intros n acc; cbn [symNamed map In]; [split; [intros ->; auto|intros (-> & _); reflexivity]|]. rewrite IH. destruct (String.eqb_spec (y_name y) n) as [E|E]; [split; [intros (Q & _); discriminate|intros (_ & Q); exfalso; apply Q; now left]|]. tauto.
Qed.
Lemma symNamed_in : forall l n acc y, symNamed l n acc = Some y -> (In y l /\ y_name y = n) \/ acc = Some y.
Proof.
  induction l as [|z l IH]; intros n acc y H; cbn [symNamed] in H; [now right|]. apply IH in H as [(I & E)|H]; [left; split; [now right|exact E]|]. destruct (String.eqb_spec (y_name z) n) as [E|E]; [injection H as <-; left; split; [now left|exact E]|now right].
Qed.

(** ** Sections and symbols *)
Lemma maps_names : forall n, begins "maps" n -> ~ begins "license" n /\ ~ begins "version" n /\ n <> ".maps".
Proof. intros n (t & ->). repeat split; [intros (u & H)|intros (u & H)|intros H]; cbn in H; discriminate. Qed.
Lemma kind_legacy : forall o i, kindAt o i = Some KMap <-> exists s, legacy_section o i s.
Proof.
  intros o i. unfold kindAt, legacy_section, classify. split.
  - destruct (section o i) as [s|] eqn:Es; [|destruct (i =? 0); discriminate]. intros H. exists s. split; [now apply sect_section|]. apply prefix_spec.
    destruct (prefix "maps" (o_name s)); [reflexivity|]. exfalso. repeat match type of H with context[if ?b then _ else _] => destruct b end; discriminate.
  - intros (s & Hs & B). apply sect_section in Hs. rewrite Hs. destruct (maps_names _ B) as (L & V & _). rewrite <- prefix_false in L, V. rewrite L, V. apply prefix_spec in B. now rewrite B.
Qed.
Lemma kind_btf : forall o i, kindAt o i = Some KBtfMap <-> exists s, btf_section o i s.
Proof.
  intros o i. unfold kindAt, btf_section, classify. split.
  - destruct (section o i) as [s|] eqn:Es; [|destruct (i =? 0); discriminate]. intros H. exists s. split; [now apply sect_section|]. apply String.eqb_eq.
    destruct (String.eqb (o_name s) ".maps"); [reflexivity|]. exfalso. repeat match type of H with context[if ?b then _ else _] => destruct b end; discriminate.
  - intros (s & Hs & B). apply sect_section in Hs. rewrite Hs, B. reflexivity.
Qed.
Lemma map_symbols : forall o btf al i s g, usual_maps o btf al -> legacy_section o i s \/ btf_section o i s -> In g (symbolsOf o i) <-> object_symbol o i g.
Proof.
  intros o btf al i s g U Hs. assert (K : exists k, kindAt o i = Some k /\ (k = KMap \/ k = KBtfMap)) by (destruct Hs as [Hs|Hs]; [exists KMap; split; [apply kind_legacy; eauto|auto]|exists KBtfMap; split; [apply kind_btf; eauto|auto]]).
  destruct K as (k & K & Kk). assert (Kp : forall y, ((y_section y =? i) && keepSym k y) = true <-> y_section y = i /\ y_name y <> "" /\ (y_type y = 0 \/ y_type y = 1)). { intros y. rewrite <- keep_data, andb_true_iff, Z.eqb_eq. destruct Kk as [-> | ->]; reflexivity. }
  assert (Sy : symbolsOf o i = fold_left (fun m y => if (y_section y =? i) && keepSym k y then insertSym y m else m) (o_syms o) []) by (unfold symbolsOf; now rewrite K).
  split.
  - intros H. apply sorted_In in H; [|apply symbols_sorted]. rewrite Sy in H. apply (fold_symAt (fun y => (y_section y =? i) && keepSym k y)) in H as [(H1 & H2 & H3)|H]; [|discriminate]. apply Kp in H2. unfold object_symbol. tauto.
  - intros (H1 & H2). pose proof (fold_symAt_some (fun y => (y_section y =? i) && keepSym k y) (o_syms o) [] (y_value g) g (or_intror (conj H1 (conj (proj2 (Kp g) H2) eq_refl)))) as N.
    assert (E : exists f, symAt (symbolsOf o i) (y_value g) = Some f). { rewrite Sy. destruct (symAt _ (y_value g)) as [f|] eqn:E in |- *; [eauto|contradiction]. }
    destruct E as (f & E). pose proof (symAt_In _ _ _ E) as (I & V). rewrite Sy in E. apply (fold_symAt (fun y => (y_section y =? i) && keepSym k y)) in E as [(F1 & F2 & F3)|E]; [|discriminate]. apply Kp in F2.
    assert (f = g) by (apply (um_alias o btf al U i s); [exact Hs|split; assumption|split; assumption|exact V]). now subst.
Qed.
Lemma sorted_NoDup : forall l, StronglySorted below l -> NoDup l.
Proof. intros l S. induction S as [|a l S IH Fa]; constructor; [|exact IH]. intros I. rewrite Forall_forall in Fa. specialize (Fa a I). unfold below in Fa. lia. Qed.

(** ** Variables of a section *)
Lemma sectionVars_spec : forall o btf al i s, usual_maps o btf al -> legacy_section o i s \/ btf_section o i s ->
  ((exists vars, sectionVars btf (o_name s) = Ok vars) <-> forall h e, entry_of btf s h e -> exists v, stands_for h e v) /\
  (forall vars, sectionVars btf (o_name s) = Ok vars -> NoDup (map b_name vars) /\ forall v, In v vars <-> exists h, var_of btf s h v).
Proof.
  intros o btf al i s U Hs. pose proof (um_vars o btf al U i s) as Uv. unfold sectionVars. destruct btf as [b|].
  2:{ split; [split; [intros _ h e (b & ds & Q & _); discriminate|eauto]|]. intros vars H. apply Ok_inj in H. subst vars. split; [constructor|]. intros v. split; [intros []|intros (h & e & (b & ds & Q & _) & _); discriminate]. }
  destruct (b_datasec b (o_name s)) as [ds|] eqn:Ed.
  2:{ split; [split; [intros _ h e (b' & ds & Q & _ & Q' & _); injection Q as <-; congruence|eauto]|]. intros vars H. apply Ok_inj in H. subst vars. split; [constructor|]. intros v. split; [intros []|intros (h & e & (b' & ds & Q & _ & Q' & _) & _); injection Q as <-; congruence]. }
  assert (En : forall h e, entry_of (Some b) s h e <-> h = b_heap b /\ In e ds). { intros h e. split; [intros (b' & ds' & Q & -> & Q' & I); injection Q as <-; rewrite Ed in Q'; injection Q' as <-; auto|]. intros (-> & I). exists b, ds. auto. }
  destruct (varsOf_spec (b_heap b) ds [] (NoDup_nil _)) as (A & B). split.
  - rewrite A. split; [intros H h e He; apply En in He as (-> & I); auto|]. intros H e I. apply H. now apply En.
  - intros vars H. destruct (B vars H) as (B1 & B2 & B3). split; [exact B1|]. assert (X : forall v, (exists h, var_of (Some b) s h v) <-> exists e, In e ds /\ stands_for (b_heap b) e v).
    { intros v. split; [intros (h & e & He & Q); apply En in He as (-> & I); eauto|]. intros (e & I & Q). exists (b_heap b), e. split; [now apply En|exact Q]. }
    intros v. rewrite X. split.
    + intros I. destruct (B2 v I) as [[]|Q]. exact Q.
    + intros Q. destruct (B3 v (or_intror Q)) as (w & Iw & Ew). destruct (B2 w Iw) as [[]|Qw]. destruct Q as (e & Ie & Q), Qw as (e' & Ie' & Q').
      assert (w = v) by (apply (Uv (b_heap b) w v Hs); [exists e'; split; [now apply En|exact Q']|exists e; split; [now apply En|exact Q]|exact Ew]). now subst.
Qed.

(** ** Legacy maps *)
Definition tagsOf (vars : list bvar) (n : string) : list str := match findB vars n with Some v => b_tags v | None => [] end.
Definition legacyOf (o : obj) (vars : list bvar) (s : osec) (y : sym) : mapspec :=
  let d := symBytes s y in let g := le4 (o_order o) d in
  mkMap (sanitizeName (y_name y)) (g 0%nat) (g 1%nat) (g 2%nat) (g 3%nat) (g 4%nat) None None 0 None [] (tagsOf vars (y_name y)) 0 (skipn 20 d).
Lemma bytes_ok_part : forall l a b, bytes_ok l -> bytes_ok (firstn a (skipn b l)).
Proof.
  intros l a b H. unfold bytes_ok in *. rewrite Forall_forall in *. intros x Hx. apply H. rewrite <- (firstn_skipn b l). apply in_or_app. right. rewrite <- (firstn_skipn a (skipn b l)). apply in_or_app. now left.
Qed.
Lemma five_words : forall bo d, bytes_ok d -> (20 <= List.length d)%nat ->
  Forall (in_u 32) (map (le4 bo d) [0; 1; 2; 3; 4]%nat) /\ d = put bo 4 (le4 bo d 0) ++ put bo 4 (le4 bo d 1) ++ put bo 4 (le4 bo d 2) ++ put bo 4 (le4 bo d 3) ++ put bo 4 (le4 bo d 4) ++ skipn 20 d.
Proof.
  intros bo d B L. assert (W : forall k, (k < 5)%nat -> in_u 32 (le4 bo d k) /\ put bo 4 (le4 bo d k) = firstn 4 (skipn (4 * k) d)).
  { intros k Hk. assert (Bk : bytes_ok (firstn 4 (skipn (4 * k) d))) by now apply bytes_ok_part. assert (Lk : List.length (firstn 4 (skipn (4 * k) d)) = 4%nat) by (rewrite firstn_length, skipn_length; lia). split.
    - pose proof (get_range bo _ Bk) as G. rewrite Lk, pow256_4 in G. exact G.
    - unfold le4. rewrite <- Lk at 1. now apply put_get. }
  split; [repeat constructor; apply W; lia|]. rewrite !(fun k H => proj2 (W k H)) by lia. do 20 (destruct d as [|? d]; [cbn in L; lia|]). reflexivity.
Qed.
Lemma words_five : forall bo t k v m f extra, Forall (in_u 32) [t; k; v; m; f] ->
  let d := put bo 4 t ++ put bo 4 k ++ put bo 4 v ++ put bo 4 m ++ put bo 4 f ++ extra in
  map (le4 bo d) [0; 1; 2; 3; 4]%nat = [t; k; v; m; f] /\ skipn 20 d = extra /\ (20 <= List.length d)%nat.
Proof.
  intros bo t k v m f extra Fa. cbv zeta. assert (L : forall x, exists a b c e, put bo 4 x = [a; b; c; e]). { intros x. pose proof (put_length bo 4 x) as L. destruct (put bo 4 x) as [|a [|b [|c [|e [|? ?]]]]]; cbn in L; try lia. eauto. }
  assert (G : forall x, in_u 32 x -> get bo (put bo 4 x) = x) by (intros x Hx; rewrite get_put; apply Z.mod_small; exact Hx).
  pose proof (L t) as (a0 & b0 & c0 & e0 & E0). pose proof (L k) as (a1 & b1 & c1 & e1 & E1). pose proof (L v) as (a2 & b2 & c2 & e2 & E2). pose proof (L m) as (a3 & b3 & c3 & e3 & E3). pose proof (L f) as (a4 & b4 & c4 & e4 & E4).
  rewrite E0, E1, E2, E3, E4. split; [|split; [reflexivity|cbn [List.length app]; lia]].
  rewrite !Forall_cons_iff in Fa. destruct Fa as (F0 & F1 & F2 & F3 & F4 & _). unfold le4. cbn [map Nat.mul Nat.add app skipn firstn]. rewrite <- E0, <- E1, <- E2, <- E3, <- E4, !G by assumption. reflexivity.
Qed.
Section Legacy.
Variables (o : obj) (btf : option btfspec) (al : Z -> Z) (i : Z) (s : osec) (vars : list bvar).
Hypothesis (R : regular o) (U : usual_maps o btf al) (Hs : legacy_section o i s) (Hv : sectionVars btf (o_name s) = Ok vars).
Lemma legacyOf_spec : forall y mp, (20 <= List.length (symBytes s y))%nat -> the_legacy o btf s y mp <-> mp = legacyOf o vars s y.
Proof.
  intros y mp L. destruct (sectionVars_spec o btf al i s U (or_introl Hs)) as (_ & V). destruct (V vars Hv) as (Nd & Iv).
  assert (T : forall tags, ((exists h w, var_of btf s h w /\ b_name w = y_name y /\ tags = b_tags w) \/ ((forall h w, var_of btf s h w -> b_name w <> y_name y) /\ tags = [])) <-> tags = tagsOf vars (y_name y)).
  { intros tags. unfold tagsOf. destruct (findB vars (y_name y)) as [w|] eqn:Ef.
    - apply findB_iff in Ef as (I & E); [|exact Nd]. split.
      + intros [(h & w' & Q & E' & ->)|(Q & _)].
        * assert (Hw : exists h', var_of btf s h' w) by now apply Iv. destruct Hw as (h' & Hw). assert (h' = h) by (destruct Q as (? & (b & ds & Qb & -> & _) & _), Hw as (? & (b' & ds' & Qb' & -> & _) & _); congruence). subst h'. replace w with w'; [reflexivity|]. apply (um_vars o btf al U i s h); auto. congruence.
        * apply Iv in I as (h & I). destruct (Q h w I E).
      + intros ->. left. apply Iv in I as (h & I). exists h, w. auto.
    - split.
      + intros [(h & w' & Q & E' & ->)|(Q & ->)]; [|reflexivity]. assert (X : findB vars (y_name y) = Some w') by (apply findB_iff; [exact Nd|]; split; [apply Iv; eauto|exact E']). congruence.
      + intros ->. right. split; [|reflexivity]. intros h w Q E. assert (X : findB vars (y_name y) = Some w) by (apply findB_iff; [exact Nd|]; split; [apply Iv; eauto|exact E]). congruence. }
  assert (B : bytes_ok (symBytes s y)) by (apply bytes_ok_part; apply (rg_data o R i s (proj1 Hs))). split.
  - intros (t & k & v & m & f & extra & tags & Fa & E & Ht & ->). apply T in Ht. subst tags. unfold legacyOf. unfold bytes_of in E. fold (symBytes s y) in E. rewrite E. destruct (words_five (o_order o) t k v m f extra Fa) as (W & X & _). cbv zeta in W, X. rewrite X. cbn [map] in W. injection W as -> -> -> -> ->. reflexivity.
  - intros ->. unfold the_legacy, legacyOf. destruct (five_words (o_order o) (symBytes s y) B L) as (Fa & E). cbv zeta. do 7 eexists. split; [exact Fa|]. split; [exact E|]. split; [apply T; reflexivity|reflexivity].
Qed.
Definition legacy_ok (y : sym) : Prop := in_section s y /\ 20 <= y_size y.
Definition ldef (y : sym) (n : string) (mp : mapspec) : Prop := legacy_ok y /\ y_name y = n /\ the_legacy o btf s y mp.
Lemma legacy_length : forall y, object_symbol o i y -> in_section s y -> Z.of_nat (List.length (symBytes s y)) = y_size y.
Proof.
  intros y Hy (_ & _ & B). unfold symBytes. rewrite firstn_length, skipn_length. destruct (rg_data o R i s (proj1 Hs)) as (_ & Z1 & _). rewrite Z1 in B by (left; apply (um_type o btf al U i s); now left). destruct Hy as (Iy & _). destruct (rg_syms o R y Iy) as (_ & (? & _) & (? & _) & _). lia.
Qed.
Lemma bounds_spec : forall {E A} (y : sym) (b : E) (x : res E A), In y (o_syms o) ->
  (in_section s y -> (if (2 ^ 32 - 1 <? y_value y) || (2 ^ 32 - 1 <? y_size y) then Err b else if o_size s <? u64 (y_value y + y_size y) then Err b else x) = x) /\
  (~ in_section s y -> (if (2 ^ 32 - 1 <? y_value y) || (2 ^ 32 - 1 <? y_size y) then Err b else if o_size s <? u64 (y_value y + y_size y) then Err b else x) = Err b).
Proof.
  intros E A y b x Iy. destruct (rg_syms o R y Iy) as (_ & (? & _) & (? & _) & _). unfold in_section. destruct (Z.ltb_spec (2 ^ 32 - 1) (y_value y)); [split; [intros Q; exfalso; lia|reflexivity]|]. destruct (Z.ltb_spec (2 ^ 32 - 1) (y_size y)); [split; [intros Q; exfalso; lia|reflexivity]|]. cbn [orb]. rewrite u64_small by lia. destruct (Z.ltb_spec (o_size s) (y_value y + y_size y)); split; intros Q; try reflexivity; exfalso; lia.
Qed.
Lemma in_section_dec : forall y, in_section s y \/ ~ in_section s y.
Proof. intros y. unfold in_section. lia. Qed.
Lemma legacyMap_spec : forall y ms, object_symbol o i y -> ((exists r, legacyMap o vars s y ms = Ok r) <-> legacy_ok y /\ forall n a, ldef y n a -> lookup n ms = None) /\
  (forall r, legacyMap o vars s y ms = Ok r -> forall n a, lookup n r = Some a <-> ldef y n a \/ lookup n ms = Some a).
Proof.
  intros y ms Hy. unfold legacyMap. destruct (bounds_spec (A := maps) y BBounds (let d := symBytes s y in if (List.length d <? 20)%nat then Err BShort else Ok ((y_name y, legacyOf o vars s y) :: ms)) (proj1 Hy)) as (B1 & B2). unfold legacyOf, tagsOf in B1, B2. cbv zeta in B1, B2. cbv zeta.
  destruct (in_section_dec y) as [I|I].
  - rewrite (B1 I). pose proof (legacy_length y Hy I) as L. destruct (Nat.ltb_spec (List.length (symBytes s y)) 20) as [Lt|Ge].
    + assert (No : ~ legacy_ok y) by (intros (_ & Q); lia). split; [|destruct (lookup (y_name y) ms); discriminate]. split; [intros (r & H); destruct (lookup (y_name y) ms); discriminate|intros (Q & _); contradiction].
    + assert (Lk : legacy_ok y) by (split; [exact I|lia]). assert (D : forall n a, ldef y n a <-> n = y_name y /\ a = legacyOf o vars s y). { intros n a. unfold ldef. rewrite (legacyOf_spec y a) by lia. intuition. }
      destruct (lookup (y_name y) ms) as [x|] eqn:El.
      * split; [|discriminate]. split; [intros (r & H); discriminate|]. intros (_ & Q). specialize (Q _ _ (proj2 (D (y_name y) _) (conj eq_refl eq_refl))). congruence.
      * split; [split; [intros _; split; [exact Lk|]; intros n a Q; apply D in Q as (-> & _); exact El|eauto]|]. intros r H n a. apply Ok_inj in H. subst r. rewrite D. cbn [lookup]. destruct (String.eqb_spec n (y_name y)) as [->|N].
        -- split; [intros Q; injection Q as <-; left; auto|]. intros [(_ & ->)|Q]; [reflexivity|congruence].
        -- split; [now right|]. intros [(Q & _)|Q]; [contradiction|exact Q].
  - rewrite (B2 I). split; [|destruct (lookup (y_name y) ms); discriminate]. split; [intros (r & H); destruct (lookup (y_name y) ms); discriminate|intros ((Q & _) & _); contradiction].
Qed.
End Legacy.
Lemma dec_eq_of_value : forall f g : sym, (y_value f = y_value g -> f = g) -> f = g \/ f <> g.
Proof. intros f g H. destruct (Z.eq_dec (y_value f) (y_value g)) as [E|N]; [left; auto|right; intros ->; contradiction]. Qed.
(** no two symbols of the section have the same name *)
Definition uniq_in (o : obj) (i : Z) : Prop := forall f g, object_symbol o i f -> object_symbol o i g -> y_name f = y_name g -> f = g.
Section LegacySec.
Variables (o : obj) (btf : option btfspec) (al : Z -> Z) (so : Z -> list sym).
Hypothesis (R : regular o) (U : usual_maps o btf al) (Ps : forall i, Permutation (so i) (symbolsOf o i)).
Definition legacyP (i : Z) : Prop := forall s, legacy_section o i s -> sound_legacy o btf i s /\ uniq_in o i.
Definition legacyD (i : Z) (n : string) (mp : mapspec) : Prop := exists s y, legacy_section o i s /\ object_symbol o i y /\ ldef o btf s y n mp.
Lemma so_In : forall i s y, legacy_section o i s \/ btf_section o i s -> In y (so i) <-> object_symbol o i y.
Proof. intros i s y Hs. rewrite <- (map_symbols o btf al i s y U Hs). split; apply Permutation_in; [|apply Permutation_sym]; apply Ps. Qed.
Lemma so_NoDup : forall i, NoDup (so i).
Proof. intros i. eapply Permutation_NoDup; [apply Permutation_sym; apply Ps|]. apply sorted_NoDup. apply symbols_sorted. Qed.
Lemma legacySection_spec : forall i ms, ((exists r, legacySection o btf so i ms = Ok r) <-> legacyP i /\ forall n a, legacyD i n a -> lookup n ms = None) /\
  (forall r, legacySection o btf so i ms = Ok r -> forall n a, lookup n r = Some a <-> legacyD i n a \/ lookup n ms = Some a).
Proof.
  intros i ms. unfold legacySection. assert (K : kindAt o i = Some KMap \/ kindAt o i <> Some KMap) by (destruct (kindAt o i) as [[]|]; auto; right; discriminate). destruct K as [K|K].
  2:{ assert (N : forall s, ~ legacy_section o i s) by (intros s Hs; apply K; apply kind_legacy; eauto).
      assert (E : match kindAt o i, section o i with Some KMap, Some s => match symbolsOf o i with [] => Err BNoSymbols | _ :: _ => if o_compressed s then Err BCompressed else match sectionVars btf (o_name s) with Err e => Err e | Ok vars => run (legacyMap o vars s) (so i) ms end end | _, _ => Ok ms end = Ok ms) by (destruct (kindAt o i) as [[]|]; try reflexivity; contradiction).
      rewrite E. split.
      - split; [intros _; split; [intros s Hs; destruct (N s Hs)|]; intros n a (s & y & Hs & _); destruct (N s Hs)|eauto].
      - intros r H n a. apply Ok_inj in H. subst r. split; [now right|]. intros [(s & y & Hs & _)|H]; [destruct (N s Hs)|exact H]. }
  rewrite K. apply kind_legacy in K as (s & Hs). rewrite (proj2 (sect_section o i s) (proj1 Hs)).
  assert (Fun : forall t, legacy_section o i t -> t = s) by (intros t Ht; eapply sect_fun; [apply Ht|apply Hs]).
  assert (Fail : forall e, ~ legacyP i -> ((exists r, Err e = Ok r :> res berr maps) <-> legacyP i /\ forall n a, legacyD i n a -> lookup n ms = None) /\ (forall r : maps, Err e = Ok r -> forall n a, lookup n r = Some a <-> legacyD i n a \/ lookup n ms = Some a)).
  { intros e N. split; [|discriminate]. split; [intros (r & H); discriminate|intros (Q & _); contradiction]. }
  pose proof (fun y => map_symbols o btf al i s y U (or_introl Hs)) as Sy. destruct (symbolsOf o i) as [|y0 l0] eqn:El.
  { apply Fail. intros Q. destruct (Q s Hs) as (S & _). destruct (sl_some _ _ _ _ S) as (y & Hy). apply Sy in Hy. destruct Hy. }
  destruct (o_compressed s) eqn:Ec. { apply Fail. intros Q. destruct (Q s Hs) as (S & _). pose proof (sl_plain _ _ _ _ S). congruence. }
  destruct (sectionVars_spec o btf al i s U (or_introl Hs)) as (V1 & V2). destruct (sectionVars btf (o_name s)) as [vars|e] eqn:Ev.
  2:{ apply Fail. intros Q. destruct (Q s Hs) as (S & _). destruct (proj2 V1 (sl_vars _ _ _ _ S)) as (vars & H). discriminate. }
  destruct (run_spec (legacyMap o vars s) (legacy_ok s) (ldef o btf s) (so i)) with (ms := ms) as (A & B).
  { intros y ms' Hy. apply (legacyMap_spec o btf al i s vars R U Hs Ev). now apply (so_In i s y (or_introl Hs)). }
  split.
  - rewrite A, (pairs_iff _ _ (so_NoDup i)) by (intros x z Q n a b; intros D1 D2; exact (Q n b a D2 D1)). split.
    + intros (C1 & C2 & C3). split.
      * intros t Ht. rewrite (Fun t Ht). split.
        -- constructor; [exists y0; apply Sy; now left|exact Ec|apply V1; eauto|]. intros y Hy. apply C1. now apply (so_In i s y (or_introl Hs)).
        -- intros f g Hf Hg E. pose proof (proj2 (so_In i s f (or_introl Hs)) Hf) as If. pose proof (proj2 (so_In i s g (or_introl Hs)) Hg) as Ig. destruct (C1 f If) as (Bf & Lf). destruct (C1 g Ig) as (Bg & Lg).
           pose proof (proj2 (legacyOf_spec o btf al i s vars R U Hs Ev f _ ltac:(pose proof (legacy_length o btf al i s R U Hs f Hf Bf); lia)) eq_refl) as Tf. pose proof (proj2 (legacyOf_spec o btf al i s vars R U Hs Ev g _ ltac:(pose proof (legacy_length o btf al i s R U Hs g Hg Bg); lia)) eq_refl) as Tg.
           assert (X : f = g \/ f <> g) by (apply (dec_eq_of_value f g); intros Ev'; apply (um_alias o btf al U i s f g); auto). destruct X as [X|X]; [exact X|]. exfalso. apply (C3 f g If Ig X (y_name f) _ _ (conj (conj Bf Lf) (conj eq_refl Tf)) (conj (conj Bg Lg) (conj (eq_sym E) Tg))).
      * intros n a (t & y & Ht & Hy & D). rewrite (Fun t Ht) in D. apply (C2 y n a); [now apply (so_In i s y (or_introl Hs))|exact D].
    + intros (P & D). destruct (P s Hs) as (S & Un). split; [intros y Hy; apply (sl_syms _ _ _ _ S); now apply (so_In i s y (or_introl Hs))|]. split.
      * intros y n a Hy Q. apply (D n a). exists s, y. split; [exact Hs|]. split; [now apply (so_In i s y (or_introl Hs))|exact Q].
      * intros f g Hf Hg N n a b (_ & E1 & _) (_ & E2 & _). apply N. apply Un; [now apply (so_In i s f (or_introl Hs))|now apply (so_In i s g (or_introl Hs))|congruence].
  - intros r H n a. rewrite (B r H n a). split; (intros [Q|Q]; [left|now right]).
    + destruct Q as (y & Hy & Q). exists s, y. split; [exact Hs|]. split; [now apply (so_In i s y (or_introl Hs))|exact Q].
    + destruct Q as (t & y & Ht & Hy & Q). rewrite (Fun t Ht) in Q. exists y. split; [now apply (so_In i s y (or_introl Hs))|exact Q].
Qed.
End LegacySec.

(** ** BTF maps *)
Lemma btf_inj : forall b b' : btfspec, Some b = Some b' -> b = b'.
Proof. congruence. Qed.
Section BtfSec.
Variables (o : obj) (btf : option btfspec) (al : Z -> Z) (so : Z -> list sym) (vo : list bvar -> list bvar).
Hypothesis (R : regular o) (U : usual_maps o btf al) (Hr : forall k, exists m, relocationsOf o k = Some (Ok m)) (Ps : forall i, Permutation (so i) (symbolsOf o i)) (Pv : forall vars, Permutation (vo vars) vars).
(** the definition of variable [v], by symbol [y] *)
Definition made (i : Z) (h : heap) (s : osec) (v : bvar) (y : sym) (mp : mapspec) : Prop :=
  exists m r nm sz ms tg, relocationsOf o i = Some (Ok m) /\ UnderlyingType h (b_type v) = Some r /\ deref h r = Some (NStruct nm sz ms tg) /\ mapSpecFromBTF h m (al i) y (b_tags v) (b_name v) ms = Ok mp /\ in_section s y /\ Forall (eq 0) (bytes_of s y).
Definition btfP (i : Z) : Prop := forall s, btf_section o i s -> sound_btf o btf i s /\ uniq_in o i.
Definition btfD (i : Z) (n : string) (mp : mapspec) : Prop := exists s h v y, btf_section o i s /\ var_of btf s h v /\ b_name v = n /\ object_symbol o i y /\ y_name y = n /\ made i h s v y mp.
Section One.
Variables (i : Z) (s : osec) (b : btfspec) (m : rels).
Hypothesis (Hs : btf_section o i s) (Hb : btf = Some b) (Hm : relocationsOf o i = Some (Ok m)).
Definition bok (v : bvar) : Prop := exists y mp, symNamed (so i) (b_name v) None = Some y /\ made i (b_heap b) s v y mp.
Definition bdef (v : bvar) (n : string) (mp : mapspec) : Prop := exists y, symNamed (so i) (b_name v) None = Some y /\ n = b_name v /\ made i (b_heap b) s v y mp.
Lemma named_symbol : forall n y, symNamed (so i) n None = Some y -> object_symbol o i y /\ y_name y = n.
Proof. intros n y H. apply symNamed_in in H as [(I & E)|H]; [|discriminate]. split; [|exact E]. now apply (so_In o btf al so U Ps i s y (or_intror Hs)). Qed.
Lemma zeros_spec : forall l, forallb (Z.eqb 0) l = true <-> Forall (eq 0) l.
Proof. intros l. rewrite forallb_forall, Forall_forall. split; intros H x Hx; apply Z.eqb_eq; apply H; exact Hx. Qed.
Lemma made_fun : forall v y a c, made i (b_heap b) s v y a -> made i (b_heap b) s v y c -> a = c.
Proof.
  intros v y a c (m1 & r1 & n1 & s1 & ms1 & t1 & E1 & E2 & E3 & E4 & _) (m2 & r2 & n2 & s2 & ms2 & t2 & F1 & F2 & F3 & F4 & _). rewrite E1 in F1. injection F1 as <-. rewrite E2 in F2. injection F2 as <-. rewrite E3 in F3. injection F3 as <- <- <- <-. rewrite E4 in F4. now injection F4.
Qed.
Lemma btfMap_spec : forall v ms, ((exists r, btfMap (b_heap b) m (al i) s (so i) v ms = Ok r) <-> bok v /\ forall n a, bdef v n a -> lookup n ms = None) /\
  (forall r, btfMap (b_heap b) m (al i) s (so i) v ms = Ok r -> forall n a, lookup n r = Some a <-> bdef v n a \/ lookup n ms = Some a).
Proof.
  intros v ms. assert (Fail : forall e x, x = Err e -> ~ bok v -> ((exists r, x = Ok r :> res berr maps) <-> bok v /\ forall n a, bdef v n a -> lookup n ms = None) /\ (forall r : maps, x = Ok r -> forall n a, lookup n r = Some a <-> bdef v n a \/ lookup n ms = Some a)).
  { intros e x -> N. split; [|discriminate]. split; [intros (r & H); discriminate|intros (Q & _); contradiction]. }
  unfold btfMap. destruct (symNamed (so i) (b_name v) None) as [y|] eqn:Ey; [|apply (Fail BNoSymbol); [reflexivity|]; intros (y & mp & Q & _); congruence].
  destruct (named_symbol _ _ Ey) as (Hy & Ny).
  match goal with |- context[if o_size s <? u64 (y_value y + y_size y) then Err BBounds else ?x] => destruct (bounds_spec o s R y BBounds x (proj1 Hy)) as (B1 & B2); set (rest := x) in * end.
  destruct (in_section_dec s y) as [I|I].
  2:{ rewrite (B2 I). apply (Fail BBounds); [reflexivity|]. intros (y' & mp & Q & m' & r & nm & sz & ms' & tg & _ & _ & _ & _ & Q' & _). rewrite Ey in Q. injection Q as <-. contradiction. }
  rewrite (B1 I). subst rest. clear B1 B2. rewrite (um_type o btf al U i s (or_intror Hs)). change (1 =? SHT_NOBITS) with false. cbn [orb].
  destruct (forallb (Z.eqb 0) (symBytes s y)) eqn:Ez; cbn [negb].
  2:{ apply (Fail BNotZero); [reflexivity|]. intros (y' & mp & Q & m' & r & nm & sz & ms' & tg & _ & _ & _ & _ & _ & Q'). rewrite Ey in Q. injection Q as <-. apply zeros_spec in Q'. unfold bytes_of in Q'. unfold symBytes in Ez. congruence. }
  apply zeros_spec in Ez.
  assert (Cases : (exists r nm sz mems tg mp, UnderlyingType (b_heap b) (b_type v) = Some r /\ deref (b_heap b) r = Some (NStruct nm sz mems tg) /\ mapSpecFromBTF (b_heap b) m (al i) y (b_tags v) (b_name v) mems = Ok mp) \/
    exists e, match match UnderlyingType (b_heap b) (b_type v) with Some t => deref (b_heap b) t | None => None end with Some (NStruct _ _ mems _) => match mapSpecFromBTF (b_heap b) m (al i) y (b_tags v) (b_name v) mems with Err e => Err e | Ok spec => Ok ((b_name v, spec) :: ms) end | _ => Err BStruct end = Err e :> res berr maps).
  { destruct (UnderlyingType (b_heap b) (b_type v)) as [r|] eqn:Eu in |- *; [|right; exists BStruct; reflexivity]. destruct (deref (b_heap b) r) as [[| | |nm0 sz0 members tg0| | | | | | | | | | | | | | |]|] eqn:Ed in |- *; try (right; exists BStruct; reflexivity).
    destruct (mapSpecFromBTF (b_heap b) m (al i) y (b_tags v) (b_name v) members) as [mp|e] eqn:Em in |- *; [left; exists r, nm0, sz0, members, tg0, mp; auto|right; exists e; reflexivity]. }
  destruct Cases as [(r & nm & sz & mems & tg & mp & Eu & Ed & Em)|(e & E)].
  - rewrite Eu, Ed, Em. assert (Mk : made i (b_heap b) s v y mp) by (exists m, r, nm, sz, mems, tg; repeat (split; [assumption|]); exact Ez).
    assert (D : forall n a, bdef v n a <-> n = b_name v /\ a = mp). { intros n a. split; [intros (y' & Q & -> & Q'); rewrite Ey in Q; injection Q as <-; split; [reflexivity|exact (made_fun v y a mp Q' Mk)]|]. intros (-> & ->). exists y. auto. }
    assert (Bk : bok v) by (exists y, mp; auto). destruct (lookup (b_name v) ms) as [x|] eqn:El.
    + split; [|discriminate]. split; [intros (r' & H); discriminate|]. intros (_ & Q). specialize (Q _ _ (proj2 (D (b_name v) mp) (conj eq_refl eq_refl))). congruence.
    + split; [split; [intros _; split; [exact Bk|]; intros n a Q; apply D in Q as (-> & _); exact El|eauto]|]. intros r' H n a. apply Ok_inj in H. subst r'. rewrite D. cbn [lookup]. destruct (String.eqb_spec n (b_name v)) as [->|N].
      * split; [intros Q; injection Q as <-; left; auto|]. intros [(_ & ->)|Q]; [reflexivity|congruence].
      * split; [now right|]. intros [(Q & _)|Q]; [contradiction|exact Q].
  - assert (N : ~ bok v). { intros (y' & mp & Q & m' & r & nm & sz & ms' & tg & Q1 & Q2 & Q3 & Q4 & _). rewrite Ey in Q. injection Q as <-. rewrite Hm in Q1. injection Q1 as <-. rewrite Q2, Q3, Q4 in E. discriminate. }
    destruct (lookup (b_name v) ms); [apply (Fail BDuplicate); [reflexivity|exact N]|]. rewrite E. apply (Fail e); [reflexivity|exact N].
Qed.
End One.

Lemma symNamed_unique : forall l y, In y l -> (forall f g, In f l -> In g l -> y_name f = y_name g -> f = g) -> symNamed l (y_name y) None = Some y.
Proof.
  intros l y I Un. destruct (symNamed l (y_name y) None) as [g|] eqn:E.
  - apply symNamed_in in E as [(Ig & Eg)|E]; [|discriminate]. f_equal. auto.
  - apply symNamed_spec in E as (_ & E). exfalso. apply E. now apply List.in_map.
Qed.
Lemma NoDup_map_inj : forall {A B} (f : A -> B) l, NoDup (map f l) -> forall x y, In x l -> In y l -> f x = f y -> x = y.
Proof.
  intros A B f l. induction l as [|a l IH]; intros Nd x y Hx; [destruct Hx|]. cbn [map] in Nd. inversion Nd as [|? ? N1 N2]; subst. destruct Hx as [->|Hx].
  - intros [->|Hy] E; [reflexivity|]. exfalso. apply N1. rewrite E. now apply List.in_map.
  - intros [<-|Hy] E; [|now apply IH]. exfalso. apply N1. rewrite <- E. now apply List.in_map.
Qed.
Lemma inj_NoDup_map : forall {A B} (f : A -> B) l, NoDup l -> (forall x y, In x l -> In y l -> f x = f y -> x = y) -> NoDup (map f l).
Proof.
  intros A B f l. induction l as [|a l IH]; intros Nd Inj; cbn [map]; constructor; inversion Nd as [|? ? N1 N2]; subst.
  - intros I. apply in_map_iff in I as (x & E & Hx). assert (x = a) by (apply Inj; [now right|now left|exact E]). congruence.
  - apply IH; [assumption|]. intros x y Hx Hy. apply Inj; now right.
Qed.
Lemma made_sound : forall i s h v y, btf_section o i s -> var_of btf s h v -> object_symbol o i y -> b_name v = y_name y ->
  (exists mp, made i h s v y mp) <-> in_section s y /\ Forall (eq 0) (bytes_of s y) /\ exists tags ms, defined_by btf s y h tags ms /\ sound_def h ms false /\ forall m, has ms "values" m -> sound_values h o i y ms m.
Proof.
  intros i s h v y Hs Hv Hy E. destruct (Hr i) as (m & Em). assert (K : kindAt o i = Some KBtfMap) by (apply kind_btf; eauto). pose proof (relocations_kind o i KBtfMap m R K Em) as Rk.
  assert (Sm : in_section s y -> in_u 32 (y_value y) /\ in_u 32 (y_size y)). { intros (A & B & _). destruct (rg_syms o R y (proj1 Hy)) as (_ & (? & _) & (? & _) & _). unfold in_u. lia. }
  split.
  - intros (mp & m' & r & nm & sz & ms & tg & Q1 & Q2 & Q3 & Q4 & Q5 & Q6). rewrite Em in Q1. injection Q1 as <-. split; [exact Q5|]. split; [exact Q6|]. exists (b_tags v), ms.
    assert (D : defined_by btf s y h (b_tags v) ms) by (exists v, r, nm, sz, tg; auto). split; [exact D|]. rewrite (um_align o btf al U i s Hs) in Q4. destruct (Sm Q5) as (S1 & S2). apply (C78_accepted h o i m y (b_tags v) (b_name v) ms Rk S1 S2 (um_defs o btf al U i s y h (b_tags v) ms Hs Hy D)). eauto.
  - intros (I & Z0 & tags & ms & D & So). pose proof D as (v' & r & nm & sz & tg & V & En & -> & Eu & Ed). assert (v' = v) by (apply (um_vars o btf al U i s h v' v (or_intror Hs) V Hv); congruence). subst v'. destruct (Sm I) as (S1 & S2).
    apply (C78_accepted h o i m y (b_tags v) (b_name v) ms Rk S1 S2 (um_defs o btf al U i s y h (b_tags v) ms Hs Hy D)) in So as (mp & So). exists mp, m, r, nm, sz, ms, tg. rewrite (um_align o btf al U i s Hs). auto 8.
Qed.
Lemma var_heap : forall b s h v, btf = Some b -> var_of btf s h v -> h = b_heap b.
Proof. intros b s h v E (e & (b' & ds & Q & -> & _) & _). rewrite E in Q. apply btf_inj in Q. now subst. Qed.
Lemma btfSection_spec : forall i ms, ((exists r, btfSection o btf al so vo i ms = Ok r) <-> btfP i /\ forall n a, btfD i n a -> lookup n ms = None) /\
  (forall r, btfSection o btf al so vo i ms = Ok r -> forall n a, lookup n r = Some a <-> btfD i n a \/ lookup n ms = Some a).
Proof.
  intros i ms. unfold btfSection. assert (K : kindAt o i = Some KBtfMap \/ kindAt o i <> Some KBtfMap) by (destruct (kindAt o i) as [[]|]; auto; right; discriminate). destruct K as [K|K].
  2:{ assert (N : forall s, ~ btf_section o i s) by (intros s Hs; apply K; apply kind_btf; eauto).
      match goal with |- ((exists r, ?x = Ok r) <-> _) /\ _ => assert (E : x = Ok ms) by (destruct (kindAt o i) as [[]|]; try reflexivity; contradiction) end.
      rewrite E. split.
      - split; [intros _; split; [intros s Hs; destruct (N s Hs)|]; intros n a (s & h & v & y & Hs & _); destruct (N s Hs)|eauto].
      - intros r H n a. apply Ok_inj in H. subst r. split; [now right|]. intros [(s & h & v & y & Hs & _)|H]; [destruct (N s Hs)|exact H]. }
  rewrite K. apply kind_btf in K as (s & Hs). rewrite (proj2 (sect_section o i s) (proj1 Hs)).
  assert (Fun : forall t, btf_section o i t -> t = s) by (intros t Ht; eapply sect_fun; [apply Ht|apply Hs]).
  assert (Fail : forall e, ~ btfP i -> ((exists r, Err e = Ok r :> res berr maps) <-> btfP i /\ forall n a, btfD i n a -> lookup n ms = None) /\ (forall r : maps, Err e = Ok r -> forall n a, lookup n r = Some a <-> btfD i n a \/ lookup n ms = Some a)).
  { intros e N. split; [|discriminate]. split; [intros (r & H); discriminate|intros (Q & _); contradiction]. }
  pose proof (fun y => map_symbols o btf al i s y U (or_intror Hs)) as Sy. pose proof (fun y => so_In o btf al so U Ps i s y (or_intror Hs)) as So.
  pose proof (sectionVars_spec o btf al i s U (or_intror Hs)) as (V1 & V2).
  destruct btf as [b|] eqn:Hb. 2:{ apply Fail. intros Q. destruct (Q s Hs) as (S & _). now apply (sb_btf _ _ _ _ S). }
  rewrite <- Hb in *. destruct (o_compressed s) eqn:Ec. { apply Fail. intros Q. destruct (Q s Hs) as (S & _). pose proof (sb_plain _ _ _ _ S). congruence. }
  destruct (sectionVars btf (o_name s)) as [vars|e] eqn:Ev.
  2:{ apply Fail. intros Q. destruct (Q s Hs) as (S & _). destruct (proj2 V1 (sb_vars _ _ _ _ S)) as (vars & H). discriminate. }
  destruct (V2 vars eq_refl) as (Nd & Iv). destruct (Hr i) as (m & Em). rewrite Em.
  assert (Heap : forall v, In v vars <-> var_of btf s (b_heap b) v). { intros v. rewrite Iv. split; [intros (h & Q); now rewrite <- (var_heap b s h v Hb Q)|eauto]. }
  assert (Ns : NoDup (symbolsOf o i)) by (apply sorted_NoDup; apply symbols_sorted).
  (* success gives a bijection *)
  assert (Bij : Datatypes.length vars = Datatypes.length (symbolsOf o i) -> (forall v, In v vars -> exists y, object_symbol o i y /\ y_name y = b_name v) -> uniq_in o i /\ forall y, object_symbol o i y -> exists v, In v vars /\ b_name v = y_name y).
  { intros L H. assert (In1 : incl (map b_name vars) (map y_name (symbolsOf o i))). { intros n Hn. apply in_map_iff in Hn as (v & <- & Hv). destruct (H v Hv) as (y & Hy & <-). apply List.in_map. now apply Sy. }
    assert (Ns' : NoDup (map y_name (symbolsOf o i))) by (apply (NoDup_incl_NoDup Nd); [rewrite !map_length; lia|exact In1]). split.
    - intros f g Hf Hg. apply (NoDup_map_inj y_name _ Ns'); now apply Sy.
    - intros y Hy. assert (In2 : incl (map y_name (symbolsOf o i)) (map b_name vars)) by (apply NoDup_length_incl; [exact Nd|rewrite !map_length; lia|exact In1]). assert (Q : In (y_name y) (map b_name vars)) by (apply In2, List.in_map; now apply Sy). apply in_map_iff in Q as (v & E & Hv). eauto. }
  destruct (Nat.eqb_spec (Datatypes.length vars) (Datatypes.length (symbolsOf o i))) as [L|L]; cbn [negb].
  2:{ apply Fail. intros Q. destruct (Q s Hs) as (S & Un). apply L. assert (Ns' : NoDup (map y_name (symbolsOf o i))) by (apply inj_NoDup_map; [exact Ns|]; intros f g Hf Hg; apply Un; now apply Sy).
      rewrite <- (map_length b_name vars), <- (map_length y_name (symbolsOf o i)). apply Nat.le_antisymm; apply NoDup_incl_length; try assumption.
      - intros n Hn. apply in_map_iff in Hn as (v & <- & Hv). destruct (sb_symbol _ _ _ _ S _ v (proj1 (Heap v) Hv)) as (y & Hy & <-). apply List.in_map. now apply Sy.
      - intros n Hn. apply in_map_iff in Hn as (y & <- & Hy). apply Sy in Hy. destruct (sb_def _ _ _ _ S y Hy) as (_ & _ & h & tags & mems & (v & r & nm & sz & tg & Hv & <- & _) & _). apply List.in_map. apply Iv. eauto. }
  destruct (run_spec (btfMap (b_heap b) m (al i) s (so i)) (bok i s b) (bdef i s b) (vo vars)) with (ms := ms) as (A & B).
  { intros v ms' _. apply (btfMap_spec i s b m Hs Em). }
  assert (Iv' : forall v, In v (vo vars) <-> In v vars) by (intros v; split; apply Permutation_in; [|apply Permutation_sym]; apply Pv).
  assert (Nv : NoDup (vo vars)) by (eapply Permutation_NoDup; [apply Permutation_sym; apply Pv|]; exact (NoDup_map_inv _ _ Nd)).
  (* the definitions *)
  assert (Def : uniq_in o i -> forall n a, (exists v, In v (vo vars) /\ bdef i s b v n a) <-> btfD i n a).
  { intros Un n a. split.
    - intros (v & Hv & y & Q & -> & Mk). destruct (named_symbol i s Hs _ _ Q) as (Hy & Ny). exists s, (b_heap b), v, y. split; [exact Hs|]. split; [apply Heap; now apply Iv'|]. auto.
    - intros (t & h & v & y & Ht & Hv & En & Hy & Ny & Mk). rewrite (Fun t Ht) in Hv, Mk. pose proof (var_heap b s h v Hb Hv). subst h. exists v. split; [apply Iv', Heap; exact Hv|]. exists y. split; [|auto]. rewrite En, <- Ny. apply symNamed_unique; [now apply So|]. intros f g Hf Hg. apply Un; now apply So. }
  assert (Uq : (forall v, In v (vo vars) -> bok i s b v) -> uniq_in o i /\ forall y, object_symbol o i y -> exists v, In v vars /\ b_name v = y_name y).
  { intros C. apply Bij; [exact L|]. intros v Hv. destruct (C v (proj2 (Iv' v) Hv)) as (y & mp & Q & _). destruct (named_symbol i s Hs _ _ Q). eauto. }
  split.
  - rewrite A, (pairs_iff _ _ Nv) by (intros x z Q n a c; intros D1 D2; exact (Q n c a D2 D1)). split.
    + intros (C1 & C2 & C3). destruct (Uq C1) as (Un & Sv). split.
      * intros t Ht. rewrite (Fun t Ht). split; [|exact Un]. constructor; [congruence|exact Ec|apply V1; eauto| |].
        -- intros h v Hv. assert (Q : In v vars) by (apply Iv; eauto). destruct (C1 v (proj2 (Iv' v) Q)) as (y & mp & Q' & _). destruct (named_symbol i s Hs _ _ Q'). eauto.
        -- intros y Hy. destruct (Sv y Hy) as (v & Hv & Ev'). destruct (C1 v (proj2 (Iv' v) Hv)) as (y' & mp & Q & Mk). destruct (named_symbol i s Hs _ _ Q) as (Hy' & Ny'). assert (y' = y) by (apply Un; auto; congruence). subst y'.
           destruct (proj1 (made_sound i s (b_heap b) v y Hs (proj1 (Heap v) Hv) Hy Ev') (ex_intro _ mp Mk)) as (P1 & P2 & tags & mems & P3). eauto 8.
      * intros n a D. apply (Def Un) in D as (v & Hv & D). now apply (C2 v n a).
    + intros (P & D). destruct (P s Hs) as (S & Un). split.
      * intros v Hv. apply Iv', Heap in Hv. destruct (sb_symbol _ _ _ _ S _ v Hv) as (y & Hy & Ny). destruct (sb_def _ _ _ _ S y Hy) as (P1 & P2 & h & tags & mems & P3 & P4). pose proof P3 as (v' & r & nm & sz & tg & Q & _). pose proof (var_heap b s h v' Hb Q). subst h.
        destruct (proj2 (made_sound i s (b_heap b) v y Hs Hv Hy (eq_sym Ny))) as (mp & Mk); [split; [exact P1|]; split; [exact P2|]; exists tags, mems; auto|]. exists y, mp. split; [|exact Mk]. rewrite <- Ny. apply symNamed_unique; [now apply So|]. intros f g Hf Hg. apply Un; now apply So.
      * split; [intros v n a Hv Q; apply (D n a); apply (Def Un); eauto|]. intros v w Hv Hw N n a c (_ & _ & E1 & _) (_ & _ & E2 & _). apply N. apply (NoDup_map_inj b_name _ Nd); [now apply Iv'|now apply Iv'|congruence].
  - intros r H n a. rewrite (B r H n a). pose proof (proj1 A (ex_intro _ r H)) as (C1 & _). destruct (Uq C1) as (Un & _). rewrite (Def Un). reflexivity.
Qed.
End BtfSec.

(** ** A definition determines the map *)
Lemma sorted_unique : forall c d : list (Z * string), StronglySorted (fun a b => fst a < fst b) c -> StronglySorted (fun a b => fst a < fst b) d -> (forall k n, In (k, n) c <-> In (k, n) d) -> c = d.
Proof.
  induction c as [|(k, n) c IH]; intros [|(j, p) d] Sc Sd H; [reflexivity|exfalso; apply (H j p); now left|exfalso; apply (H k n); now left|].
  inversion Sc as [|? ? Sc' Fc]; inversion Sd as [|? ? Sd' Fd]; subst. rewrite Forall_forall in Fc, Fd.
  assert (E : (k, n) = (j, p)). { destruct (proj1 (H k n) (or_introl eq_refl)) as [E|I1]; [now symmetry|]. destruct (proj2 (H j p) (or_introl eq_refl)) as [E|I2]; [exact E|]. apply Fd in I1. apply Fc in I2. cbn in I1, I2. lia. }
  injection E as <- <-. f_equal. apply IH; auto. intros a b. split; intros I.
  - destruct (proj1 (H a b) (or_intror I)) as [E|I']; [|exact I']. injection E as <- <-. apply Fc in I. cbn in I. lia.
  - destruct (proj2 (H a b) (or_intror I)) as [E|I']; [|exact I']. injection E as <- <-. apply Fd in I. cbn in I. lia.
Qed.
Definition same_attrs (a b : mapspec) : Prop :=
  mp_name a = mp_name b /\ mp_type a = mp_type b /\ mp_keysize a = mp_keysize b /\ mp_valuesize a = mp_valuesize b /\ mp_max a = mp_max b /\ mp_flags a = mp_flags b /\ mp_key a = mp_key b /\ mp_value a = mp_value b /\ mp_pin a = mp_pin b /\ mp_tags a = mp_tags b /\ mp_mapextra a = mp_mapextra b /\ mp_extra a = mp_extra b.
Lemma attributes_fun : forall h ms name tags a b, usual_def h ms -> attributes h ms name tags a -> attributes h ms name tags b -> same_attrs a b.
Proof.
  intros h ms name tags a b Ud [a1 a2 a3 a4 a5 a6 a7 (sa & a8 & a9 & a10) a11 a12] [b1 b2 b3 b4 b5 b6 b7 (sb & b8 & b9 & b10) b11 b12].
  pose proof (attribute_fun h ms Ud) as AF. destruct (sized_fun h ms Ud _ _ _ _ _ a7 b7) as (K1 & K2). destruct (sized_fun h ms Ud _ _ _ _ _ a8 b8) as (V1 & V2). pose proof (AF _ _ _ a2 b2) as T.
  assert (Vs : mp_valuesize a = mp_valuesize b).
  { destruct (F ms "values") as [m|] eqn:Ef.
    - apply F_has in Ef. rewrite a9, b9; eauto.
    - pose proof (proj1 (F_none ms "values") Ef) as N. specialize (a10 N). specialize (b10 N). assert (D : valueless a \/ ~ valueless a) by (unfold valueless; destruct (mp_value a); [|right; intros (_ & Q); now apply Q]; assert (X : Some r <> None) by discriminate; destruct (Z.eq_dec (mp_type a) 4), (Z.eq_dec (mp_type a) 27), (Z.eq_dec (mp_type a) 33); tauto).
      assert (Vb : valueless a <-> valueless b) by (unfold valueless; rewrite T, V1; reflexivity). destruct D as [D|D].
      + destruct a10 as (Q & _), b10 as (Q' & _). rewrite (Q D), (Q' (proj1 Vb D)). reflexivity.
      + destruct a10 as (_ & Q), b10 as (_ & Q'). rewrite (Q D), (Q' (fun x => D (proj2 Vb x))). exact V2. }
  unfold same_attrs. rewrite a1, b1, T, K2, Vs, K1, V1, a11, b11, a12, b12, (AF _ _ _ a3 b3), (AF _ _ _ a4 b4), (AF _ _ _ a5 b5), (AF _ _ _ a6 b6). repeat split; reflexivity.
Qed.
Lemma same_eq : forall a b, same_attrs a b -> mp_inner a = mp_inner b -> mp_contents a = mp_contents b -> a = b.
Proof. intros [] []. unfold same_attrs. cbn. intros (-> & -> & -> & -> & -> & -> & -> & -> & -> & -> & -> & ->) -> ->. reflexivity. Qed.
Lemma definition_fun : forall h o i y tags name ms a b, usual_defs h ms -> (forall m, has ms "values" m -> sound_values h o i y ms m) -> the_definition h o i y tags name ms a -> the_definition h o i y tags name ms b -> a = b.
Proof.
  intros h o i y tags name ms a b Ud Sv [a1 a2 a3] [b1 b2 b3]. pose proof (attributes_fun h ms name tags a b (us_def _ _ Ud) a1 b1) as S. destruct (F ms "values") as [m|] eqn:Ef.
  - apply F_has in Ef. destruct (sv_elem _ _ _ _ _ _ (Sv m Ef)) as (t & Et & Ge). destruct (a3 m t Ef Et) as ((Sa & Ca) & Fa & Ia). destruct (b3 m t Ef Et) as ((Sb & Cb) & Fb & Ib). apply same_eq; [exact S| |].
    + destruct Ge as [(n & sz & ims & tg & Hd & _)|(r & ps & Hd & _)]; [|rewrite (Fa r ps Hd), (Fb r ps Hd); reflexivity]. destruct (Ia n sz ims tg Hd) as (x & -> & Ax & Ix & Cx). destruct (Ib n sz ims tg Hd) as (z & -> & Az & Iz & Cz). f_equal. destruct (us_inner _ _ Ud m t n sz ims tg Ef Et Hd) as (Ui & _). apply same_eq; [exact (attributes_fun h ims _ tags x z Ui Ax Az)|congruence|congruence].
    + apply sorted_unique; auto. intros k n. now rewrite Ca, Cb.
  - pose proof (proj1 (F_none ms "values") Ef) as N. destruct (a2 N) as (X1 & X2), (b2 N) as (Y1 & Y2). apply same_eq; [exact S|congruence|congruence].
Qed.

(** ** C79 *)
(** the symbols which stand for maps *)
Definition map_symbol (o : obj) (i : Z) (y : sym) : Prop := (exists s, legacy_section o i s \/ btf_section o i s) /\ object_symbol o i y.
(** relocations first *)
Definition loadAllMaps (o : obj) (btf : option btfspec) (al : Z -> Z) (ro : list Z) (so so' : Z -> list sym) (vo : list bvar -> list bvar) (lo bo : list Z) : option (res berr maps) :=
  match loadRelocations o ro with Some (Ok _) => Some (loadMapSections o btf al so so' vo lo bo) | _ => None end.
Section C79.
Variables (o : obj) (btf : option btfspec) (al : Z -> Z) (ro lo bo : list Z) (so so' : Z -> list sym) (vo : list bvar -> list bvar).
Hypothesis (R : regular o) (U : usual_maps o btf al) (Pr : Permutation ro (indices o)) (Pl : Permutation lo (indices o)) (Pb : Permutation bo (indices o)).
Hypothesis (Ps : forall i, Permutation (so i) (symbolsOf o i)) (Ps' : forall i, Permutation (so' i) (symbolsOf o i)) (Pv : forall vars, Permutation (vo vars) vars) (Hr : loadRelocations o ro = Some (Ok tt)).
Lemma C79_core :
  ((exists ms, loadAllMaps o btf al ro so so' vo lo bo = Some (Ok ms)) <->
   (forall i, legacyP o btf i) /\ (forall i, btfP o btf i) /\ (forall i j n a b, i <> j -> legacyD o btf i n a -> legacyD o btf j n b -> False) /\
   (forall i j n a b, i <> j -> btfD o btf al i n a -> btfD o btf al j n b -> False) /\ (forall i j n a b, legacyD o btf i n a -> btfD o btf al j n b -> False)) /\
  (forall ms, loadAllMaps o btf al ro so so' vo lo bo = Some (Ok ms) -> forall n a, lookup n ms = Some a <-> (exists i, legacyD o btf i n a) \/ exists i, btfD o btf al i n a).
Proof.
  pose proof (relocs_all o ro Pr Hr) as Ra. unfold loadAllMaps, loadMapSections. rewrite Hr.
  assert (Nl : NoDup lo) by (eapply Permutation_NoDup; [apply Permutation_sym; exact Pl|apply indices_NoDup]). assert (Nb : NoDup bo) by (eapply Permutation_NoDup; [apply Permutation_sym; exact Pb|apply indices_NoDup]).
  assert (Il : forall i s, legacy_section o i s -> In i lo) by (intros i s (Hs & _); eapply index_in; [exact Pl|exact Hs]). assert (Ib : forall i s, btf_section o i s -> In i bo) by (intros i s (Hs & _); eapply index_in; [exact Pb|exact Hs]).
  destruct (run_spec (legacySection o btf so) (legacyP o btf) (legacyD o btf) lo) with (ms := @nil (string * mapspec)) as (A1 & A2). { intros i ms _. now apply (legacySection_spec o btf al so R U Ps). }
  rewrite (pairs_iff _ _ Nl) in A1 by (intros x z Q n a b; intros D1 D2; exact (Q n b a D2 D1)).
  assert (L1 : (forall i, In i lo -> legacyP o btf i) <-> forall i, legacyP o btf i) by (split; [intros H i s Hs; apply (H i (Il i s Hs) s Hs)|auto]).
  assert (L2 : (forall i j, In i lo -> In j lo -> i <> j -> forall n a b, legacyD o btf i n a -> legacyD o btf j n b -> False) <-> forall i j n a b, i <> j -> legacyD o btf i n a -> legacyD o btf j n b -> False).
  { split; [|eauto]. intros H i j n a b N D1 D2. pose proof D1 as (s & y & Hs & _). pose proof D2 as (t & z & Ht & _). exact (H i j (Il i s Hs) (Il j t Ht) N n a b D1 D2). }
  assert (L3 : forall n a, (exists i, In i lo /\ legacyD o btf i n a) <-> exists i, legacyD o btf i n a) by (intros n a; split; [intros (i & _ & D); eauto|intros (i & D); pose proof D as (s & y & Hs & _); eauto]).
  destruct (run (legacySection o btf so) lo []) as [ms0|e] eqn:El.
  2:{ split; [|discriminate]. split; [intros (ms & H); discriminate|]. intros (H1 & _ & H3 & _). pose proof (proj2 A1 (conj (proj2 L1 H1) (conj (fun _ _ _ _ _ => eq_refl) (proj2 L2 H3)))) as (r & Er). pose proof (eq_trans (eq_sym El) Er) as Q. discriminate Q. }
  specialize (A2 ms0 El). assert (A2' : forall n a, lookup n ms0 = Some a <-> exists i, legacyD o btf i n a) by (intros n a; rewrite A2, L3; cbn [lookup]; split; [intros [H|H]; [exact H|discriminate]|auto]).
  pose proof (proj1 A1 (ex_intro _ ms0 El)) as (G1 & _ & G3). rewrite L1 in G1. rewrite L2 in G3.
  destruct (run_spec (btfSection o btf al so' vo) (btfP o btf) (btfD o btf al) bo) with (ms := ms0) as (B1 & B2). { intros i ms _. now apply (btfSection_spec o btf al so' vo R U Ra Ps' Pv). }
  rewrite (pairs_iff _ _ Nb) in B1 by (intros x z Q n a b; intros D1 D2; exact (Q n b a D2 D1)). split.
  - transitivity (exists r, run (btfSection o btf al so' vo) bo ms0 = Ok r). { split; intros (r & H); exists r; [now injection H|now rewrite H]. }
    rewrite B1. split.
    + intros (C1 & C2 & C3). split; [exact G1|]. split; [intros i s Hs; exact (C1 i (Ib i s Hs) s Hs)|]. split; [exact G3|]. split.
      * intros i j n a b N D1 D2. pose proof D1 as (s & h & v & y & Hs & _). pose proof D2 as (t & h' & v' & z & Ht & _). exact (C3 i j (Ib i s Hs) (Ib j t Ht) N n a b D1 D2).
      * intros i j n a b D1 D2. pose proof D2 as (t & h' & v' & z & Ht & _). specialize (C2 j n b (Ib j t Ht) D2). assert (Q : lookup n ms0 = Some a) by (apply A2'; eauto). congruence.
    + intros (_ & C1 & _ & C3 & C2). split; [auto|]. split; [|eauto]. intros j n b _ D2. destruct (lookup n ms0) as [a|] eqn:Q; [|reflexivity]. apply A2' in Q as (i & D1). destruct (C2 i j n a b D1 D2).
  - intros ms H. injection H as H. intros n a. rewrite (B2 ms H n a), A2'. split; [intros [(i & _ & D)|D]; eauto|]. intros [D|(i & D)]; [now right|]. pose proof D as (s & h & v & y & Hs & _). left. eauto.
Qed.
Lemma legacy_has : forall i s y, legacyP o btf i -> legacy_section o i s -> object_symbol o i y -> exists a, legacyD o btf i (y_name y) a.
Proof.
  intros i s y P Hs Hy. destruct (P s Hs) as (S & _). destruct (proj2 (proj1 (sectionVars_spec o btf al i s U (or_introl Hs))) (sl_vars _ _ _ _ S)) as (vars & Ev). pose proof (sl_syms _ _ _ _ S y Hy) as (I & L). exists (legacyOf o vars s y), s, y. split; [exact Hs|]. split; [exact Hy|]. split; [split; [exact I|exact L]|]. split; [reflexivity|].
  apply (legacyOf_spec o btf al i s vars R U Hs Ev); [|reflexivity]. pose proof (legacy_length o btf al i s R U Hs y Hy I). lia.
Qed.
Lemma btf_has : forall i s y, btfP o btf i -> btf_section o i s -> object_symbol o i y -> exists a, btfD o btf al i (y_name y) a.
Proof.
  intros i s y P Hs Hy. destruct (P s Hs) as (S & _). destruct (sb_def _ _ _ _ S y Hy) as (P1 & P2 & h & tags & mems & P3 & P4). pose proof P3 as (v & r & nm & sz & tg & Q & En & _).
  destruct (proj2 (made_sound o btf al so R U (relocs_all o ro Pr Hr) Ps i s h v y Hs Q Hy En)) as (mp & Mk); [split; [exact P1|]; split; [exact P2|]; exists tags, mems; auto|]. exists mp, s, h, v, y. auto 8.
Qed.
Lemma btfD_definition : forall i n a, btfP o btf i -> btfD o btf al i n a <-> exists s y, btf_section o i s /\ object_symbol o i y /\ y_name y = n /\ the_btf_map o btf i s y a.
Proof.
  intros i n a P. pose proof (relocs_all o ro Pr Hr) as Ra. destruct (Ra i) as (m & Em).
  assert (Df : forall s h v y a, btf_section o i s -> var_of btf s h v -> object_symbol o i y -> b_name v = y_name y -> made o al i h s v y a -> the_btf_map o btf i s y a).
  { intros s h v y a0 Hs Hv Hy E (m' & r & nm & sz & ms & tg & Q1 & Q2 & Q3 & Q4 & Q5 & Q6). rewrite Em in Q1. injection Q1 as <-. assert (D : defined_by btf s y h (b_tags v) ms) by (exists v, r, nm, sz, tg; auto). exists h, (b_tags v), ms. split; [exact D|]. rewrite <- E.
    assert (K : kindAt o i = Some KBtfMap) by (apply kind_btf; eauto). rewrite (um_align o btf al U i s Hs) in Q4. destruct Q5 as (S1 & S2 & _). destruct (rg_syms o R y (proj1 Hy)) as (_ & (? & _) & (? & _) & _). apply (C78_map h o i m y (b_tags v) (b_name v) ms (relocations_kind o i KBtfMap m R K Em)); [split; lia|split; lia|exact (um_defs o btf al U i s y h (b_tags v) ms Hs Hy D)|exact Q4]. }
  split.
  - intros (s & h & v & y & Hs & Hv & En & Hy & Ny & Mk). exists s, y. split; [exact Hs|]. split; [exact Hy|]. split; [exact Ny|]. apply (Df s h v y); auto. congruence.
  - intros (s & y & Hs & Hy & <- & T). destruct (btf_has i s y P Hs Hy) as (b & D). pose proof D as (s' & h & v & y' & Hs' & Hv & En & Hy' & Ny & Mk). assert (s' = s) by (eapply sect_fun; [apply Hs'|apply Hs]). subst s'. destruct (P s Hs) as (S & Un). assert (y' = y) by (now apply Un). subst y'.
    replace a with b; [exact D|]. assert (T' : the_btf_map o btf i s y b) by (apply (Df s h v y); auto). destruct T as (h1 & t1 & ms1 & D1 & X1), T' as (h2 & t2 & ms2 & D2 & X2).
    pose proof D1 as (v1 & r1 & n1 & s1 & g1 & V1 & N1 & -> & U1 & E1). pose proof D2 as (v2 & r2 & n2 & s2 & g2 & V2 & N2 & -> & U2 & E2). assert (h1 = h2) by (destruct V1 as (? & (b1 & ds & Qb & -> & _) & _), V2 as (? & (b2 & ds' & Qb' & -> & _) & _); congruence). subst h2.
    assert (v1 = v2) by (apply (um_vars o btf al U i s h1 v1 v2 (or_intror Hs) V1 V2); congruence). subst v2. rewrite U1 in U2. injection U2 as <-. rewrite E1 in E2. injection E2 as <- <- <- <-.
    destruct (sb_def _ _ _ _ S y Hy) as (_ & _ & h3 & t3 & ms3 & (v3 & r3 & n3 & s3 & g3 & V3 & N3 & -> & U3 & E3) & _ & Sv). assert (h3 = h1) by (destruct V1 as (? & (b1 & ds & Qb & -> & _) & _), V3 as (? & (b2 & ds' & Qb' & -> & _) & _); congruence). subst h3.
    assert (v3 = v1) by (apply (um_vars o btf al U i s h1 v3 v1 (or_intror Hs) V3 V1); congruence). subst v3. rewrite U1 in U3. injection U3 as <-. rewrite E1 in E3. injection E3 as <- <- <- <-.
    exact (definition_fun h1 o i y (b_tags v1) (y_name y) ms1 b a (um_defs o btf al U i s y h1 _ ms1 Hs Hy D1) Sv X2 X1).
Qed.
(** Loading the maps succeeds exactly if all sections are without errors and no two maps have the same name. *)
Theorem C79_loads : (exists ms, loadAllMaps o btf al ro so so' vo lo bo = Some (Ok ms)) <->
  (forall i s, legacy_section o i s -> sound_legacy o btf i s) /\ (forall i s, btf_section o i s -> sound_btf o btf i s) /\
  (forall i j f g, map_symbol o i f -> map_symbol o j g -> y_name f = y_name g -> f = g).
Proof.
  destruct C79_core as (A & _). rewrite A. split.
  - intros (P & Q & L & B & X). split; [intros i s Hs; now destruct (P i s Hs)|]. split; [intros i s Hs; now destruct (Q i s Hs)|].
    intros i j f g ((s & Hs) & Hf) ((t & Ht) & Hg) E. destruct (Z.eq_dec i j) as [<-|N]; [destruct Hs as [Hs|Hs]; [destruct (P i s Hs) as (_ & Un)|destruct (Q i s Hs) as (_ & Un)]; now apply Un|]. exfalso.
    destruct Hs as [Hs|Hs], Ht as [Ht|Ht].
    + destruct (legacy_has i s f (P i) Hs Hf) as (a & D1). destruct (legacy_has j t g (P j) Ht Hg) as (b & D2). rewrite <- E in D2. exact (L i j _ a b N D1 D2).
    + destruct (legacy_has i s f (P i) Hs Hf) as (a & D1). destruct (btf_has j t g (Q j) Ht Hg) as (b & D2). rewrite <- E in D2. exact (X i j _ a b D1 D2).
    + destruct (btf_has i s f (Q i) Hs Hf) as (a & D1). destruct (legacy_has j t g (P j) Ht Hg) as (b & D2). rewrite <- E in D2. exact (X j i _ b a D2 D1).
    + destruct (btf_has i s f (Q i) Hs Hf) as (a & D1). destruct (btf_has j t g (Q j) Ht Hg) as (b & D2). rewrite <- E in D2. exact (B i j _ a b N D1 D2).
  - intros (P & Q & Un). assert (Sec : forall i j f g, object_symbol o i f -> object_symbol o j g -> f = g -> i = j) by (intros i j f g (_ & <- & _) (_ & <- & _) ->; reflexivity). split.
    + intros i s Hs. split; [auto|]. intros f g Hf Hg. apply (Un i i); split; eauto.
    + split; [intros i s Hs; split; [auto|]; intros f g Hf Hg; apply (Un i i); split; eauto|]. split; [|split].
      * intros i j n a b N (s & f & Hs & Hf & _ & E1 & _) (t & g & Ht & Hg & _ & E2 & _). apply N. apply (Sec i j f g Hf Hg). apply (Un i j); [split; eauto|split; eauto|congruence].
      * intros i j n a b N (s & h & v & f & Hs & _ & _ & Hf & E1 & _) (t & h' & v' & g & Ht & _ & _ & Hg & E2 & _). apply N. apply (Sec i j f g Hf Hg). apply (Un i j); [split; eauto|split; eauto|congruence].
      * intros i j n a b (s & f & Hs & Hf & _ & E1 & _) (t & h' & v' & g & Ht & _ & _ & Hg & E2 & _). assert (f = g) by (apply (Un i j); [split; eauto|split; eauto|congruence]). pose proof (Sec i j f g Hf Hg H). subst j. assert (s = t) by (eapply sect_fun; [apply Hs|apply Ht]). subst t. destruct Hs as (_ & Hs), Ht as (_ & Ht). now apply (proj2 (proj2 (maps_names _ Hs))).
Qed.
(** The maps are those which the symbols and the BTF define, and no others. *)
Theorem C79_maps : forall ms, loadAllMaps o btf al ro so so' vo lo bo = Some (Ok ms) -> forall n mp, lookup n ms = Some mp <->
  exists i s y, object_symbol o i y /\ y_name y = n /\ ((legacy_section o i s /\ the_legacy o btf s y mp) \/ (btf_section o i s /\ the_btf_map o btf i s y mp)).
Proof.
  intros ms H n mp. destruct C79_core as (A & B). rewrite (B ms H n mp). pose proof (proj1 A (ex_intro _ ms H)) as (P & Q & _). split.
  - intros [(i & s & y & Hs & Hy & _ & E & T)|(i & D)]; [exists i, s, y; auto 6|]. apply (btfD_definition i n mp (Q i)) in D as (s & y & Hs & Hy & E & T). exists i, s, y. auto 6.
  - intros (i & s & y & Hy & E & [(Hs & T)|(Hs & T)]); [left; exists i, s, y; split; [exact Hs|]; split; [exact Hy|]; split; [|auto]|right; exists i; apply (btfD_definition i n mp (Q i)); eauto 6]. destruct (P i s Hs) as (S & _). apply (sl_syms _ _ _ _ S y Hy).
Qed.
(** Every symbol of a map section becomes a map. *)
Theorem C79_every_symbol : forall ms, loadAllMaps o btf al ro so so' vo lo bo = Some (Ok ms) -> forall i y, map_symbol o i y -> exists mp, lookup (y_name y) ms = Some mp.
Proof.
  intros ms H i y ((s & Hs) & Hy). destruct C79_core as (A & B). pose proof (proj1 A (ex_intro _ ms H)) as (P & Q & _). destruct Hs as [Hs|Hs].
  - destruct (legacy_has i s y (P i) Hs Hy) as (a & D). exists a. apply (B ms H). eauto.
  - destruct (btf_has i s y (Q i) Hs Hy) as (a & D). exists a. apply (B ms H). eauto.
Qed.
End C79.
(** Neither success nor the result depends on the order in which sections, symbols and variables are visited. *)
Theorem C79_order : forall o btf al ro lo bo lo2 bo2 so so' so2 so2' vo vo2 ms, regular o -> usual_maps o btf al -> Permutation ro (indices o) ->
  Permutation lo (indices o) -> Permutation bo (indices o) -> Permutation lo2 (indices o) -> Permutation bo2 (indices o) ->
  (forall i, Permutation (so i) (symbolsOf o i)) -> (forall i, Permutation (so' i) (symbolsOf o i)) -> (forall i, Permutation (so2 i) (symbolsOf o i)) -> (forall i, Permutation (so2' i) (symbolsOf o i)) ->
  (forall vars, Permutation (vo vars) vars) -> (forall vars, Permutation (vo2 vars) vars) -> loadAllMaps o btf al ro so so' vo lo bo = Some (Ok ms) ->
  exists ms', loadAllMaps o btf al ro so2 so2' vo2 lo2 bo2 = Some (Ok ms') /\ forall n, lookup n ms = lookup n ms'.
Proof.
  intros o btf al ro lo bo lo2 bo2 so so' so2 so2' vo vo2 ms R U Pr Pl Pb Pl2 Pb2 Ps Ps' Ps2 Ps2' Pv Pv2 H. assert (Hr : loadRelocations o ro = Some (Ok tt)) by (unfold loadAllMaps in H; destruct (loadRelocations o ro) as [[[]|]|]; [reflexivity|discriminate|discriminate]).
  destruct (C79_core o btf al ro lo bo so so' vo R U Pr Pl Pb Ps Ps' Pv Hr) as (A & B). destruct (C79_core o btf al ro lo2 bo2 so2 so2' vo2 R U Pr Pl2 Pb2 Ps2 Ps2' Pv2 Hr) as (A2 & B2).
  pose proof (proj2 A2 (proj1 A (ex_intro _ ms H))) as (ms' & H'). exists ms'. split; [exact H'|]. intros n. destruct (lookup n ms) as [a|] eqn:E.
  - symmetry. apply (B2 ms' H'). now apply (B ms H).
  - destruct (lookup n ms') as [a|] eqn:E'; [|reflexivity]. apply (B2 ms' H') in E'. apply (B ms H) in E'. congruence.
Qed.
Print Assumptions C79_loads.
Print Assumptions C79_maps.
Print Assumptions C79_every_symbol.
Print Assumptions C79_order.
