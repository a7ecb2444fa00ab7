(** C77: data sections and variables of an object file. *)
From Coq Require Import String Ascii Sorting.Sorted Permutation.
From Verif Require Import Base.GoInt Asm.Model Asm.Spec Elf.Programs Elf.ProgramsSpec Elf.ProgramsProof Elf.ProgramsStep Elf.PropsPrograms Elf.PropsProgramsLoad Elf.Data.
Open Scope string_scope. Open Scope list_scope. Open Scope Z_scope.

(** ** Specification *)
(** named symbols of type NOTYPE or OBJECT *)
Definition object_symbol (o : obj) (i : Z) (y : sym) : Prop := In y (o_syms o) /\ y_section y = i /\ y_name y <> "" /\ (y_type y = 0 \/ y_type y = 1).
(** a variable: global or weak, with default or protected visibility, and not internal to the compiler *)
Definition variable (o : obj) (i : Z) (y : sym) : Prop :=
  object_symbol o i y /\ (y_bind y = 1 \/ y_bind y = 2) /\ (y_other y mod 4 = 0 \/ y_other y mod 4 = 3) /\ ~ begins "." (y_name y).
(** a section which some instruction or map refers to, or which has symbols *)
Definition in_use (o : obj) (i : Z) : Prop := (exists k off y, loaded o k /\ relocated o k off y /\ y_section y = i) \/ exists y, object_symbol o i y.
(** PROGBITS and NOBITS *)
Definition contents (s : osec) (d : list Z) : Prop :=
  (o_type s = 1 /\ d = o_data s) \/ (o_type s = 8 /\ Z.of_nat (List.length d) = o_size s /\ Forall (eq 0) d).
(** BTF describes variable [n] of section [s] by [v] *)
Definition described (btf : option datasecs) (s : osec) (v : dvar) : Prop := exists b vs, btf = Some b /\ b (o_name s) = Some vs /\ In v vs.
Definition the_variable (btf : option datasecs) (s : osec) (d : list Z) (y : sym) (v : vspec) : Prop :=
  vs_section v = o_name s /\ vs_name v = y_name y /\ vs_off v = y_value y /\ vs_value v = firstn (Z.to_nat (y_size y)) (skipn (Z.to_nat (y_value y)) d) /\
  forall t, vs_type v = Some t <-> exists w, described btf s w /\ dv_name w = y_name y /\ dv_type w = t.
Definition the_map (btf : option datasecs) (s : osec) (d : list Z) (m : mspec) : Prop :=
  ms_name m = sanitizeName (o_name s) /\ ms_keysize m = 4 /\ ms_valuesize m = o_size s /\ ms_contents m = [(0, d)] /\
  (* BPF_F_RDONLY_PROG *) (ms_flags m = 128 \/ ms_flags m = 0) /\ (ms_flags m = 128 <-> begins ".rodata" (o_name s)) /\
  ms_btf m = match btf with Some b => b (o_name s) | None => None end.
(** what compilers guarantee (see C77_order_refuted for the third) *)
Record usual_data (o : obj) (btf : option datasecs) : Prop := {
  ud_alias : forall i s f g, data_section o i s -> object_symbol o i f -> object_symbol o i g -> y_value f = y_value g -> f = g;
  ud_names : forall i j s t, data_section o i s -> data_section o j t -> o_name s = o_name t -> i = j;
  ud_btf : forall i j s t v y, data_section o i s -> described btf s v -> data_section o j t -> variable o j y -> y_name y = dv_name v -> j = i;
  ud_once : forall i s v w, data_section o i s -> described btf s v -> described btf s w -> dv_name v = dv_name w -> v = w }.
(** a section without errors *)
Record sound_section (o : obj) (btf : option datasecs) (i : Z) (s : osec) : Prop := {
  ss_size : o_size s < 2 ^ 32;
  ss_type : o_type s = 1 \/ o_type s = 8;
  ss_bounds : forall y, variable o i y -> y_value y + y_size y <= o_size s;
  ss_btf : forall v, described btf s v -> dv_name v <> "" /\ dv_var v = true /\ forall y, variable o i y -> y_name y = dv_name v -> dv_off v = y_value y /\ dv_size v = y_size y }.

(** ** Proof *)
(** symbols *)
Lemma keep_data : forall y, keepSym KData y = true <-> y_name y <> "" /\ (y_type y = 0 \/ y_type y = 1).
Proof. intros y. unfold keepSym, STT_NOTYPE, STT_OBJECT. destruct (String.eqb_spec (y_name y) ""); cbn [negb andb]; [split; [discriminate|tauto]|]. split; [intros H; split; [assumption|lia]|lia]. Qed.
Lemma data_symbols : forall o btf i s g, usual_data o btf -> data_section o i s -> In g (symbolsOf o i) <-> object_symbol o i g.
Proof.
  intros o btf i s g U Hs. assert (K : kindAt o i = Some KData) by (apply kind_data; eauto).
  assert (Kp : forall y, ((y_section y =? i) && keepSym KData y) = true <-> y_section y = i /\ y_name y <> "" /\ (y_type y = 0 \/ y_type y = 1)). { intros y. rewrite andb_true_iff, keep_data, Z.eqb_eq. tauto. }
  split.
  - intros H. apply sorted_In in H; [|apply symbols_sorted]. unfold symbolsOf in H. rewrite K in H. apply (fold_symAt (fun y => (y_section y =? i) && keepSym KData y)) in H as [(H1 & H2 & H3)|H]; [|discriminate]. apply Kp in H2. unfold object_symbol. tauto.
  - intros (H1 & H2). pose proof (fold_symAt_some (fun y => (y_section y =? i) && keepSym KData y) (o_syms o) [] (y_value g) g (or_intror (conj H1 (conj (proj2 (Kp g) H2) eq_refl)))) as N.
    assert (E : exists f, symAt (symbolsOf o i) (y_value g) = Some f). { unfold symbolsOf. rewrite K. destruct (symAt _ (y_value g)) as [f|] eqn:E in |- *; [eauto|contradiction]. }
    destruct E as (f & E). pose proof (symAt_In _ _ _ E) as (I & V). unfold symbolsOf in E. rewrite K in E. apply (fold_symAt (fun y => (y_section y =? i) && keepSym KData y)) in E as [(F1 & F2 & F3)|E]; [|discriminate]. apply Kp in F2.
    assert (f = g) by (apply (ud_alias o btf U i s); [exact Hs|split; assumption|split; assumption|exact V]). now subst.
Qed.
Lemma referenced_spec : forall o i, regular o -> (forall k, exists m, relocationsOf o k = Some (Ok m)) -> referenced o i = true <-> exists k off y, loaded o k /\ relocated o k off y /\ y_section y = i.
Proof.
  intros o i R Hr. unfold referenced. rewrite existsb_exists. split.
  - intros (s & Hs & H). destruct (classify s) eqn:C; try discriminate. destruct (Hr (o_info s)) as (m & Em). rewrite Em in H. apply existsb_exists in H as ((a & y0) & Hp & H). cbn [fst] in H. destruct (relAt m a) as [y|] eqn:Ey; [|discriminate]. apply Z.eqb_eq in H.
    destruct (kindAt o (o_info s)) as [k|] eqn:K; [|unfold relocationsOf in Em; rewrite K in Em; injection Em as <-; destruct Hp]. exists (o_info s), a, y. split; [apply kind_loaded; eauto|]. split; [|exact H]. eapply relocations_kind; eassumption.
  - intros (k & off & y & Hl & Hy & E). destruct Hy as (s & es & e & (Hs & Q1 & Q2 & Q3) & Q). exists s. split; [exact Hs|]. assert (C : classify s = CRel) by (apply classify_spec; auto). rewrite C, Q3. destruct (Hr k) as (m & Em). rewrite Em.
    apply kind_loaded in Hl as (kk & K); [|exact R]. assert (X : relAt m off = Some y) by (eapply relocations_kind; try eassumption; exists s, es, e; split; [split; auto|exact Q]). apply existsb_exists. exists (off, y). split; [|cbn [fst]; rewrite X; now apply Z.eqb_eq].
    clear -X. induction m as [|(a, z) m IH]; [discriminate|]. cbn [relAt] in X. destruct (Z.eqb_spec a off) as [->|]; [injection X as ->; now left|right; auto].
Qed.
Definition isVar (y : sym) : bool := negb ((visibility y =? STV_HIDDEN) || (visibility y =? STV_INTERNAL)) && negb (negb (y_bind y =? STB_GLOBAL) && negb (y_bind y =? STB_WEAK)) && negb (prefix "." (y_name y)).
Lemma isVar_spec : forall o i y, object_symbol o i y -> isVar y = true <-> variable o i y.
Proof.
  intros o i y H. unfold isVar, variable, visibility, STV_HIDDEN, STV_INTERNAL, STB_GLOBAL, STB_WEAK. replace (Z.land (y_other y) 3) with (y_other y mod 4) by (symmetry; apply (Z.land_ones (y_other y) 2); lia). rewrite !andb_true_iff, !negb_true_iff. rewrite prefix_false. pose proof (Z.mod_pos_bound (y_other y) 4 ltac:(lia)). split.
  - intros ((A & B) & C). split; [exact H|]. split; [lia|]. split; [lia|exact C].
  - intros (_ & A & B & C). split; [split; lia|exact C].
Qed.

Section AddVars.
Variables (sect : string) (data : list Z).
Hypothesis Hlen : Z.of_nat (List.length data) < 2 ^ 32.
Definition mkv (y : sym) : vspec := mkVspec sect (y_name y) (y_value y) (firstn (Z.to_nat (y_size y)) (skipn (Z.to_nat (y_value y)) data)) None.
Definition no_dots (vars : list (string * vspec)) : Prop := forall n v, lookup n vars = Some v -> ~ begins "." n.
Lemma addVars_spec : forall syms vars, (forall y, In y syms -> in_u 64 (y_value y) /\ in_u 64 (y_size y)) -> no_dots vars ->
  ((exists r, addVars sect data syms vars = Ok r) <->
   (forall y, In y syms -> isVar y = true -> y_value y + y_size y <= Z.of_nat (List.length data)) /\ NoDup (map y_name (filter isVar syms)) /\ forall y, In y syms -> isVar y = true -> lookup (y_name y) vars = None) /\
  (forall r, addVars sect data syms vars = Ok r -> no_dots r /\ forall n v, lookup n r = Some v <-> (exists y, In y syms /\ isVar y = true /\ y_name y = n /\ v = mkv y) \/ lookup n vars = Some v).
Proof.
  induction syms as [|y syms IH]; intros vars Hu Hd; cbn [addVars filter].
  - split; [split; [intros _; split; [intros ? []|]; split; [constructor|intros ? []]|eauto]|]. intros r H. injection H as <-. split; [exact Hd|]. intros n v. split; [auto|intros [(y & [] & _)|H]; exact H].
  - assert (Skip : isVar y = false ->
      ((exists r, addVars sect data syms vars = Ok r) <->
       (forall z, In z (y :: syms) -> isVar z = true -> y_value z + y_size z <= Z.of_nat (List.length data)) /\ NoDup (map y_name (filter isVar syms)) /\ forall z, In z (y :: syms) -> isVar z = true -> lookup (y_name z) vars = None) /\
      (forall r, addVars sect data syms vars = Ok r -> no_dots r /\ forall n v, lookup n r = Some v <-> (exists z, In z (y :: syms) /\ isVar z = true /\ y_name z = n /\ v = mkv z) \/ lookup n vars = Some v)).
    { intros Nv. destruct (IH vars (fun z Hz => Hu z (or_intror Hz)) Hd) as (A & B). split.
      - rewrite A. split; intros (C1 & C2 & C3); (split; [|split; [exact C2|]]); intros z Hz V; first [apply C1|apply C3]; auto; try (now right); destruct Hz as [<-|Hz]; auto; congruence.
      - intros r H. destruct (B r H) as (B1 & B2). split; [exact B1|]. intros n v. rewrite B2. split; (intros [(z & Hz & Q)|Q]; [left|now right]).
        + exists z. split; [now right|exact Q].
        + exists z. split; [|exact Q]. destruct Hz as [<-|Hz]; [destruct Q; congruence|exact Hz]. }
    destruct ((visibility y =? STV_HIDDEN) || (visibility y =? STV_INTERNAL)) eqn:E1; [assert (Nv : isVar y = false) by (unfold isVar; rewrite E1; reflexivity); rewrite Nv; auto|].
    destruct (negb (y_bind y =? STB_GLOBAL) && negb (y_bind y =? STB_WEAK)) eqn:E2; [assert (Nv : isVar y = false) by (unfold isVar; rewrite E1, E2; reflexivity); rewrite Nv; auto|].
    destruct (prefix "." (y_name y)) eqn:E3.
    { assert (Nv : isVar y = false) by (unfold isVar; rewrite E1, E2, E3; reflexivity). rewrite Nv. destruct (lookup (y_name y) vars) as [v|] eqn:El; [|auto]. apply Hd in El. apply prefix_spec in E3. contradiction. }
    assert (V : isVar y = true) by (unfold isVar; rewrite E1, E2, E3; reflexivity). rewrite V. cbn [map].
    destruct (lookup (y_name y) vars) as [v0|] eqn:El.
    { split; [|discriminate]. split; [intros (r & H); discriminate|]. intros (_ & _ & C). specialize (C y (or_introl eq_refl) V). congruence. }
    destruct (Hu y (or_introl eq_refl)) as (U1 & U2). unfold in_u in U1, U2.
    destruct (Z.leb_spec (y_value y + y_size y) (Z.of_nat (List.length data))) as [Lb|Lb].
    + rewrite u64_small by lia. destruct (Z.ltb_spec (Z.of_nat (List.length data)) (y_value y + y_size y)); [lia|]. destruct (Z.ltb_spec (2 ^ 32 - 1) (y_value y)); [lia|]. destruct (Z.ltb_spec (2 ^ 32 - 1) (y_size y)); [lia|]. rewrite u32_small by lia. fold (mkv y).
      assert (Hd' : no_dots ((y_name y, mkv y) :: vars)). { intros n v. cbn [lookup]. destruct (String.eqb_spec n (y_name y)) as [->|]; [intros _; now apply prefix_false|apply Hd]. }
      destruct (IH ((y_name y, mkv y) :: vars) (fun z Hz => Hu z (or_intror Hz)) Hd') as (A & B). split.
      * rewrite A. split.
        -- intros (C1 & C2 & C3). split; [intros z [<-|Hz] Vz; auto|]. split.
           ++ constructor; [|exact C2]. intros I. apply in_map_iff in I as (z & Ez & Hz). apply filter_In in Hz as (Hz & Vz). specialize (C3 z Hz Vz). cbn [lookup] in C3. rewrite Ez, String.eqb_refl in C3. discriminate.
           ++ intros z [<-|Hz] Vz; [exact El|]. specialize (C3 z Hz Vz). cbn [lookup] in C3. destruct (String.eqb (y_name z) (y_name y)); [discriminate|exact C3].
        -- intros (C1 & C2 & C3). inversion C2 as [|? ? Nin C2']; subst. split; [intros z Hz; apply C1; now right|]. split; [exact C2'|]. intros z Hz Vz. cbn [lookup]. destruct (String.eqb_spec (y_name z) (y_name y)) as [Ez|]; [|apply C3; auto; now right].
           exfalso. apply Nin. rewrite <- Ez. apply List.in_map. apply filter_In. auto.
      * intros r H'. destruct (B r H') as (B1 & B2). split; [exact B1|]. intros n v. rewrite B2. cbn [lookup]. split.
        -- intros [(z & Hz & Q)|Q]; [left; exists z; split; [now right|exact Q]|]. destruct (String.eqb_spec n (y_name y)) as [->|]; [|now right]. injection Q as <-. left. exists y. split; [now left|auto].
        -- intros [(z & [<-|Hz] & Vz & En & Ev)|Q]; [right; rewrite <- En, String.eqb_refl; now f_equal|left; eauto|]. right. destruct (String.eqb_spec n (y_name y)) as [->|]; [congruence|exact Q].
    + split.
      * split; [|intros (C & _); specialize (C y (or_introl eq_refl) V); lia]. intros (r & H). exfalso. destruct (Z.ltb_spec (Z.of_nat (List.length data)) (u64 (y_value y + y_size y))); [discriminate|]. destruct (Z.ltb_spec (2 ^ 32 - 1) (y_value y)); [discriminate|]. destruct (Z.ltb_spec (2 ^ 32 - 1) (y_size y)); [discriminate|]. rewrite u64_small in * by lia. lia.
      * intros r H. exfalso. destruct (Z.ltb_spec (Z.of_nat (List.length data)) (u64 (y_value y + y_size y))); [discriminate|]. destruct (Z.ltb_spec (2 ^ 32 - 1) (y_value y)); [discriminate|]. destruct (Z.ltb_spec (2 ^ 32 - 1) (y_size y)); [discriminate|]. rewrite u64_small in * by lia. lia.
Qed.
End AddVars.

(** types *)
Lemma lookup_setVar : forall vars n t k, lookup k (setVar vars n t) = if String.eqb k n then match lookup k vars with Some v => Some (setType v t) | None => None end else lookup k vars.
Proof.
  induction vars as [|(m, v) vars IH]; intros n t k; cbn [setVar lookup]; [now destruct (String.eqb k n)|]. destruct (String.eqb_spec n m) as [->|N]; cbn [lookup].
  - destruct (String.eqb_spec k m); reflexivity.
  - rewrite IH. destruct (String.eqb_spec k m) as [->|]; [|reflexivity]. destruct (String.eqb_spec m n); [congruence|reflexivity].
Qed.
Definition matches (vars : list (string * vspec)) (v : dvar) : Prop :=
  dv_name v <> "" /\ dv_var v = true /\ forall ev, lookup (dv_name v) vars = Some ev -> dv_off v = vs_off ev /\ dv_size v = u32 (Z.of_nat (List.length (vs_value ev))).
Definition retyped (ds : list dvar) (n : string) (a b : vspec) : Prop :=
  vs_section b = vs_section a /\ vs_name b = vs_name a /\ vs_off b = vs_off a /\ vs_value b = vs_value a /\
  ((vs_type b = vs_type a /\ forall v, In v ds -> dv_name v <> n) \/ exists v, In v ds /\ dv_name v = n /\ vs_type b = Some (dv_type v)).
Lemma typeVars_spec : forall ds vars, ((exists r, typeVars ds vars = Ok r) <-> forall v, In v ds -> matches vars v) /\
  (forall r, typeVars ds vars = Ok r -> forall n, match lookup n vars with None => lookup n r = None | Some a => exists b, lookup n r = Some b /\ retyped ds n a b end).
Proof.
  induction ds as [|v ds IH]; intros vars; cbn [typeVars].
  - split; [split; [intros _ v []|eauto]|]. intros r H. injection H as <-. intros n. destruct (lookup n vars) as [a|] eqn:E; [|reflexivity]. exists a. repeat split; auto.
  - destruct (String.eqb_spec (dv_name v) "") as [E0|E0].
    { split; [|discriminate]. split; [intros (r & H); discriminate|]. intros H. destruct (H v (or_introl eq_refl)). contradiction. }
    destruct (dv_var v) eqn:Ev; cbn [negb].
    2:{ split; [|discriminate]. split; [intros (r & H); discriminate|]. intros H. destruct (H v (or_introl eq_refl)) as (_ & Q & _). congruence. }
    destruct (lookup (dv_name v) vars) as [ev|] eqn:El.
    + destruct (Z.eqb_spec (dv_off v) (vs_off ev)) as [Eo|Eo]; cbn [negb].
      2:{ split; [|discriminate]. split; [intros (r & H); discriminate|]. intros H. destruct (H v (or_introl eq_refl)) as (_ & _ & Q). destruct (Q ev El). contradiction. }
      destruct (Z.eqb_spec (dv_size v) (u32 (Z.of_nat (List.length (vs_value ev))))) as [Es|Es]; cbn [negb].
      2:{ split; [|discriminate]. split; [intros (r & H); discriminate|]. intros H. destruct (H v (or_introl eq_refl)) as (_ & _ & Q). destruct (Q ev El). contradiction. }
      destruct (IH (setVar vars (dv_name v) (dv_type v))) as (A & B).
      assert (Mt : forall w, matches (setVar vars (dv_name v) (dv_type v)) w <-> matches vars w).
      { intros w. unfold matches. rewrite lookup_setVar. destruct (String.eqb_spec (dv_name w) (dv_name v)) as [E|E]; [|tauto]. rewrite E, El. split; intros (Q1 & Q2 & Q3); (split; [auto|]; split; [auto|]); intros e He; injection He as <-; [apply (Q3 (setType ev (dv_type v)) eq_refl)|apply (Q3 ev eq_refl)]. }
      split.
      * rewrite A. split; intros H w Hw; [destruct Hw as [<-|Hw]; [|apply Mt; auto]|apply Mt; apply H; now right]. split; [exact E0|]. split; [exact Ev|]. intros e He. rewrite El in He. injection He as <-. auto.
      * intros r H n. specialize (B r H n). rewrite lookup_setVar in B. destruct (String.eqb_spec n (dv_name v)) as [En|N].
        -- rewrite En in *. rewrite El in *. destruct B as (b & Hb & B1 & B2 & B3 & B4 & B5). exists b. split; [exact Hb|]. cbn [setType vs_section vs_name vs_off vs_value vs_type] in *. split; [exact B1|]. split; [exact B2|]. split; [exact B3|]. split; [exact B4|]. right. destruct B5 as [(B5 & _)|(w & Hw & Q)]; [exists v; split; [now left|auto]|exists w; split; [now right|exact Q]].
        -- destruct (lookup n vars) as [a|]; [|exact B]. destruct B as (b & Hb & B1 & B2 & B3 & B4 & B5). exists b. split; [exact Hb|]. split; [exact B1|]. split; [exact B2|]. split; [exact B3|]. split; [exact B4|]. destruct B5 as [(B5 & B6)|(w & Hw & Q)]; [left; split; [exact B5|]; intros w [<-|Hw]; [congruence|auto]|right; exists w; split; [now right|exact Q]].
    + destruct (IH vars) as (A & B). split.
      * rewrite A. split; intros H w Hw; [destruct Hw as [<-|Hw]; [|auto]|apply H; now right]. split; [exact E0|]. split; [exact Ev|]. intros e He. congruence.
      * intros r H n. specialize (B r H n). destruct (lookup n vars) as [a|] eqn:En; [|exact B]. destruct B as (b & Hb & B1 & B2 & B3 & B4 & B5). exists b. split; [exact Hb|]. split; [exact B1|]. split; [exact B2|]. split; [exact B3|]. split; [exact B4|]. destruct B5 as [(B5 & B6)|(w & Hw & Q)]; [left; split; [exact B5|]; intros w [<-|Hw]; [congruence|auto]|right; exists w; split; [now right|exact Q]].
Qed.

(** ** All sections *)
Section Load.
Variables (o : obj) (btf : option datasecs) (so : Z -> list sym).
Hypothesis (R : regular o) (U : usual_data o btf) (Hrel : forall k, exists m, relocationsOf o k = Some (Ok m)).
Hypothesis Hso : forall i, Permutation (so i) (symbolsOf o i).

Lemma so_In : forall i s y, data_section o i s -> In y (so i) <-> object_symbol o i y.
Proof. intros i s y Hs. rewrite <- (data_symbols o btf i s y U Hs). split; apply Permutation_in; [apply Hso|apply Permutation_sym; apply Hso]. Qed.
Lemma so_var : forall i s y, data_section o i s -> (In y (so i) /\ isVar y = true) <-> variable o i y.
Proof. intros i s y Hs. rewrite (so_In i s y Hs). split; [intros (A & B); now apply (isVar_spec o i)|]. intros V. split; [apply V|]. apply (isVar_spec o i); [apply V|exact V]. Qed.
Lemma use_spec : forall i s, data_section o i s -> negb (referenced o i) && match symbolsOf o i with [] => true | _ => false end = false <-> in_use o i.
Proof.
  intros i s Hs. rewrite andb_false_iff, negb_false_iff, (referenced_spec o i R Hrel). unfold in_use. split; (intros [H|H]; [now left|right]).
  - destruct (symbolsOf o i) as [|y l] eqn:E; [discriminate|]. exists y. apply (data_symbols o btf i s y U Hs). rewrite E. now left.
  - destruct H as (y & H). apply (data_symbols o btf i s y U Hs) in H. destruct (symbolsOf o i); [destruct H|reflexivity].
Qed.
(** the state after the sections [D] *)
Definition var_inv (D : list Z) (vars : list (string * vspec)) : Prop :=
  forall n v, lookup n vars = Some v <-> exists i s y d, In i D /\ data_section o i s /\ variable o i y /\ y_name y = n /\ contents s d /\ the_variable btf s d y v.
Definition all_vars (D : list Z) (vars : list (string * vspec)) : Prop := forall i s y, In i D -> data_section o i s -> variable o i y -> exists v, lookup (y_name y) vars = Some v.
Definition map_inv (D : list Z) (maps : list (string * mspec)) : Prop :=
  forall n m, lookup n maps = Some m <-> exists i s d, In i D /\ data_section o i s /\ in_use o i /\ o_name s = n /\ contents s d /\ the_map btf s d m.
Lemma contents_fun : forall s d d', contents s d -> contents s d' -> d = d'.
Proof.
  intros s d d' [(A & ->)|(A & L & F)] [(B & ->)|(B & L' & F')]; try congruence. assert (E : List.length d = List.length d') by lia. clear -E F F'. revert d' E F'. induction F as [|a d Ha F IH]; intros d' E F'; destruct F' as [|b d' Hb F']; try discriminate; [reflexivity|]. subst. f_equal. apply IH; [now injection E|exact F'].
Qed.
Lemma the_variable_fun : forall s d y v v', the_variable btf s d y v -> the_variable btf s d y v' -> v = v'.
Proof.
  intros s d y [a1 a2 a3 a4 a5] [b1 b2 b3 b4 b5] (A1 & A2 & A3 & A4 & A5) (B1 & B2 & B3 & B4 & B5). cbn [vs_section vs_name vs_off vs_value vs_type] in *. subst. f_equal. destruct a5 as [t|].
  - symmetry. apply B5. now apply A5.
  - destruct b5 as [t|]; [|reflexivity]. apply A5. now apply B5.
Qed.
Lemma the_map_fun : forall s d m m', the_map btf s d m -> the_map btf s d m' -> m = m'.
Proof.
  intros s d [a1 a2 a3 a4 a5 a6] [b1 b2 b3 b4 b5 b6] (A1 & A2 & A3 & A4 & A5 & A6 & A7) (B1 & B2 & B3 & B4 & B5 & B6 & B7). cbn [ms_name ms_keysize ms_valuesize ms_flags ms_contents ms_btf] in *. subst. f_equal. rewrite <- B6 in A6. lia.
Qed.
Lemma data_spec_ok : forall i s, data_section o i s -> (exists d, sectionData s = Ok d) <-> (o_type s = 1 \/ o_type s = 8).
Proof.
  intros i s (Hs & _). destruct (rg_data o R i s Hs) as (_ & L & B). unfold sectionData, SHT_PROGBITS, SHT_NOBITS. destruct (Z.eqb_spec (o_type s) 1) as [E|E].
  - rewrite <- L by auto. rewrite Z.eqb_refl. split; eauto.
  - destruct (Z.eqb_spec (o_type s) 8) as [E'|E']; [split; eauto|]. split; [intros (d & H); discriminate|lia].
Qed.
Lemma data_contents : forall i s d, data_section o i s -> sectionData s = Ok d -> contents s d /\ Z.of_nat (List.length d) = o_size s.
Proof.
  intros i s d (Hs & _). destruct (rg_data o R i s Hs) as (_ & L & B). unfold sectionData, SHT_PROGBITS, SHT_NOBITS, contents. destruct (Z.eqb_spec (o_type s) 1) as [E|E].
  - rewrite <- L by auto. rewrite Z.eqb_refl. intros H. injection H as <-. split; [auto|]. rewrite L; auto.
  - destruct (Z.eqb_spec (o_type s) 8) as [E'|E']; [|discriminate]. intros H. injection H as <-. rewrite repeat_length, Z2Nat.id by lia. split; [|reflexivity]. right. split; [exact E'|]. split; [reflexivity|]. apply Forall_forall. intros x Hx. now apply repeat_spec in Hx.
Qed.
Definition distinct (i : Z) : Prop := forall f g, variable o i f -> variable o i g -> y_name f = y_name g -> f = g.
Definition apart (i : Z) (D : list Z) : Prop := forall j t f g, In j D -> data_section o j t -> variable o i f -> variable o j g -> y_name f <> y_name g.
Lemma so_NoDup : forall i, NoDup (so i).
Proof. intros i. eapply Permutation_NoDup; [apply Permutation_sym; apply Hso|]. pose proof (symbols_sorted o i) as Ss. induction Ss as [|y l Ss IH Fa]; constructor; [|exact IH]. intros I. rewrite Forall_forall in Fa. specialize (Fa y I). unfold below in Fa. lia. Qed.
Lemma distinct_NoDup : forall i s, data_section o i s -> NoDup (map y_name (filter isVar (so i))) <-> distinct i.
Proof.
  intros i s Hs. split.
  - intros Nd f g Hf Hg E. apply (NoDup_inj _ _ _ _ _ _ Nd); [| |exact E]; apply filter_In; now apply (so_var i s).
  - intros H. apply map_NoDup; [apply NoDup_filter; apply so_NoDup|]. intros f g Hf Hg E. apply filter_In in Hf, Hg. apply H; [now apply (so_var i s)|now apply (so_var i s)|exact E].
Qed.
Lemma no_dots_inv : forall D vars, var_inv D vars -> no_dots vars.
Proof. intros D vars H n v E. apply H in E as (i & s & y & d & _ & _ & V & <- & _). apply V. Qed.

(** one section *)
Lemma loadData_spec : forall D vars maps i s, var_inv D vars -> all_vars D vars -> map_inv D maps -> data_section o i s -> ~ In i D ->
  ((exists st, loadData o btf so i s (vars, maps) = Ok st) <-> (in_use o i -> sound_section o btf i s /\ distinct i /\ apart i D)) /\
  (forall vars' maps', loadData o btf so i s (vars, maps) = Ok (vars', maps') -> var_inv (i :: D) vars' /\ all_vars (i :: D) vars' /\ map_inv (i :: D) maps').
Proof.
  intros D vars maps i s Iv Ia Im Hs Nin. unfold loadData. pose proof (use_spec i s Hs) as Us. destruct (rg_data o R i s (proj1 Hs)) as (_ & _ & Sz).
  destruct (negb (referenced o i) && match symbolsOf o i with [] => true | _ => false end) eqn:Eu.
  { assert (Nu : ~ in_use o i) by (intros Q; apply Us in Q; discriminate). split; [split; [intros _ Q; contradiction|eauto]|]. intros vars' maps' H. injection H as <- <-. split; [|split].
    - intros n v. rewrite (Iv n v). split; intros (j & t & y & d & Hj & Q); exists j, t, y, d; (split; [|exact Q]); [now right|]. destruct Hj as [<-|Hj]; [|exact Hj]. exfalso. apply Nu. right. exists y. apply Q.
    - intros j t y [<-|Hj] Ht V; [exfalso; apply Nu; right; exists y; apply V|eauto].
    - intros n m. rewrite (Im n m). split; intros (j & t & d & Hj & Ht & Q); exists j, t, d; (split; [|split; [exact Ht|exact Q]]); [now right|]. destruct Hj as [<-|Hj]; [|exact Hj]. exfalso. apply Nu. apply Q. }
  assert (Iu : in_use o i) by now apply Us. destruct (Z.ltb_spec (2 ^ 32 - 1) (o_size s)) as [Ls|Ls].
  { split; [|discriminate]. split; [intros (st & H); discriminate|]. intros H. destruct (H Iu) as (S & _). pose proof (ss_size _ _ _ _ S). lia. }
  destruct (sectionData s) as [d|e] eqn:Ed.
  2:{ split; [|discriminate]. split; [intros (st & H); discriminate|]. intros H. destruct (H Iu) as (S & _). pose proof (ss_type _ _ _ _ S) as T. apply (data_spec_ok i s Hs) in T as (d & T). congruence. }
  destruct (data_contents i s d Hs Ed) as (Hc & Hl). pose proof (proj1 (data_spec_ok i s Hs) (ex_intro _ d Ed)) as Ht.
  assert (Hu : forall y, In y (so i) -> in_u 64 (y_value y) /\ in_u 64 (y_size y)). { intros y Hy. apply (so_In i s y Hs) in Hy. destruct (rg_syms o R y (proj1 Hy)) as (_ & A & B & _). auto. }
  destruct (addVars_spec (o_name s) d ltac:(lia) (so i) vars Hu (no_dots_inv D vars Iv)) as (Aok & Ares). rewrite Hl in Aok.
  (* what adding the variables needs *)
  assert (An : (exists r, addVars (o_name s) d (so i) vars = Ok r) <-> (forall y, variable o i y -> y_value y + y_size y <= o_size s) /\ distinct i /\ apart i D).
  { rewrite Aok, (distinct_NoDup i s Hs). split; intros (A & B & C); (split; [|split; [exact B|]]).
    - intros y V. apply (so_var i s y Hs) in V as (V1 & V2). auto.
    - intros j t f g Hj Hd Vf Vg E. apply (so_var i s f Hs) in Vf as (V1 & V2). specialize (C f V1 V2). destruct (Ia j t g Hj Hd Vg) as (v & Ev). congruence.
    - intros y H V. assert (Vy : variable o i y) by (apply (so_var i s y Hs); auto). auto.
    - intros y H V. assert (Vy : variable o i y) by (apply (so_var i s y Hs); auto). destruct (lookup (y_name y) vars) as [v|] eqn:El; [|reflexivity]. apply Iv in El as (j & t & g & dj & Hj & Hd & Vg & E & _). destruct (C j t y g Hj Hd Vy Vg). congruence. }
  destruct (addVars (o_name s) d (so i) vars) as [vars1|e] eqn:Ea.
  2:{ split; [|discriminate]. split; [intros (st & H); discriminate|]. intros H. destruct (H Iu) as (S & Q). assert (X : exists r, Err e = Ok r :> res derr (list (string * vspec))) by (apply An; split; [apply (ss_bounds _ _ _ _ S)|exact Q]). destruct X as (r & X). discriminate. }
  destruct (proj1 An (ex_intro _ vars1 eq_refl)) as (Bd & Di & Ap). destruct (Ares vars1 eq_refl) as (_ & Hlk). clear Aok Ares An.
  assert (Hm : the_map btf s d (mkMspec (sanitizeName (o_name s)) 4 (u32 (o_size s)) (if prefix ".rodata" (o_name s) then BPF_F_RDONLY_PROG else 0) [(0, d)] match btf with Some b => b (o_name s) | None => None end)).
  { unfold the_map. cbn [ms_name ms_keysize ms_valuesize ms_flags ms_contents ms_btf]. rewrite u32_small by lia. repeat (split; [reflexivity|]). unfold BPF_F_RDONLY_PROG. destruct (prefix ".rodata" (o_name s)) eqn:Ep; [apply prefix_spec in Ep|apply prefix_false in Ep]; (split; [auto|]); (split; [|reflexivity]); split; intros Q; auto; try discriminate; contradiction. }
  assert (Im' : map_inv (i :: D) ((o_name s, mkMspec (sanitizeName (o_name s)) 4 (u32 (o_size s)) (if prefix ".rodata" (o_name s) then BPF_F_RDONLY_PROG else 0) [(0, d)] match btf with Some b => b (o_name s) | None => None end) :: maps)).
  { intros n m. cbn [lookup]. destruct (String.eqb_spec n (o_name s)) as [->|N].
    - split; [intros Q; injection Q as <-; exists i, s, d; split; [now left|auto 6]|]. intros (j & t & dj & Hj & Htj & _ & En & Cj & Mj). assert (j = i) by (eapply (ud_names o btf U); eassumption). subst j. assert (t = s) by (eapply sect_fun; [apply Htj|apply Hs]). subst t. assert (dj = d) by (eapply contents_fun; eassumption). subst dj. f_equal. eapply the_map_fun; eassumption.
    - rewrite (Im n m). split; intros (j & t & dj & Hj & Htj & Q); exists j, t, dj; (split; [|split; [exact Htj|exact Q]]); [now right|]. destruct Hj as [<-|Hj]; [|exact Hj]. assert (t = s) by (eapply sect_fun; [apply Htj|apply Hs]). subst t. destruct Q as (_ & Q & _). congruence. }
  set (ds := match btf with Some b => b (o_name s) | None => None end) in *.
  assert (Ds : forall v, described btf s v <-> exists vs, ds = Some vs /\ In v vs). { intros v. unfold described, ds. destruct btf as [b|]; [|split; [intros (b & vs & Q & _); discriminate|intros (vs & Q & _); discriminate]]. split; [intros (b' & vs & Q & Q'); injection Q as ->; eauto|intros (vs & Q); eauto]. }
  (* looking up a variable named in the data section *)
  assert (Own : forall v a, described btf s v -> lookup (dv_name v) vars1 = Some a -> exists y, variable o i y /\ y_name y = dv_name v /\ a = mkv (o_name s) d y).
  { intros v a Dv El. apply Hlk in El as [(y & Hy & V & E & ->)|El]; [exists y; split; [apply (so_var i s y Hs); auto|auto]|]. apply Iv in El as (j & t & y & dj & Hj & Htj & Vj & E & _). assert (j = i) by (eapply (ud_btf o btf U i j s t v y); eassumption). subst j. contradiction. }
  assert (Sok : (match ds with Some vs => forall v, In v vs -> matches vars1 v | None => True end) <-> forall v, described btf s v -> dv_name v <> "" /\ dv_var v = true /\ forall y, variable o i y -> y_name y = dv_name v -> dv_off v = y_value y /\ dv_size v = y_size y).
  { assert (Lv : forall y, variable o i y -> lookup (y_name y) vars1 = Some (mkv (o_name s) d y)) by (intros y V; apply Hlk; left; exists y; apply (so_var i s y Hs) in V; tauto).
    assert (Sv : forall y, variable o i y -> u32 (Z.of_nat (List.length (vs_value (mkv (o_name s) d y)))) = y_size y).
    { intros y V. specialize (Bd y V). destruct (rg_syms o R y (proj1 (proj1 V))) as (_ & V1 & V2 & _). unfold in_u in *. unfold mkv. cbn [vs_value]. rewrite firstn_length, skipn_length. rewrite Nat.min_l by lia. rewrite Z2Nat.id by lia. apply u32_small. lia. }
    split.
    - intros H v Dv. pose proof (proj1 (Ds v) Dv) as (vs & Ev & Iv'). rewrite Ev in H. destruct (H v Iv') as (M1 & M2 & M3). split; [exact M1|]. split; [exact M2|]. intros y V E. specialize (M3 (mkv (o_name s) d y)). rewrite <- E in M3. specialize (M3 (Lv y V)). rewrite (Sv y V) in M3. exact M3.
    - intros H. destruct ds as [vs|] eqn:Ev; [|exact I]. intros v Hv. assert (Dv : described btf s v) by (apply Ds; eauto). destruct (H v Dv) as (M1 & M2 & M3). split; [exact M1|]. split; [exact M2|]. intros ev El. destruct (Own v ev Dv El) as (y & V & E & ->). rewrite (Sv y V). now apply M3. }
  assert (Fin : forall vars', (forall n, match lookup n vars1 with None => lookup n vars' = None | Some a => exists b, lookup n vars' = Some b /\ retyped (match ds with Some vs => vs | None => [] end) n a b end) -> var_inv (i :: D) vars' /\ all_vars (i :: D) vars').
  { intros vars' Hr. 
    assert (New : forall y, variable o i y -> exists b, lookup (y_name y) vars' = Some b /\ the_variable btf s d y b).
    { intros y V. specialize (Hr (y_name y)). assert (El : lookup (y_name y) vars1 = Some (mkv (o_name s) d y)) by (apply Hlk; left; exists y; apply (so_var i s y Hs) in V; tauto). rewrite El in Hr. destruct Hr as (b & Hb & R1 & R2 & R3 & R4 & R5). exists b. split; [exact Hb|]. unfold mkv in *. cbn [vs_section vs_name vs_off vs_value vs_type] in *. split; [exact R1|]. split; [exact R2|]. split; [exact R3|]. split; [exact R4|]. intros t. destruct R5 as [(R5 & N)|(w & Hw & E & R5)]; rewrite R5.
      - split; [discriminate|]. intros (w & Dw & E & _). apply Ds in Dw as (vs & Ev & Hw). rewrite Ev in N. exfalso. exact (N w Hw E).
      - assert (Dw : described btf s w) by (apply Ds; destruct ds as [vs|]; [eauto|destruct Hw]). split; [intros Q; injection Q as <-; eauto|]. intros (w' & Dw' & E' & <-). f_equal. f_equal. apply (ud_once o btf U i s); auto; congruence. }
    assert (Old : forall n a, lookup n vars = Some a -> lookup n vars' = Some a).
    { intros n a El. specialize (Hr n). assert (El1 : lookup n vars1 = Some a) by (apply Hlk; now right). rewrite El1 in Hr. destruct Hr as (b & Hb & R1 & R2 & R3 & R4 & R5). rewrite Hb. f_equal. destruct R5 as [(R5 & _)|(w & Hw & E & _)]; [destruct a, b; cbn in *; congruence|]. exfalso.
      assert (Dw : described btf s w) by (apply Ds; destruct ds as [vs|]; [eauto|destruct Hw]). apply Iv in El as (j & t & y & dj & Hj & Htj & Vj & En & _). assert (j = i) by (eapply (ud_btf o btf U i j s t w y); try eassumption; congruence). subst j. contradiction. }
    split.
    - intros n v. split.
      + intros El. specialize (Hr n). destruct (lookup n vars1) as [a|] eqn:E1; [|congruence]. apply Hlk in E1 as [(y & Hy & V & <- & _)|E1].
        * assert (Vy : variable o i y) by (apply (so_var i s y Hs); auto). destruct (New y Vy) as (b & Hb & Tb). rewrite El in Hb. injection Hb as <-. exists i, s, y, d. split; [now left|auto].
        * rewrite (Old n a E1) in El. injection El as <-. apply Iv in E1 as (j & t & y & dj & Hj & Q). exists j, t, y, dj. split; [now right|exact Q].
      + intros (j & t & y & dj & Hj & Htj & V & <- & Cj & Tj). destruct Hj as [<-|Hj].
        * assert (t = s) by (eapply sect_fun; [apply Htj|apply Hs]). subst t. assert (dj = d) by (eapply contents_fun; eassumption). subst dj. destruct (New y V) as (b & Hb & Tb). rewrite Hb. f_equal. eapply the_variable_fun; eassumption.
        * apply Old. apply Iv. exists j, t, y, dj. auto 8.
    - intros j t y [<-|Hj] Htj V; [destruct (New y V) as (b & Hb & _); eauto|]. destruct (Ia j t y Hj Htj V) as (v & Ev). exists v. now apply Old. }
  destruct ds as [vs|] eqn:Eds.
  - destruct (typeVars_spec vs vars1) as (Tok & Tres). destruct (typeVars vs vars1) as [vars2|e] eqn:Et.
    + split.
      * split; [|eauto]. intros _ _. split; [|auto]. constructor; [lia|exact Ht|exact Bd|]. apply Sok. apply Tok. eauto.
      * intros vars' maps' H. injection H as <- <-. destruct (Fin vars2 (Tres vars2 eq_refl)) as (F1 & F2). auto.
    + split; [|discriminate]. split; [intros (st & H); discriminate|]. intros H. destruct (H Iu) as (S & _). pose proof (proj2 Sok (ss_btf _ _ _ _ S)) as Q. apply Tok in Q as (r & Q). discriminate.
  - split.
    + split; [|eauto]. intros _ _. split; [|auto]. constructor; [lia|exact Ht|exact Bd|]. now apply Sok.
    + intros vars' maps' H. injection H as <- <-. destruct (Fin vars1) as (F1 & F2); [|auto]. intros n. destruct (lookup n vars1) as [a|]; [|reflexivity]. exists a. repeat split; auto.
Qed.
Definition uniq (order D : list Z) : Prop :=
  forall i j s t f g, In i order -> In j order \/ In j D -> data_section o i s -> data_section o j t -> variable o i f -> variable o j g -> y_name f = y_name g -> f = g.
Lemma var_use : forall i y, variable o i y -> in_use o i.
Proof. intros i y V. right. exists y. apply V. Qed.
Lemma loadAll_spec : forall order D vars maps, NoDup order -> (forall i, In i order -> ~ In i D) -> var_inv D vars -> all_vars D vars -> map_inv D maps ->
  ((exists st, loadDataSections o btf so order (vars, maps) = Ok st) <-> (forall i s, In i order -> data_section o i s -> in_use o i -> sound_section o btf i s) /\ uniq order D) /\
  (forall vars' maps', loadDataSections o btf so order (vars, maps) = Ok (vars', maps') -> var_inv (rev order ++ D) vars' /\ map_inv (rev order ++ D) maps').
Proof.
  induction order as [|i order IH]; intros D vars maps Nd Dj Iv Ia Im; cbn [loadDataSections rev app].
  - split; [split; [intros _; split; [intros ? ? []|intros ? ? ? ? ? ? []]|eauto]|]. intros vars' maps' H. injection H as <- <-. auto.
  - inversion Nd as [|? ? Nin Nd']; subst. rewrite <- app_assoc. cbn [app].
    assert (Skip : (forall s, ~ data_section o i s) -> ((exists st, loadDataSections o btf so order (vars, maps) = Ok st) <-> (forall j s, In j (i :: order) -> data_section o j s -> in_use o j -> sound_section o btf j s) /\ uniq (i :: order) D) /\
      (forall vars' maps', loadDataSections o btf so order (vars, maps) = Ok (vars', maps') -> var_inv (rev order ++ i :: D) vars' /\ map_inv (rev order ++ i :: D) maps')).
    { intros Nd0. destruct (IH (i :: D) vars maps Nd') as (A & B).
      - intros j Hj [<-|Hd]; [contradiction|]. eapply Dj; [right; exact Hj|exact Hd].
      - intros n v. rewrite (Iv n v). split; intros (j & t & y & d & Hj & Ht & Q); exists j, t, y, d; (split; [|split; [exact Ht|exact Q]]); [now right|]. destruct Hj as [<-|Hj]; [destruct (Nd0 t Ht)|exact Hj].
      - intros j t y [<-|Hj] Ht V; [destruct (Nd0 t Ht)|eauto].
      - intros n v. rewrite (Im n v). split; intros (j & t & d & Hj & Ht & Q); exists j, t, d; (split; [|split; [exact Ht|exact Q]]); [now right|]. destruct Hj as [<-|Hj]; [destruct (Nd0 t Ht)|exact Hj].
      - split; [|exact B]. rewrite A. split; intros (A1 & A2); split.
        + intros j t [<-|Hj] Ht; [destruct (Nd0 t Ht)|auto].
        + intros j k s t f g [<-|Hj] Hk Hs Ht; [destruct (Nd0 s Hs)|]. apply (A2 j k s t f g); auto. destruct Hk as [[<-|Hk]|Hk]; [destruct (Nd0 t Ht)|now left|right; now right].
        + intros j t Hj. apply A1. now right.
        + intros j k s t f g Hj Hk Hs Ht. apply (A2 j k s t f g); auto; [now right|]. destruct Hk as [Hk|[<-|Hk]]; [left; now right|destruct (Nd0 t Ht)|now right]. }
    destruct (kindAt o i) as [k|] eqn:K.
    2:{ apply Skip. intros s Hs. rewrite (proj2 (kind_data o i) (ex_intro _ s Hs)) in K. discriminate. }
    assert (Kd : k = KData \/ k <> KData) by (destruct k; auto; right; discriminate). destruct Kd as [->|Kd].
    2:{ assert (Q : forall s, ~ data_section o i s) by (intros s Hs; rewrite (proj2 (kind_data o i) (ex_intro _ s Hs)) in K; congruence). destruct k; try contradiction; apply (Skip Q). }
    apply kind_data in K as (s & Hs). rewrite (proj2 (sect_section o i s) (proj1 Hs)). destruct (loadData_spec D vars maps i s Iv Ia Im Hs (Dj i (or_introl eq_refl))) as (A & B).
    destruct (loadData o btf so i s (vars, maps)) as [(vars1, maps1)|e].
    + destruct (B vars1 maps1 eq_refl) as (Iv1 & Ia1 & Im1). assert (A0 : in_use o i -> sound_section o btf i s /\ distinct i /\ apart i D) by (apply A; eauto).
      destruct (IH (i :: D) vars1 maps1 Nd') as (C & E); auto. { intros j Hj [<-|Hd]; [contradiction|]. eapply Dj; [right; exact Hj|exact Hd]. }
      split; [|exact E]. rewrite C. split; intros (C1 & C2); split.
      * intros j t [<-|Hj] Ht Hu; [|auto]. assert (t = s) by (eapply sect_fun; [apply Ht|apply Hs]). subst t. now apply A0.
      * intros j k s0 t f g Hj Hk Hs0 Ht Vf Vg Ef. destruct Hj as [<-|Hj].
        -- destruct (A0 (var_use _ _ Vf)) as (_ & Di & Ap). destruct Hk as [[<-|Hk]|Hk]; [now apply Di| |exfalso; exact (Ap k t f g Hk Ht Vf Vg Ef)]. symmetry. apply (C2 k i t s0 g f); auto. right. now left.
        -- apply (C2 j k s0 t f g); auto. destruct Hk as [[<-|Hk]|Hk]; [right; now left|now left|right; now right].
      * intros j t Hj. apply C1. now right.
      * intros j k s0 t f g Hj Hk. apply C2; [now right|]. destruct Hk as [Hk|[<-|Hk]]; [left; now right|left; now left|now right].
    + split; [|discriminate]. split; [intros (st & H); discriminate|]. intros (C1 & C2). assert (X : exists st, Err e = Ok st :> res derr (list (string * vspec) * list (string * mspec))).
      { apply A. intros Iu. split; [apply C1; auto; now left|]. split.
        - intros f g Vf Vg Ef. apply (C2 i i s s f g); auto; [now left|left; now left].
        - intros j t f g Hj Ht Vf Vg Ef. assert (f = g) by (apply (C2 i j s t f g); auto; now left). subst g. assert (j = i) by (destruct Vf as ((_ & <- & _) & _), Vg as ((_ & <- & _) & _); reflexivity). subst j. exact (Dj i (or_introl eq_refl) Hj). }
      destruct X. discriminate.
Qed.
End Load.

(** ** C77 *)
(** the whole: relocations first, for the references *)
Definition loadVariables (o : obj) (btf : option datasecs) (ro po : list Z) (so : Z -> list sym) : option (res derr (list (string * vspec) * list (string * mspec))) :=
  match loadRelocations o ro with Some (Ok _) => Some (loadDataSections o btf so po ([], [])) | _ => None end.
Lemma relocs_all : forall o ro, Permutation ro (indices o) -> loadRelocations o ro = Some (Ok tt) -> forall k, exists m, relocationsOf o k = Some (Ok m).
Proof.
  intros o ro P H k. assert (X : forall l, loadRelocations o l = Some (Ok tt) -> forall i, In i l -> exists m, relocationsOf o i = Some (Ok m)).
  { induction l as [|i l IH]; [intros _ i []|]. cbn [loadRelocations]. destruct (relocationsOf o i) as [[m|]|] eqn:E; try discriminate. intros Q j [<-|Hj]; [eauto|auto]. }
  destruct (in_dec Z.eq_dec k (indices o)) as [I|I]; [apply (X ro H); now apply (Permutation_in _ (Permutation_sym P))|]. unfold relocationsOf. destruct (kindAt o k) as [kk|] eqn:K; [|eauto].
  unfold kindAt in K. destruct (section o k) as [s|] eqn:Es.
  - exfalso. apply I. apply sect_section in Es. eapply index_in; [apply Permutation_refl|exact Es].
  - destruct (Z.eqb_spec k 0) as [->|]; [|discriminate]. unfold section in Es. cbn in Es. destruct (o_sects o) as [|s l] eqn:Eo; [|discriminate]. unfold relSection. rewrite Eo. cbn. eauto.
Qed.
Section C77.
Variables (o : obj) (btf : option datasecs) (ro po : list Z) (so : Z -> list sym).
Hypothesis (R : regular o) (U : usual_data o btf) (Pr : Permutation ro (indices o)) (Pp : Permutation po (indices o)) (Ps : forall i, Permutation (so i) (symbolsOf o i)) (Hr : loadRelocations o ro = Some (Ok tt)).
Lemma C77_core : ((exists st, loadVariables o btf ro po so = Some (Ok st)) <-> (forall i s, In i po -> data_section o i s -> in_use o i -> sound_section o btf i s) /\ uniq o po []) /\
  (forall vars maps, loadVariables o btf ro po so = Some (Ok (vars, maps)) -> var_inv o btf (rev po ++ []) vars /\ map_inv o btf (rev po ++ []) maps).
Proof.
  unfold loadVariables. rewrite Hr. destruct (loadAll_spec o btf so R U (relocs_all o ro Pr Hr) Ps po [] [] []) as (A & B).
  - eapply Permutation_NoDup; [apply Permutation_sym; exact Pp|apply indices_NoDup].
  - intros i _ [].
  - intros n v. split; [discriminate|intros (i & s & y & d & [] & _)].
  - intros i s y [].
  - intros n m. split; [discriminate|intros (i & s & d & [] & _)].
  - split.
    + rewrite <- A. split; intros (st & H); exists st; [now injection H|now rewrite H].
    + intros vars maps H. apply B. now injection H.
Qed.
(** Loading the data sections succeeds exactly if those in use are without errors and no name is defined twice. *)
Theorem C77_loads : (exists vars maps, loadVariables o btf ro po so = Some (Ok (vars, maps))) <->
  (forall i s, data_section o i s -> in_use o i -> sound_section o btf i s) /\
  (forall i j s t f g, data_section o i s -> data_section o j t -> variable o i f -> variable o j g -> y_name f = y_name g -> f = g).
Proof.
  destruct C77_core as (A & _). transitivity (exists st, loadVariables o btf ro po so = Some (Ok st)).
  - split; [intros (vars & maps & H); eauto|intros ((vars, maps) & H); eauto].
  - rewrite A. assert (I : forall i s, data_section o i s -> In i po) by (intros i s (Hs & _); eapply index_in; [exact Pp|exact Hs]). split; intros (H1 & H2); split.
    + intros i s Hs. apply H1; eauto.
    + intros i j s t f g Hs Ht. apply (H2 i j s t f g); eauto.
    + intros i s _. apply H1.
    + intros i j s t f g _ _. apply H2.
Qed.
(** The variables are those of the file, with their initial value and type; the maps are the sections in use. *)
Theorem C77_contents : forall vars maps, loadVariables o btf ro po so = Some (Ok (vars, maps)) ->
  (forall n v, lookup n vars = Some v <-> exists i s y d, data_section o i s /\ variable o i y /\ y_name y = n /\ contents s d /\ the_variable btf s d y v) /\
  (forall n m, lookup n maps = Some m <-> exists i s d, data_section o i s /\ in_use o i /\ o_name s = n /\ contents s d /\ the_map btf s d m).
Proof.
  intros vars maps H. destruct C77_core as (_ & B). destruct (B vars maps H) as (B1 & B2). assert (I : forall i s, data_section o i s -> In i (rev po ++ [])) by (intros i s (Hs & _); rewrite app_nil_r; apply -> in_rev; eapply index_in; [exact Pp|exact Hs]). split.
  - intros n v. rewrite (B1 n v). split; [intros (i & s & y & d & _ & Q); eauto 8|]. intros (i & s & y & d & Hs & Q). exists i, s, y, d. split; [eauto|auto].
  - intros n m. rewrite (B2 n m). split; [intros (i & s & d & _ & Q); eauto 8|]. intros (i & s & d & Hs & Q). exists i, s, d. split; [eauto|auto].
Qed.
End C77.
(** Neither success nor the result depends on the order in which sections and symbols are visited. *)
Theorem C77_order : forall o btf ro po po' so so' vars maps, regular o -> usual_data o btf -> Permutation ro (indices o) -> Permutation po (indices o) -> Permutation po' (indices o) ->
  (forall i, Permutation (so i) (symbolsOf o i)) -> (forall i, Permutation (so' i) (symbolsOf o i)) -> loadVariables o btf ro po so = Some (Ok (vars, maps)) ->
  exists vars' maps', loadVariables o btf ro po' so' = Some (Ok (vars', maps')) /\ (forall n, lookup n vars = lookup n vars') /\ forall n, lookup n maps = lookup n maps'.
Proof.
  intros o btf ro po po' so so' vars maps R U Pr Pp Pp' Ps Ps' H. assert (Hr : loadRelocations o ro = Some (Ok tt)) by (unfold loadVariables in H; destruct (loadRelocations o ro) as [[[]|]|]; [reflexivity|discriminate|discriminate]).
  pose proof (proj1 (C77_loads o btf ro po so R U Pr Pp Ps Hr) (ex_intro _ vars (ex_intro _ maps H))) as C. apply (C77_loads o btf ro po' so' R U Pr Pp' Ps' Hr) in C as (vars' & maps' & H'). exists vars', maps'. split; [exact H'|].
  destruct (C77_contents o btf ro po so R U Pr Pp Ps Hr vars maps H) as (A1 & A2). destruct (C77_contents o btf ro po' so' R U Pr Pp' Ps' Hr vars' maps' H') as (B1 & B2). split; intros n.
  - destruct (lookup n vars) as [v|] eqn:E; [symmetry; apply B1; now apply A1|]. destruct (lookup n vars') as [v|] eqn:E'; [|reflexivity]. apply B1, A1 in E'. congruence.
  - destruct (lookup n maps) as [v|] eqn:E; [symmetry; apply B2; now apply A2|]. destruct (lookup n maps') as [v|] eqn:E'; [|reflexivity]. apply B2, A2 in E'. congruence.
Qed.
Print Assumptions C77_loads.
Print Assumptions C77_contents.
Print Assumptions C77_order.
