(** C76, continued: which files load, and what linking leaves in a program. *)
From Coq Require Import String Ascii Sorting.Sorted Permutation.
From Verif Require Import Base.GoInt Asm.Model Asm.Spec Asm.Proof Asm.ProofStream Asm.Props Link.Flatten Link.PropsFlatten Elf.Programs Elf.ProgramsSpec Elf.ProgramsProof Elf.ProgramsStep Elf.PropsPrograms.
Open Scope string_scope. Open Scope list_scope. Open Scope Z_scope.

(** ** Specification *)
(** nothing in the file is unsupported or dangling *)
Record loadable (o : obj) (x : externs) : Prop := {
  ld_struct_ops : forall s, In s (o_sects o) -> o_name s <> ".struct_ops";
  ld_relocs : forall i s es e, loaded o i -> reloc_section o i s -> entries o s es -> In e es -> exists y, symbol_number o (e_sym e) y /\ loaded o (y_section y);
  ld_sections : forall i s, program_section o i s -> o_compressed s = false /\ exists f, function_symbol o i f;
  ld_functions : forall i s f, program_section o i s -> function_symbol o i f -> exists js, translated o x i s f js;
  ld_names : forall i j s t f g, program_section o i s -> program_section o j t -> function_symbol o i f -> function_symbol o j g -> y_name f = y_name g -> f = g }.
(** function [f] of section [i] calls or takes the address of function [g] of section [j] *)
Definition refers (o : obj) (i : Z) (f : sym) (j : Z) (g : sym) : Prop :=
  exists s t l k ins, program_section o i s /\ function_symbol o i f /\ program_section o j t /\ function_symbol o j g /\
    code o s f l /\ nth_error l k = Some ins /\
    let off := y_value f + 8 * raw_offset l k in
    ((forall y, ~ relocated o i off y) /\ function_reference ins /\ Constant ins <> -1 /\ j = i /\ y_value g = off + 8 + 8 * Constant ins) \/
    (exists y, relocated o i off y /\ y_section y = j /\
       ((is_call (OpCode ins) /\ y_value g = y_value y + 8 * (Constant ins + 1)) \/ (is_dword (OpCode ins) /\ y_value g = y_value y + Constant ins))).
Inductive needs (o : obj) (i : Z) (f : sym) : Z -> sym -> Prop :=
| n_direct j g : refers o i f j g -> needs o i f j g
| n_indirect j g k h : needs o i f j g -> refers o j g k h -> needs o i f k h.

(** ** Linking *)
Lemma sect_fun : forall o i s t, sect o i s -> sect o i t -> s = t.
Proof. intros o i s t (_ & A) (_ & B). congruence. Qed.
Lemma entries_fun : forall o s es es', entries o s es -> entries o s es' -> es' = es.
Proof.
  intros o s es es' (F & D) (F' & D'). rewrite D in D'. clear D. revert es' F' D'. induction F as [|e es He F IH]; intros es' F' D'; destruct F' as [|e' es' He' F']; cbn [map concat] in D'; [reflexivity| | |].
    - apply (f_equal (@List.length Z)) in D'. rewrite app_length, entry_length in D'. discriminate.
    - apply (f_equal (@List.length Z)) in D'. rewrite app_length, entry_length in D'. discriminate.
    - pose proof (entry_parse (o_order o) e (concat (map (entry_bytes (o_order o)) es)) He) as (P1 & P2 & P3). pose proof (entry_parse (o_order o) e' (concat (map (entry_bytes (o_order o)) es')) He') as (Q1 & Q2 & Q3).
      rewrite D' in P1, P2, P3. rewrite Q1 in P1. rewrite Q2 in P2. rewrite Q3 in P3. f_equal; [|apply IH; [exact F'|congruence]].
      destruct e as [a1 b1 c1], e' as [a2 b2 c2]. destruct He as (H1 & H2 & H3), He' as (G1 & G2 & G3). cbn [e_off e_sym e_type] in *. unfold in_u in *. assert (b2 = b1) by nia. subst. f_equal; lia.
Qed.
Lemma reloc_fun : forall o i s y z a, regular o -> program_section o i s -> relocated o i a y -> relocated o i a z -> y = z.
Proof.
  intros o i s y z a R Hs (rs & es & e & A1 & A2 & A3 & A4 & A5) (rs' & es' & e' & B1 & B2 & B3 & B4 & B5). destruct (rg_relocs o R i rs A1) as (_ & _ & Nd & U). pose proof (U rs' B1) as E. subst rs'.
  pose proof (entries_fun o rs es es' A2 B2) as Ee.
  subst es'. assert (e' = e). { rewrite <- B4 in A4. specialize (Nd es A2). clear -Nd A3 B3 A4. induction es as [|w es IH]; [destruct A3|]. cbn [map] in Nd. inversion Nd as [|? ? Nin Nd']; subst. destruct A3 as [->|A3], B3 as [->|B3]; auto.
    - exfalso. apply Nin. rewrite A4. now apply List.in_map.
    - exfalso. apply Nin. rewrite <- A4. now apply List.in_map. }
  subst. destruct A5, B5. congruence.
Qed.
Lemma prog_not_null : forall o s, regular o -> ~ program_section o 0 s.
Proof. intros o s R H. pose proof (null_undef o R) as N. rewrite (proj2 (kind_prog o 0) (ex_intro _ s H)) in N. discriminate. Qed.
Lemma prog_not_map : forall o i s t, program_section o i s -> ~ map_section o i t.
Proof. intros o i s t H M. pose proof (proj2 (kind_prog o i) (ex_intro _ s H)) as K. destruct (proj2 (kind_map o i) (ex_intro _ t M)) as [E|E]; congruence. Qed.
Lemma prog_not_data : forall o i s t, program_section o i s -> ~ data_section o i t.
Proof. intros o i s t H M. pose proof (proj2 (kind_prog o i) (ex_intro _ s H)) as K. pose proof (proj2 (kind_data o i) (ex_intro _ t M)) as E. congruence. Qed.
(** the instruction which refers to [g] becomes a symbolic reference *)
Lemma refers_calls : forall o x i f j g s js, regular o -> program_section o i s -> translated o x i s f js -> refers o i f j g -> calls (map fst js) (y_name g).
Proof.
  intros o x i f j g s js R Hs (_ & l & Hc & _ & L & P) (s' & t & l' & k & ins & Hs' & Hf & Ht & Hg & Hc' & Hk & H). cbn zeta in H.
  assert (s' = s) by (eapply sect_fun; [apply Hs'|apply Hs]). subst s'. unfold code in Hc, Hc'. rewrite Hc in Hc'. injection Hc' as <-.
  destruct (nth_error js k) as [jj|] eqn:Hj; [|apply nth_error_None in Hj; assert (nth_error l k = None) by (apply nth_error_None; lia); congruence].
  specialize (P k ins jj Hk Hj). split; [apply Hg|]. exists (fst jj). split; [apply List.in_map; eapply nth_error_In; eassumption|]. clear Hj.
  set (off := y_value f + 8 * raw_offset l k) in *. set (ins' := match k with O => set_sym ins (y_name f) | S _ => ins end) in *.
  assert (Eo : OpCode ins' = OpCode ins /\ Constant ins' = Constant ins /\ Src ins' = Src ins) by (subst ins'; destruct k; repeat split). destruct Eo as (Eo & Ec & Es).
  assert (Fr : function_reference ins' <-> function_reference ins) by (unfold function_reference; now rewrite Eo, Es).
  destruct H as [(N & F & C & -> & V)|(y & Hy & Ej & V)].
  - assert (NR : forall y, relocated o i off y -> False) by (intros y Q; exact (N y Q)). destruct P as [_ [Q|Q]|g' _ F' C' G' V'|y0 ? ? Q|y0 ? ? Q|y0 ? Q|y0 ? ? Q|y0 Q|y0 Q|y0 Q|y0 ? ? ? ? Q|y0 Q]; try (exfalso; exact (NR _ Q)).
    + tauto.
    + congruence.
    + assert (g' = g) by (apply (rg_alias o R i); auto; rewrite Ec in V'; lia). subst g'. cbn [fst]. apply Fr in F. unfold set_cons, set_ref. cbn. split; [reflexivity|]. split; [reflexivity|]. exact F.
  - subst j. assert (ND : is_call (OpCode ins) -> ~ is_dword (OpCode ins)) by apply call_not_dword.
    destruct P as [N [Q|Q]|g' N F' C' G' V'|y0 g' ? Q T' C' S' B' G' V'|y0 g' ? Q T' D' B' G' V'|y0 ? Q T'|y0 ? ? Q T'|y0 Q T'|y0 Q T'|y0 Q T'|y0 ? ? ? ? Q T'|y0 Q T']; try (destruct (N y Hy)); (assert (y0 = y) by exact (reloc_fun _ _ _ _ _ _ R Hs Q Hy)); subst y0.
    + assert (g' = g). { destruct V as [(_ & V)|(D & _)]; [|exfalso; apply ND; [now rewrite <- Eo|exact D]]. apply (rg_alias o R (y_section y)); auto. rewrite Ec in V'. lia. } subst g'. cbn [fst]. unfold set_cons, set_ref. cbn. repeat split; auto.
    + assert (g' = g). { destruct V as [(D & _)|(_ & V)]; [exfalso; apply ND; [exact D|now rewrite <- Eo]|]. apply (rg_alias o R (y_section y)); auto. rewrite Ec in V'. lia. } subst g'. cbn [fst]. unfold set_cons, set_ref, set_src. cbn. repeat split; auto.
    + exfalso. eapply prog_not_map; eassumption.
    + exfalso. eapply prog_not_data; eassumption.
    + exfalso. rewrite T' in Ht. eapply prog_not_null; eassumption.
    + exfalso. rewrite T' in Ht. eapply prog_not_null; eassumption.
    + exfalso. rewrite T' in Ht. eapply prog_not_null; eassumption.
    + exfalso. rewrite T' in Ht. eapply prog_not_null; eassumption.
    + exfalso. rewrite T' in Ht. eapply prog_not_null; eassumption.
Qed.

(** A program outside of .text consists of its own function followed by other functions, no function twice; every function
    which it refers to, directly or indirectly, is among them. *)
Theorem C76_calls : forall o x ro po progs linked i s f, regular o -> usual_file o -> Permutation po (indices o) -> loadPrograms o x ro po = Some (Ok (progs, linked)) ->
  program_section o i s -> function_symbol o i f -> o_name s <> ".text" ->
  exists js fs jss, translated o x i s f js /\ lookup (y_name f) linked = Some (map fst (js ++ concat jss)) /\
    Forall2 (fun g jsg => exists j t, program_section o j t /\ function_symbol o j g /\ translated o x j t g jsg) fs jss /\ NoDup (map y_name fs) /\
    forall j g, needs o i f j g -> In g fs.
Proof.
  intros o x ro po progs linked i s f R Uf P H Hs Hf Nt. destruct (C76_programs o x ro po progs linked R Uf P H) as (Nd & Un & A & B & C).
  destruct (A i s f Hs Hf) as (js & Hp & Tr). assert (Bd : body (insnsOf progs) (y_name f) (map fst js)) by (apply lookup_insns; [exact Nd|]; eexists; split; [exact Hp|auto]).
  destruct (C45_flatten _ _ _ Bd) as (res & order & E & No & Or & bodies & Fb & Er).
  assert (X : exists fs jss, order = map y_name fs /\ concat bodies = map fst (concat jss) /\ Forall2 (fun g jsg => exists j t, program_section o j t /\ function_symbol o j g /\ translated o x j t g jsg) fs jss).
  { clear -Fb Nd B. induction Fb as [|n b order bodies Hb F IH]; [exists [], []; repeat split; constructor|]. destruct IH as (fs & jss & -> & E & F2). apply lookup_insns in Hb as (p & Hp & <- & ->); [|exact Nd]. destruct (B p Hp) as (j & t & g & Ht & Hg & En & _ & Tr).
    exists (g :: fs), (g_insns p :: jss). cbn [map concat]. rewrite map_app, E, En. split; [reflexivity|]. split; [reflexivity|]. constructor; [eauto|exact F2]. }
  destruct X as (fs & jss & -> & Eb & F2). exists js, fs, jss. split; [exact Tr|]. split; [|split; [exact F2|split; [exact No|]]].
  - apply C. exists (mkProg (y_name f) (o_name s) js). split; [exact Hp|]. split; [reflexivity|]. split; [exact Nt|]. rewrite E, Er, map_app, Eb. reflexivity.
  - assert (Q : forall j g, needs o i f j g -> reaches (insnsOf progs) (y_name f) (y_name g) /\ exists t, program_section o j t /\ function_symbol o j g).
    { intros j g Hn. induction Hn as [j g Hr|j g k h Hn IH Hr].
      - split; [|destruct Hr as (s' & t & l & k & ins & Q); exists t; tauto]. eapply R_direct; [exact Bd|]. eapply refers_calls; eassumption.
      - destruct IH as (Hg & t & Ht & Hg'). split; [|destruct Hr as (s' & t' & l & m & ins & Q); exists t'; tauto]. destruct (A j t g Ht Hg') as (jsg & Hpg & Trg). eapply R_indirect; [exact Hg| |eapply refers_calls; eassumption]. apply lookup_insns; [exact Nd|]. eexists. split; [exact Hpg|]. split; reflexivity. }
    intros j g Hn. destruct (Q j g Hn) as (Hr & t & Ht & Hg). destruct (A j t g Ht Hg) as (jsg & Hpg & _).
    assert (I : In (y_name g) (map y_name fs)). { apply Or. split; [exact Hr|]. exists (map fst jsg). apply lookup_insns; [exact Nd|]. eexists. split; [exact Hpg|]. split; reflexivity. }
    apply in_map_iff in I as (g' & En & Ig). enough (g' = g) by now subst. destruct (Forall2_left _ _ _ _ _ _ F2 Ig) as (jsg' & _ & j' & t' & Ht' & Hg' & Trg').
    exact (Un _ _ _ _ _ _ Ht' Ht Hg' Hg En).
Qed.

(** ** Completeness *)
Lemma classify_err : forall s, classify s = CErr -> o_name s = ".struct_ops".
Proof.
  intros s. unfold classify. repeat match goal with |- context[if ?b then _ else _] => destruct b eqn:?; try discriminate end. intros _. now apply String.eqb_eq.
Qed.
Lemma kind_loaded : forall o i, regular o -> (exists k, kindAt o i = Some k) <-> loaded o i.
Proof.
  intros o i R. split.
  - intros ([] & K).
    + apply kind_undef in K; [now left|exact R].
    + destruct (proj1 (kind_map o i) (or_introl K)) as (s & M). right. exists s. auto.
    + destruct (proj1 (kind_map o i) (or_intror K)) as (s & M). right. exists s. auto.
    + apply kind_prog in K as (s & M). right. exists s. auto.
    + apply kind_data in K as (s & M). right. exists s. auto.
    + right. unfold kindAt in K. destruct (section o i) as [s|] eqn:Es; [|destruct (i =? 0); discriminate]. exists s. apply sect_section in Es. right. right. right. split; [exact Es|].
      destruct (classify s) as [[]| | |] eqn:C; try discriminate; try (destruct (i =? 0); discriminate). clear -C. unfold classify, SHT_REL, SHT_PROGBITS in C. rewrite exec_bit in C.
      repeat match type of C with context[if ?b then _ else _] => destruct b eqn:?; try discriminate end. apply andb_true_iff in Heqb5 as (T & Sz). apply Z.eqb_eq in T. apply Z.ltb_lt in Sz. split; [now apply String.eqb_eq|]. split; [exact T|]. split; [exact Sz|]. apply Bool.not_true_iff_false. intros Fb. apply Z.ltb_lt in Sz. rewrite Fb, Sz in *. discriminate.
  - intros [->|(s & [M|[M|[M|M]]])].
    + exists KUndef. now apply null_undef.
    + exists KProg. apply kind_prog. eauto.
    + destruct (proj2 (kind_map o i) (ex_intro _ s M)); eauto.
    + exists KData. apply kind_data. eauto.
    + destruct M as (Hs & N & T & Sz & F). exists KStructOps. unfold kindAt. apply sect_section in Hs. rewrite Hs. unfold classify, SHT_REL, SHT_PROGBITS. rewrite exec_bit, F, N, T. replace (0 <? o_size s) with true by lia. reflexivity.
Qed.
Lemma entryRels_all : forall o es m, (forall e, In e es -> exists y, symbol_number o (e_sym e) y) -> exists m', entryRels o es m = Some m' /\ forall p, In p m' -> In p m \/ exists e, In e es /\ symbol_number o (e_sym e) (snd p).
Proof.
  intros o. induction es as [|e es IH]; intros m H; cbn [entryRels]; [eauto|]. destruct (H e (or_introl eq_refl)) as (y & L & Hy). unfold entrySym. destruct (Z.leb_spec 1 (e_sym e)); [|lia]. rewrite Hy.
  destruct (IH ((e_off e, y) :: m)) as (m' & -> & P); [intros; apply H; now right|]. exists m'. split; [reflexivity|]. intros p Hp. destruct (P p Hp) as [[<-|Q]|(e' & He & Q)]; [right; exists e; split; [now left|split; assumption]|now left|right; exists e'; split; [now right|exact Q]].
Qed.
Lemma relocations_ok : forall o i, regular o -> (forall s es e, loaded o i -> reloc_section o i s -> entries o s es -> In e es -> exists y, symbol_number o (e_sym e) y /\ loaded o (y_section y)) -> exists m, relocationsOf o i = Some (Ok m).
Proof.
  intros o i R H. unfold relocationsOf. destruct (kindAt o i) as [k|] eqn:K; [|eauto]. destruct (relSection o i) as [rs|] eqn:Er; [|eauto]. pose proof (proj1 (kind_loaded o i R) (ex_intro _ k K)) as Hl.
  assert (Hr : reloc_section o i rs).
  { assert (Q : forall l acc, fold_left (fun r s => match classify s with CRel => if o_info s =? i then Some s else r | _ => r end) l acc = Some rs -> acc = Some rs \/ (In rs l /\ classify rs = CRel /\ o_info rs = i)).
    { induction l as [|z l IH]; intros acc E; cbn [fold_left] in E; [now left|]. destruct (IH _ E) as [E'|(I & Q)]; [|right; split; [now right|exact Q]]. destruct (classify z) eqn:C; auto. destruct (Z.eqb_spec (o_info z) i) as [Ei|]; [|auto]. injection E' as ->. right. split; [now left|auto]. }
    destruct (Q _ _ Er) as [?|(I & C & E)]; [discriminate|]. pose proof (classify_spec rs) as (_ & _ & _ & C4 & _). apply C4 in C as (C & T). split; [exact I|]. split; [exact C|]. split; [exact T|exact E]. }
  destruct (rg_relocs o R i rs Hr) as (_ & (es & He) & _ & _). rewrite (load_relocs o i rs es R Hr He).
  destruct (entryRels_all o es []) as (m & -> & P); [intros e Ie; destruct (H rs es e Hl Hr He Ie) as (y & Hy & _); eauto|].
  replace (forallb _ m) with true; [eauto|]. symmetry. apply forallb_forall. intros p Hp. destruct (P p Hp) as [[]|(e & Ie & Sn)]. destruct (H rs es e Hl Hr He Ie) as (y & Sy & Ly). assert (y = snd p) by (destruct Sn, Sy; congruence). subst y. apply kind_loaded in Ly as (k' & ->); [reflexivity|exact R].
Qed.
Lemma concat_NoDup : forall A B (f : A -> list B) l, NoDup l -> (forall a, In a l -> NoDup (f a)) -> (forall a b c, In a l -> In b l -> In c (f a) -> In c (f b) -> a = b) -> NoDup (concat (map f l)).
Proof.
  intros A B f l Nd. induction Nd as [|a l Nin Nd IH]; intros H D; cbn [map concat]; [constructor|].
  assert (N1 : NoDup (f a)) by (apply H; now left). assert (N2 : NoDup (concat (map f l))) by (apply IH; [intros; apply H; now right|intros b b' c Hb Hb' Hc Hc'; apply (D b b' c); auto; now right]).
  assert (X : forall c, In c (f a) -> ~ In c (concat (map f l))). { intros c Hc I. apply in_concat in I as (q & Hq & Ic). apply in_map_iff in Hq as (b & <- & Hb). assert (a = b) by (apply (D a b c); auto; [now left|now right]). subst. contradiction. }
  clear -N1 N2 X. induction N1 as [|c q Nc N1 IH]; cbn [app]; [exact N2|]. constructor; [|apply IH; intros; apply X; now right]. intros I. apply in_app_or in I as [I|I]; [contradiction|]. apply (X c (or_introl eq_refl) I).
Qed.
Lemma map_NoDup : forall A B (f : A -> B) l, NoDup l -> (forall a b, In a l -> In b l -> f a = f b -> a = b) -> NoDup (map f l).
Proof.
  intros A B f l Nd. induction Nd as [|a l Nin Nd IH]; intros H; cbn [map]; constructor.
  - intros I. apply in_map_iff in I as (b & E & Hb). assert (b = a) by (apply H; auto; [now right|now left]). subst. contradiction.
  - apply IH. intros; apply H; auto; now right.
Qed.
Lemma indices_NoDup : forall o, NoDup (indices o).
Proof. intros o. unfold indices. apply map_NoDup; [apply seq_NoDup|]. intros a b _ _ H. lia. Qed.

(** A regular file whose relocations and functions have a meaning loads. *)
Theorem C76_loads : forall o x ro po, regular o -> usual_file o -> loadable o x -> Permutation po (indices o) -> exists progs linked, loadPrograms o x ro po = Some (Ok (progs, linked)).
Proof.
  intros o x ro po R Uf Ld P. unfold loadPrograms.
  replace (existsb _ (o_sects o)) with false; [|symmetry; apply Bool.not_true_iff_false; intros E; apply existsb_exists in E as (s & Hs & C); destruct (classify s) eqn:Ec; try discriminate; apply (ld_struct_ops o x Ld s Hs); now apply classify_err].
  assert (Rl : forall i, exists m, relocationsOf o i = Some (Ok m)) by (intros i; apply relocations_ok; [exact R|]; intros; eapply (ld_relocs o x Ld); eassumption).
  replace (loadRelocations o ro) with (Some (@Ok lerr unit tt)); [|induction ro as [|i ro IH]; cbn [loadRelocations]; [reflexivity|]; destruct (Rl i) as (m & ->); exact IH].
  assert (Sp : forall i, In i (filter (isProg o) po) -> exists s, program_section o i s) by (intros i Hi; apply filter_In in Hi as (_ & Hi); unfold isProg in Hi; destruct (kindAt o i) as [[]|] eqn:K; try discriminate; now apply kind_prog).
  destruct (Forall2_ex _ _ (sectionProgs o x) (filter (isProg o) po)) as (pss & F).
  { intros i Hi. destruct (Sp i Hi) as (s & Hs). destruct (Rl i) as (m & Em). destruct (ld_sections o x Ld i s Hs) as (Cm & f0 & Hf0).
    destruct (Forall2_ex _ _ (fun y p => fst p = y_name y /\ loadOne o x s m (symbolsOf o i) y (snd p)) (symbolsOf o i)) as (fs & F2).
    { intros y Hy. apply (symbols_In o i s y R Hs) in Hy. destruct (ld_functions o x Ld i s y Hs Hy) as (js & Tr). exists (y_name y, js). split; [reflexivity|]. eapply loadOne_spec; eassumption. }
    exists (map (fun p => mkProg (fst p) (o_name s) (snd p)) fs), s, m, fs. split; [apply sect_section; apply Hs|]. split; [exact Cm|]. split; [|auto]. intros E. apply (symbols_In o i s f0 R Hs) in Hf0. rewrite E in Hf0. destruct Hf0. }
  assert (Nd : NoDup (map g_name (concat pss))).
  { rewrite (section_names _ _ _ _ F). apply map_NoDup.
    - apply concat_NoDup.
      + apply NoDup_filter. eapply Permutation_NoDup; [apply Permutation_sym; exact P|apply indices_NoDup].
      + intros i Hi. pose proof (symbols_sorted o i) as Ss. clear -Ss. induction Ss as [|y l Ss IH Fa]; constructor; [|exact IH]. intros I. rewrite Forall_forall in Fa. specialize (Fa y I). unfold below in Fa. lia.
      + intros i j y Hi Hj Hy Hy'. destruct (Sp i Hi) as (s & Hs), (Sp j Hj) as (t & Ht). apply (symbols_In o i s y R Hs) in Hy as (_ & <- & _). apply (symbols_In o j t y R Ht) in Hy' as (_ & <- & _). reflexivity.
    - intros f g Hf Hg En. apply in_concat in Hf as (q & Hq & Hf). apply in_concat in Hg as (q' & Hq' & Hg). apply in_map_iff in Hq as (i & <- & Hi). apply in_map_iff in Hq' as (j & <- & Hj). destruct (Sp i Hi) as (s & Hs), (Sp j Hj) as (t & Ht).
      apply (symbols_In o i s f R Hs) in Hf. apply (symbols_In o j t g R Ht) in Hg. exact (ld_names o x Ld i j s t f g Hs Ht Hf Hg En). }
  assert (Es : loadSections o x po [] = Some (Ok (concat pss))) by (apply loadSections_spec; [constructor|]; exists pss; auto).
  pose proof (link_spec o x po) as L. rewrite Es in L. destruct L as (linked & -> & _). eauto.
Qed.

