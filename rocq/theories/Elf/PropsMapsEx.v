(** C78, C79: a file which meets the hypotheses, and files for which the properties fail. *)
From Coq Require Import String Ascii Sorting.Sorted Permutation.
From Verif Require Import Base.GoInt Asm.Model Asm.Spec Elf.Programs Elf.ProgramsSpec Elf.ProgramsProof Elf.ProgramsStep Elf.PropsPrograms Elf.PropsProgramsLoad Elf.PropsProgramsEx Elf.Data Elf.PropsData Elf.BtfMaps Elf.BtfMapsSpec Elf.BtfMapsProof Elf.PropsBtfMaps Elf.PropsMaps Btf.Types Btf.TypesSpec.
Open Scope string_scope. Open Scope list_scope. Open Scope Z_scope.

Definition mem (n : string) (t : nat) (off : Z) : member := mkMember (lit n) (RPtr t) off 0 [].
(** struct { __uint(type, 1); __uint(max_entries, 1); __uint(key_size, 4); __uint(value_size, 8); } m1, and outer:
    struct { __uint(type, 12); __uint(max_entries, 2); __type(key, u32); __array(values, struct inner); } = { .values = { [1] = &m1 } } *)
Definition inner_ms : list member := [mem "type" 7 0; mem "max_entries" 7 64; mem "key_size" 11 128; mem "value_size" 9 192].
Definition outer_ms : list member := [mem "type" 3 0; mem "max_entries" 5 64; mem "key" 1 128; mem "values" 14 192].
Definition mh : heap :=
  [NInt (lit "u32") 4 0; NPtr (RPtr 0); NArray (RPtr 0) (RPtr 0) 12; NPtr (RPtr 2); NArray (RPtr 0) (RPtr 0) 2; NPtr (RPtr 4); NArray (RPtr 0) (RPtr 0) 1; NPtr (RPtr 6);
   NArray (RPtr 0) (RPtr 0) 8; NPtr (RPtr 8); NArray (RPtr 0) (RPtr 0) 4; NPtr (RPtr 10); NStruct (lit "inner") 32 inner_ms []; NPtr (RPtr 12); NArray (RPtr 0) (RPtr 13) 0;
   NStruct [] 24 outer_ms []; NVar (lit "outer") (RPtr 15) 1 []; NVar (lit "m1") (RPtr 12) 1 [lit "tag"]].
Definition mb : btfspec := mkBtf mh (fun n => if String.eqb n ".maps" then Some [mkVS (RPtr 16) 0 40; mkVS (RPtr 17) 40 32] else None).
Definition m1 : sym := mkSym "m1" 1 1 2 40 32 0.
Definition outer : sym := mkSym "outer" 1 1 2 0 40 0.
Definition old : sym := mkSym "old" 1 1 1 0 24 0.
Definition mx : obj := mkObj
  [null;
   sec "maps" 1 3 0 0 (put LE 4 1 ++ put LE 4 4 ++ put LE 4 8 ++ put LE 4 1024 ++ put LE 4 0 ++ [5; 0; 0; 0]);
   sec ".maps" 1 3 0 0 (repeat 0 72);
   sec ".rel.maps" 9 0 2 16 (concat (map (entry_bytes LE) [mkEntry 32 3 1]))]
  [old; outer; m1] LE.
Definition xn (k : nat) : osec := nth k (o_sects mx) null.
Lemma mx_sect : forall i s, sect mx i s -> exists k, (k < 4)%nat /\ i = Z.of_nat k /\ s = xn k.
Proof.
  intros i s (H0 & H). assert (B : (Z.to_nat i < 4)%nat) by (change 4%nat with (List.length (o_sects mx)); apply nth_error_Some; congruence). exists (Z.to_nat i). split; [exact B|]. split; [lia|]. unfold xn. symmetry. now apply nth_error_nth.
Qed.
Ltac four H := let k := fresh "k" in let B := fresh "B" in destruct H as (k & B & -> & ->); destruct k as [|[|[|[|k]]]]; [..|exfalso; lia]; clear B.
Lemma mx_legacy : forall i s, legacy_section mx i s -> i = 1 /\ s = xn 1.
Proof. intros i s H. assert (K : kindAt mx i = Some KMap) by (apply kind_legacy; eauto). destruct H as (H & _). apply mx_sect in H. four H; try (vm_compute in K; discriminate). split; reflexivity. Qed.
Lemma mx_btf : forall i s, btf_section mx i s -> i = 2 /\ s = xn 2.
Proof. intros i s H. assert (K : kindAt mx i = Some KBtfMap) by (apply kind_btf; eauto). destruct H as (H & _). apply mx_sect in H. four H; try (vm_compute in K; discriminate). split; reflexivity. Qed.
Lemma mx_reloc : forall i s, reloc_section mx i s <-> i = 2 /\ s = xn 3.
Proof.
  intros i s. split.
  - intros (I & _ & T & <-). cbn [In o_sects mx] in I. repeat match type of I with _ \/ _ => destruct I as [I|I] | False => destruct I end; subst s; cbn in T; try discriminate. split; reflexivity.
  - intros (-> & ->). split; [cbn; tauto|]. assert (C : classify (xn 3) = CRel) by reflexivity. apply (classify_spec (xn 3)) in C as (C & T). split; [exact C|]. split; [exact T|reflexivity].
Qed.
Lemma mx_entries : entries mx (xn 3) [mkEntry 32 3 1].
Proof. split; [repeat constructor; cbn; unfold in_u; lia|reflexivity]. Qed.
Ltac msym I := cbn [In o_syms mx] in I; repeat match type of I with _ \/ _ => destruct I as [I|I] | False => destruct I end.
Lemma mx_regular : regular mx.
Proof.
  constructor.
  - exists null. split; [reflexivity|]. split; [|reflexivity]. cbn. unfold reserved, data_name, begins. intros [(t & E)|[(t & E)|[(t & E)|[E|[E|[(t & E)|(t & E)]]]]]]; discriminate.
  - intros i s H. apply mx_sect in H. four H; (split; [apply bytes_okb; reflexivity|]); (split; [intros [E|E]; first [discriminate E|reflexivity]|]); vm_compute; split; congruence.
  - intros y I. msym I; subst y; cbn [y_section y_value y_size y_type old outer m1]; unfold in_u; repeat split; lia.
  - cbn. lia.
  - intros i s H. apply mx_reloc in H as (-> & ->). split; [reflexivity|]. split; [eexists; exact mx_entries|]. split.
    + intros es He. rewrite (entries_fun _ _ _ _ mx_entries He). cbn [map e_off]. repeat (constructor; [cbn; lia|]). constructor.
    + intros s' H. apply mx_reloc in H as (_ & ->). reflexivity.
  - intros i f g (If & Sf & Nf & Tf) (Ig & Sg & Ng & Tg) V. msym If; subst f; cbn in Tf; lia.
Qed.
Ltac members I := cbn [In inner_ms outer_ms] in I; repeat match type of I with _ \/ _ => destruct I as [I|I] | False => destruct I end.
Lemma usual_inner : usual_def mh inner_ms.
Proof.
  constructor.
  - repeat constructor; vm_compute; intuition discriminate.
  - intros n m v _ (I & _) H. assert (B : 0 <= v < 100) by (apply uint_spec in H; members I; subst m; vm_compute in H; apply Ok_inj in H; subst v; lia). unfold in_u. split; [lia|]. intros _. lia.
  - intros n m t s [-> | ->] (I & E) _ _; members I; subst m; vm_compute in E; discriminate E.
  - intros n m m' v [-> | ->] (I & E) _ _; members I; subst m; vm_compute in E; discriminate E.
Qed.
Lemma usual_outer : usual_def mh outer_ms.
Proof.
  constructor.
  - repeat constructor; vm_compute; intuition discriminate.
  - intros n m v _ (I & _) H. assert (B : 0 <= v < 100) by (apply uint_spec in H; members I; subst m; vm_compute in H; try discriminate H; apply Ok_inj in H; subst v; lia). unfold in_u. split; [lia|]. intros _. lia.
  - intros n m t s [-> | ->] (I & E) D S; members I; subst m; vm_compute in E; try discriminate E. vm_compute in D. injection D as <-. vm_compute in S. apply Ok_inj in S. subst s. unfold in_u. lia.
  - intros n m m' v [-> | ->] _ (I & E) _; members I; subst m'; vm_compute in E; discriminate E.
Qed.
Lemma inner_plain : forall m, ~ has inner_ms "values" m.
Proof. intros m (I & E). members I; subst m; vm_compute in E; discriminate E. Qed.
Lemma usual_mx : forall ms, ms = inner_ms \/ ms = outer_ms -> usual_defs mh ms.
Proof.
  intros ms [-> | ->]; constructor.
  - exact usual_inner.
  - intros m I. members I; subst m; cbn; unfold in_u; lia.
  - intros m t n sz ims tg H. destruct (inner_plain m H).
  - exact usual_outer.
  - intros m I. members I; subst m; cbn; unfold in_u; lia.
  - intros m t n sz ims tg (I & E) El D. assert (t = RPtr 12) by (members I; subst m; vm_compute in E; try discriminate E; apply elements_spec in El; vm_compute in El; apply Ok_inj in El; now subst). subst t. cbn in D. injection D as <- <- <- <-. split; [exact usual_inner|exact inner_plain].
Qed.
Lemma mx_vars : forall i s h v, legacy_section mx i s \/ btf_section mx i s -> var_of (Some mb) s h v -> h = mh /\ i = 2 /\ (v = mkBvar "outer" (RPtr 15) [] \/ v = mkBvar "m1" (RPtr 12) [lit "tag"]).
Proof.
  intros i s h v Hs (e & (b & ds & Eb & -> & Ed & I) & r & n & t & l & tags & U & D & ->). injection Eb as <-. split; [reflexivity|]. destruct Hs as [Hs|Hs]; [apply mx_legacy in Hs as (-> & ->)|apply mx_btf in Hs as (-> & ->)]; cbn in Ed; [discriminate|]. injection Ed as <-. split; [reflexivity|].
  destruct I as [<-|[<-|[]]]; vm_compute in U; injection U as <-; vm_compute in D; injection D as <- <- <- <-; [left|right]; reflexivity.
Qed.
Lemma mx_usual : usual_maps mx (Some mb) (fun _ => 8).
Proof.
  constructor.
  - intros i s f g _ (If & Sf & _) (Ig & Sg & _) V. msym If; msym Ig; subst f g; cbn in *; try reflexivity; exfalso; lia.
  - intros i s [H|H]; [apply mx_legacy in H as (_ & ->)|apply mx_btf in H as (_ & ->)]; reflexivity.
  - intros i s h v w Hs Hv Hw E. apply (mx_vars i s h v Hs) in Hv as (_ & _ & Hv). apply (mx_vars i s h w Hs) in Hw as (_ & _ & Hw). destruct Hv as [-> | ->], Hw as [-> | ->]; try reflexivity; discriminate E.
  - intros i s y h tags ms Hs Hy (v & r & n & sz & tg & Hv & _ & _ & Eu & Ed). apply (mx_vars i s h v (or_intror Hs)) in Hv as (-> & _ & Hv). apply usual_mx. destruct Hv as [-> | ->]; vm_compute in Eu; injection Eu as <-; cbn in Ed; injection Ed as <- <- <- <-; auto.
  - reflexivity.
Qed.
(** the map of maps contains m1 at index 1 *)
Definition spec_m1 : mapspec := mkMap "m1" 1 4 8 1 0 None None 0 None [] [lit "tag"] 0 [].
Definition spec_outer : mapspec := mkMap "outer" 12 4 4 2 0 (Some (RPtr 0)) None 0 (Some (mkMap "outer_inner" 1 4 8 1 0 None None 0 None [] [] 0 [])) [(1, "m1")] [] 0 [].
Definition spec_old : mapspec := mkMap "old" 1 4 8 1024 0 None None 0 None [] [] 0 [5; 0; 0; 0].
Theorem C79_example : regular mx /\ usual_maps mx (Some mb) (fun _ => 8) /\
  loadAllMaps mx (Some mb) (fun _ => 8) (indices mx) (symbolsOf mx) (symbolsOf mx) (fun vars => vars) (indices mx) (indices mx) = Some (Ok [("m1", spec_m1); ("outer", spec_outer); ("old", spec_old)]).
Proof. split; [exact mx_regular|]. split; [exact mx_usual|]. vm_compute. reflexivity. Qed.
Definition mx_rels : rels := match relocationsOf mx 2 with Some (Ok m) => m | _ => [] end.
Theorem C78_example : (forall a r, relAt mx_rels a = Some r <-> relocated mx 2 a r) /\ usual_defs mh outer_ms /\ mapSpecFromBTF mh mx_rels 8 outer [] "outer" outer_ms = Ok spec_outer.
Proof. split; [apply (relocations_kind mx 2 KBtfMap mx_rels mx_regular); vm_compute; reflexivity|]. split; [apply usual_mx; auto|]. vm_compute. reflexivity. Qed.

(** *** What fails outside of the usual files *)
(** Numbers are cut to 32 bits without an error. *)
Theorem C78_truncated_refuted : let h := [NEnum [] 8 false [mkEV (lit "e") (2 ^ 32 + 1)]] in
  number h (RPtr 0) (2 ^ 32 + 1) /\ mapSpecFromBTF h [] 8 outer [] "m" [mem "max_entries" 0 0] = Ok (mkMap "m" 0 0 0 1 0 None None 0 None [] [] 0 []).
Proof. split; [apply uint_spec; reflexivity|vm_compute; reflexivity]. Qed.
(** A key size of 0 beside a key is an error or not, depending on which is first. *)
Theorem C78_zero_refuted : let h := [NInt (lit "u32") 4 0; NPtr (RPtr 0); NArray (RPtr 0) (RPtr 0) 0; NPtr (RPtr 2)] in
  mapSpecFromBTF h [] 8 outer [] "m" [mem "key_size" 3 0; mem "key" 1 64] = Ok (mkMap "m" 0 4 0 0 0 (Some (RPtr 0)) None 0 None [] [] 0 []) /\
  mapSpecFromBTF h [] 8 outer [] "m" [mem "key" 1 0; mem "key_size" 3 64] = Err BBoth.
Proof. split; vm_compute; reflexivity. Qed.
(** The alignment of the section is taken for the size of a pointer: with 16, m1 of slot 1 is missing; with 4, it is at index 2. *)
Theorem C78_align_refuted :
  (exists mp, mapSpecFromBTF mh mx_rels 16 outer [] "outer" outer_ms = Ok mp /\ mp_contents mp = []) /\
  (exists mp, mapSpecFromBTF mh mx_rels 4 outer [] "outer" outer_ms = Ok mp /\ mp_contents mp = [(2, "m1")]).
Proof. split; (eexists; split; [vm_compute; reflexivity|]); reflexivity. Qed.
(** An inner program array with values gets contents: those which the outer symbol has at that offset. *)
Theorem C78_inner_values_refuted :
  let ims := [mem "type" 1 0; mem "values" 4 64] in
  let h := [NFuncProto RVoid []; NPtr (RPtr 2); NArray (RPtr 0) (RPtr 0) 3; NPtr (RPtr 0); NArray RVoid (RPtr 3) 0; NStruct [] 8 ims []; NPtr (RPtr 5); NArray RVoid (RPtr 6) 0; NPtr (RPtr 9); NArray RVoid RVoid 12] in
  exists mp i, mapSpecFromBTF h mx_rels 8 outer [] "outer" [mem "type" 8 0; mem "values" 7 192] = Ok mp /\ mp_inner mp = Some i /\ mp_contents i = [(3, "m1")] /\ mp_contents mp = [(1, "m1")].
Proof. cbv zeta. eexists _, _. split; [vm_compute; reflexivity|]. split; [reflexivity|]. split; reflexivity. Qed.
(** Of two legacy maps at one offset, one is missing. *)
Theorem C79_alias_refuted : let o := mkObj [null; xn 1] [mkSym "a" 1 1 1 0 24 0; mkSym "b" 1 1 1 0 24 0] LE in
  exists ms, loadAllMaps o None (fun _ => 8) [] (symbolsOf o) (symbolsOf o) (fun vars => vars) (indices o) (indices o) = Some (Ok ms) /\ map fst ms = ["b"].
Proof. eexists. split; vm_compute; reflexivity. Qed.
Print Assumptions C79_example.
Print Assumptions C78_example.
Print Assumptions C78_truncated_refuted.
Print Assumptions C78_zero_refuted.
Print Assumptions C78_align_refuted.
Print Assumptions C78_inner_values_refuted.
Print Assumptions C79_alias_refuted.
