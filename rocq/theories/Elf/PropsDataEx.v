(** C77: a file which meets the hypotheses, and files for which the property fails. *)
From Coq Require Import String Ascii Sorting.Sorted Permutation.
From Verif Require Import Base.GoInt Asm.Model Asm.Spec Elf.Programs Elf.ProgramsSpec Elf.ProgramsProof Elf.ProgramsStep Elf.PropsPrograms Elf.PropsProgramsLoad Elf.PropsProgramsEx Elf.Data Elf.PropsData.
Open Scope string_scope. Open Scope list_scope. Open Scope Z_scope.

(** a program which uses a static variable of .bss; .data: global x, static y, hidden z; .rodata: weak limit; .rodata.str:
    neither symbols nor references *)
Definition dex : obj := mkObj
  [null;
   sec "socket" 1 6 0 0 (lddw 1 0 ++ exit8);
   sec ".relsocket" 9 0 1 16 (concat (map (entry_bytes LE) [mkEntry 0 1 1]));
   sec ".data" 1 3 0 0 [1; 0; 0; 0; 2; 0; 3; 4];
   sec ".rodata" 1 2 0 0 [9; 0; 0; 0];
   mkSec ".bss" 8 3 0 0 4 [] false;
   sec ".rodata.str" 1 2 0 0 [65; 0]]
  [mkSym "" 3 0 5 0 0 0; mkSym "prog" 2 1 1 0 24 0; mkSym "x" 1 1 3 0 4 0; mkSym "y" 1 0 3 4 2 0; mkSym "z" 1 1 3 6 1 2; mkSym "limit" 1 2 4 0 4 0]
  LE.
Definition dex_btf : datasecs := fun n =>
  if String.eqb n ".data" then Some [mkDvar "x" true 0 4 70; mkDvar "y" true 4 2 71; mkDvar "z" true 6 1 72] else
  if String.eqb n ".bss" then Some [mkDvar "s" true 0 4 73] else None.
Definition dn (k : nat) : osec := nth k (o_sects dex) null.
Lemma dex_sect : forall i s, sect dex i s -> exists k, (k < 7)%nat /\ i = Z.of_nat k /\ s = dn k.
Proof.
  intros i s (H0 & H). assert (B : (Z.to_nat i < 7)%nat) by (change 7%nat with (List.length (o_sects dex)); apply nth_error_Some; congruence). exists (Z.to_nat i). split; [exact B|]. split; [lia|]. unfold dn. symmetry. now apply nth_error_nth.
Qed.
Ltac seven H := let k := fresh "k" in let B := fresh "B" in destruct H as (k & B & -> & ->); destruct k as [|[|[|[|[|[|[|k]]]]]]]; [..|exfalso; lia]; clear B.
Lemma dex_data : forall i s, data_section dex i s <-> (i = 3 /\ s = dn 3) \/ (i = 4 /\ s = dn 4) \/ (i = 5 /\ s = dn 5) \/ (i = 6 /\ s = dn 6).
Proof.
  intros i s. split.
  - intros H. assert (K : kindAt dex i = Some KData) by (apply kind_data; eauto). destruct H as (H & _). apply dex_sect in H. seven H; try (vm_compute in K; discriminate); [left|right; left|right; right; left|right; right; right]; split; reflexivity.
  - intros H. assert (K : exists t, data_section dex i t) by (apply kind_data; destruct H as [(-> & _)|[(-> & _)|[(-> & _)|(-> & _)]]]; reflexivity). destruct K as (t & K). replace s with t; [exact K|]. apply (sect_fun dex i); [apply K|]. destruct H as [(-> & ->)|[(-> & ->)|[(-> & ->)|(-> & ->)]]]; (split; [lia|reflexivity]).
Qed.
Lemma dex_reloc : forall i s, reloc_section dex i s <-> i = 1 /\ s = dn 2.
Proof.
  intros i s. split.
  - intros (I & _ & T & <-). cbn [In o_sects dex] in I. repeat match type of I with _ \/ _ => destruct I as [I|I] | False => destruct I end; subst s; cbn in T; try discriminate. split; reflexivity.
  - intros (-> & ->). split; [cbn; tauto|]. assert (C : classify (dn 2) = CRel) by reflexivity. apply (classify_spec (dn 2)) in C as (C & T). split; [exact C|]. split; [exact T|reflexivity].
Qed.
Lemma dex_entries : entries dex (dn 2) [mkEntry 0 1 1].
Proof. split; [repeat constructor; cbn; unfold in_u; lia|reflexivity]. Qed.
Ltac dsym I := cbn [In o_syms dex] in I; repeat match type of I with _ \/ _ => destruct I as [I|I] | False => destruct I end.
Lemma dex_regular : regular dex.
Proof.
  constructor.
  - exists null. split; [reflexivity|]. split; [|reflexivity]. cbn. unfold reserved, data_name, begins. intros [(t & E)|[(t & E)|[(t & E)|[E|[E|[(t & E)|(t & E)]]]]]]; discriminate.
  - intros i s H. apply dex_sect in H. seven H; (split; [apply bytes_okb; reflexivity|]); (split; [intros [E|E]; first [discriminate E|reflexivity]|]); vm_compute; split; congruence.
  - intros y I. dsym I; subst y; cbn [y_section y_value y_size y_type]; unfold in_u; repeat split; lia.
  - cbn. lia.
  - intros i s H. apply dex_reloc in H as (-> & ->). split; [reflexivity|]. split; [eexists; exact dex_entries|]. split.
    + intros es He. rewrite (entries_fun _ _ _ _ dex_entries He). cbn [map e_off]. repeat (constructor; [cbn; lia|]). constructor.
    + intros s' H. apply dex_reloc in H as (_ & ->). reflexivity.
  - intros i f g (If & Sf & Nf & Tf) (Ig & Sg & Ng & Tg) V. dsym If; dsym Ig; subst f g; cbn [y_section y_name y_type y_bind y_value] in *; try reflexivity; try congruence; try lia.
Qed.
Lemma dex_described : forall i s v, data_section dex i s -> described (Some dex_btf) s v -> (i = 3 /\ In v [mkDvar "x" true 0 4 70; mkDvar "y" true 4 2 71; mkDvar "z" true 6 1 72]) \/ (i = 5 /\ v = mkDvar "s" true 0 4 73).
Proof.
  intros i s v H (b & vs & E & Eb & I). injection E as <-. apply dex_data in H as [(-> & ->)|[(-> & ->)|[(-> & ->)|(-> & ->)]]]; vm_compute in Eb; try discriminate; injection Eb as <-; [now left|right]. destruct I as [<-|[]]. auto.
Qed.
Lemma dex_variable : forall i y, variable dex i y <-> (i = 3 /\ y = mkSym "x" 1 1 3 0 4 0) \/ (i = 4 /\ y = mkSym "limit" 1 2 4 0 4 0) .
Proof.
  intros i y. split.
  - intros ((I & S & N & T) & B & V & _). dsym I; subst y; cbn [y_section y_name y_type y_bind y_other] in *; subst i; try lia; try congruence; [left|right]; split; reflexivity.
  - intros [(-> & ->)|(-> & ->)]; (split; [|cbn; split; [lia|]; split; [now left|]; intros (t & E); discriminate E]); (split; [cbn; tauto|]); cbn; (split; [reflexivity|]); (split; [discriminate|lia]).
Qed.
Lemma dex_usual : usual_data dex (Some dex_btf).
Proof.
  constructor.
  - intros i s f g _ (If & Sf & Nf & Tf) (Ig & Sg & Ng & Tg) V. dsym If; dsym Ig; subst f g; cbn [y_section y_name y_type y_value] in *; try reflexivity; exfalso; try congruence; try lia.
  - intros i j s t H H' E. apply dex_data in H. apply dex_data in H'. destruct H as [(-> & ->)|[(-> & ->)|[(-> & ->)|(-> & ->)]]], H' as [(-> & ->)|[(-> & ->)|[(-> & ->)|(-> & ->)]]]; try reflexivity; vm_compute in E; discriminate E.
  - intros i j s t v y H D H' Hv E. apply (dex_described i s v H) in D. apply dex_variable in Hv. destruct D as [(-> & D)|(-> & ->)], Hv as [(-> & ->)|(-> & ->)]; try reflexivity; cbn in E; try discriminate E. cbn [In] in D. destruct D as [<-|[<-|[<-|[]]]]; cbn in E; discriminate E.
  - intros i s v w H D D' E. apply (dex_described i s v H) in D. apply (dex_described i s w H) in D'. destruct D as [(-> & D)|(-> & ->)], D' as [(X & D')|(X & ->)]; try discriminate X; [|reflexivity]. cbn [In] in D, D'. destruct D as [<-|[<-|[<-|[]]]], D' as [<-|[<-|[<-|[]]]]; try reflexivity; cbn in E; discriminate E.
Qed.
Theorem C77_example : regular dex /\ usual_data dex (Some dex_btf) /\
  loadVariables dex (Some dex_btf) (indices dex) (indices dex) (symbolsOf dex) = Some (Ok
    ([("limit", mkVspec ".rodata" "limit" 0 [9; 0; 0; 0] None); ("x", mkVspec ".data" "x" 0 [1; 0; 0; 0] (Some 70))],
     [(".bss", mkMspec ".bss" 4 4 0 [(0, [0; 0; 0; 0])] (dex_btf ".bss"));
      (".rodata", mkMspec ".rodata" 4 4 128 [(0, [9; 0; 0; 0])] None);
      (".data", mkMspec ".data" 4 8 0 [(0, [1; 0; 0; 0; 2; 0; 3; 4])] (dex_btf ".data"))])).
Proof. split; [exact dex_regular|]. split; [exact dex_usual|]. vm_compute. reflexivity. Qed.

(** *** What fails outside of the usual files *)
Definition dfile (a b : string) (syms : list sym) : obj := mkObj [null; sec a 1 3 0 0 [1; 0; 0; 0]; sec b 1 3 0 0 [2; 0; 0; 0]] syms LE.
Definition typeOf (o : obj) (b : option datasecs) (po : list Z) (n : string) : option (res derr (option (option Z))) :=
  match loadVariables o b [] po (symbolsOf o) with
  | Some (Ok (vars, _)) => Some (Ok (match lookup n vars with Some v => Some (vs_type v) | None => None end))
  | Some (Err e) => Some (Err e) | None => None end.
(** A static variable x in .data and a global variable x in .data.b: if .data.b is visited first, the global one is taken for
    the one which the BTF of .data describes.  It gets the type of the static one if BTF doesn't describe .data.b ... *)
Theorem C77_order_refuted : let o := dfile ".data" ".data.b" [mkSym "x" 1 0 1 0 4 0; mkSym "x" 1 1 2 0 4 0] in
  let b := fun n => if String.eqb n ".data" then Some [mkDvar "x" true 0 4 70] else None in
  typeOf o (Some b) [0; 1; 2] "x" = Some (Ok (Some None)) /\ typeOf o (Some b) [0; 2; 1] "x" = Some (Ok (Some (Some 70))).
Proof. split; vm_compute; reflexivity. Qed.
(** ... or loading fails, if size or offset differ, even though BTF describes both correctly. *)
Theorem C77_order_fails_refuted : let o := dfile ".data" ".data.b" [mkSym "x" 1 0 1 0 2 0; mkSym "x" 1 1 2 0 4 0] in
  let b := fun n => if String.eqb n ".data" then Some [mkDvar "x" true 0 2 70] else if String.eqb n ".data.b" then Some [mkDvar "x" true 0 4 71] else None in
  typeOf o (Some b) [0; 1; 2] "x" = Some (Ok (Some (Some 71))) /\ typeOf o (Some b) [0; 2; 1] "x" = Some (Err (DMismatch "x")).
Proof. split; vm_compute; reflexivity. Qed.
(** Of two variables at one offset, one is missing. *)
Theorem C77_alias_refuted : let o := dfile ".data" ".rodata" [mkSym "x" 1 1 1 0 4 0; mkSym "alias" 1 1 1 0 4 0] in
  typeOf o None (indices o) "x" = Some (Ok None) /\ typeOf o None (indices o) "alias" = Some (Ok (Some None)).
Proof. split; vm_compute; reflexivity. Qed.
(** Of two sections with one name, one map is missing: which one depends on the order.  The variables of both remain. *)
Theorem C77_same_name_refuted : let o := dfile ".data" ".data" [mkSym "x" 1 1 1 0 4 0; mkSym "y" 1 1 2 0 4 0] in
  let first po := match loadVariables o None [] po (symbolsOf o) with Some (Ok (vars, maps)) => Some (map fst vars, match lookup ".data" maps with Some m => ms_contents m | None => [] end) | _ => None end in
  first [0; 1; 2] = Some (["y"; "x"], [(0, [2; 0; 0; 0])]) /\ first [0; 2; 1] = Some (["x"; "y"], [(0, [1; 0; 0; 0])]).
Proof. split; vm_compute; reflexivity. Qed.
Print Assumptions C77_example.
Print Assumptions C77_order_refuted.
Print Assumptions C77_order_fails_refuted.
Print Assumptions C77_alias_refuted.
Print Assumptions C77_same_name_refuted.
