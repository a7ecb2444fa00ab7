(** C76: a file which meets the hypotheses, and files for which the property fails. *)
From Coq Require Import String Ascii Sorting.Sorted Permutation.
From Verif Require Import Base.GoInt Asm.Model Asm.Spec Asm.Proof Asm.ProofStream Asm.Props Link.Flatten Link.PropsFlatten Elf.Programs Elf.ProgramsSpec Elf.ProgramsProof Elf.ProgramsStep Elf.PropsPrograms Elf.PropsProgramsLoad.
Open Scope string_scope. Open Scope list_scope. Open Scope Z_scope.

Definition null := mkSec "" 0 0 0 0 0 [] false.
Definition sec (name : string) (typ flags info ent : Z) (data : list Z) := mkSec name typ flags info ent (Z.of_nat (List.length data)) data false.
Definition exit8 : list Z := [0x95; 0; 0; 0; 0; 0; 0; 0].
Definition call8 (imm : Z) : list Z := [0x85; 0x10; 0; 0] ++ put LE 4 (imm mod 2 ^ 32).
Definition lddw (reg imm : Z) : list Z := [0x18; reg; 0; 0] ++ put LE 4 (imm mod 2 ^ 32) ++ [0; 0; 0; 0] ++ put LE 4 (imm / 2 ^ 32).
(** .text: static helper and global lib, which calls helper; section socket: prog, which uses a map, a variable at offset 4
    of .data, calls lib via the section symbol, and a kfunc *)
Definition ex : obj := mkObj
  [null;
   sec ".text" 1 6 0 0 (exit8 ++ call8 (-2) ++ exit8);
   sec "socket" 1 6 0 0 (lddw 1 0 ++ lddw 2 4 ++ call8 0 ++ call8 (-1) ++ exit8);
   sec ".relsocket" 9 0 2 16 (concat (map (entry_bytes LE) [mkEntry 0 6 1; mkEntry 16 2 1; mkEntry 32 1 10; mkEntry 40 7 10]));
   sec ".maps" 1 3 0 0 [0; 0; 0; 0; 0; 0; 0; 0];
   sec ".data" 1 3 0 0 [0; 0; 0; 0; 1; 0; 0; 0]]
  [mkSym "" 3 0 1 0 0 0; mkSym "" 3 0 5 0 0 0; mkSym "helper" 2 0 1 0 8 0; mkSym "lib" 2 1 1 8 16 0; mkSym "prog" 2 1 2 0 56 0; mkSym "events" 1 1 4 0 8 0; mkSym "bpf_kfunc" 0 1 0 0 0 0]
  LE.
Definition ext : externs := mkExt (String.eqb "bpf_kfunc") (fun _ => false) None.
Ltac cases_in H := cbn [In o_syms ex o_sects] in H; repeat match type of H with _ \/ _ => destruct H as [H|H] | False => destruct H end.
Lemma ex_sect : forall i s, sect ex i s <-> (i = 0 /\ s = nth 0 (o_sects ex) null) \/ (i = 1 /\ s = nth 1 (o_sects ex) null) \/ (i = 2 /\ s = nth 2 (o_sects ex) null) \/ (i = 3 /\ s = nth 3 (o_sects ex) null) \/ (i = 4 /\ s = nth 4 (o_sects ex) null) \/ (i = 5 /\ s = nth 5 (o_sects ex) null).
Proof.
  intros i s. split.
  - intros (H0 & H). assert (B : (Z.to_nat i < 6)%nat) by (change 6%nat with (List.length (o_sects ex)); apply nth_error_Some; congruence).
    assert (C : i = 0 \/ i = 1 \/ i = 2 \/ i = 3 \/ i = 4 \/ i = 5) by lia. destruct C as [-> | [-> | [-> | [-> | [-> | ->]]]]]; cbn [Z.to_nat Pos.to_nat Pos.iter_op Nat.add nth_error o_sects ex] in H; injection H as <-; cbn [nth o_sects ex]; tauto.
  - intros [(-> & ->)|[(-> & ->)|[(-> & ->)|[(-> & ->)|[(-> & ->)|(-> & ->)]]]]]; (split; [lia|reflexivity]).
Qed.
Lemma ex_program : forall i s, program_section ex i s <-> (i = 1 /\ s = nth 1 (o_sects ex) null) \/ (i = 2 /\ s = nth 2 (o_sects ex) null).
Proof.
  intros i s. split.
  - intros H. assert (K : kindAt ex i = Some KProg) by (apply kind_prog; eauto). destruct H as (H & _). apply ex_sect in H as [(-> & ->)|[(-> & ->)|[(-> & ->)|[(-> & ->)|[(-> & ->)|(-> & ->)]]]]]; try tauto; vm_compute in K; discriminate.
  - intros H. assert (K : exists t, program_section ex i t) by (apply kind_prog; destruct H as [(-> & _)|(-> & _)]; reflexivity). destruct K as (t & K). replace s with t; [exact K|]. apply (sect_fun ex i); [apply K|]. apply ex_sect. tauto.
Qed.
Lemma ex_reloc : forall i s, reloc_section ex i s <-> i = 2 /\ s = nth 3 (o_sects ex) null.
Proof.
  intros i s. split.
  - intros (I & _ & T & <-). cases_in I; subst s; cbn in T; try discriminate. split; reflexivity.
  - intros (-> & ->). split; [cbn; tauto|]. assert (C : classify (nth 3 (o_sects ex) null) = CRel) by reflexivity. apply (classify_spec (nth 3 (o_sects ex) null)) in C as (C & T). split; [exact C|]. split; [exact T|reflexivity].
Qed.
Lemma ex_entries : entries ex (nth 3 (o_sects ex) null) [mkEntry 0 6 1; mkEntry 16 2 1; mkEntry 32 1 10; mkEntry 40 7 10].
Proof. split; [repeat constructor; cbn; unfold in_u; lia|reflexivity]. Qed.
Lemma bytes_okb : forall l, forallb (fun b => (0 <=? b) && (b <? 256)) l = true -> bytes_ok l.
Proof. intros l H. apply Forall_forall. rewrite forallb_forall in H. intros b Hb. specialize (H b Hb). unfold is_byte. lia. Qed.
Lemma ex_regular : regular ex.
Proof.
  constructor.
  - exists null. split; [reflexivity|]. split; [|reflexivity]. cbn. unfold reserved, data_name, begins. intros [(t & E)|[(t & E)|[(t & E)|[E|[E|[(t & E)|(t & E)]]]]]]; discriminate.
  - intros i s H. apply ex_sect in H as [(-> & ->)|[(-> & ->)|[(-> & ->)|[(-> & ->)|[(-> & ->)|(-> & ->)]]]]]; cbn [nth o_sects ex]; (split; [apply bytes_okb; reflexivity|]); (split; [intros _; reflexivity|]); vm_compute; split; congruence.
  - intros y I. cases_in I; subst y; cbn [y_section y_value y_size y_type]; unfold in_u; repeat split; lia.
  - cbn. lia.
  - intros i s H. apply ex_reloc in H as (-> & ->). split; [reflexivity|]. split; [eexists; exact ex_entries|]. split.
    + intros es He. rewrite (entries_fun _ _ _ _ ex_entries He). cbn [map e_off]. repeat (constructor; [cbn; lia|]). constructor.
    + intros s' H. apply ex_reloc in H as (_ & ->). reflexivity.
  - intros i f g (If & Sf & Nf & Tf) (Ig & Sg & Ng & Tg) V. cases_in If; cases_in Ig; subst f g; cbn [y_section y_name y_type y_bind y_value] in *; try reflexivity; try congruence; try lia.
Qed.
Definition ex_rels : rels := match relocationsOf ex 2 with Some (Ok m) => m | _ => [] end.
Lemma ex_relocated1 : forall a y, ~ relocated ex 1 a y.
Proof. intros a y (s & es & e & H & _). apply ex_reloc in H as (E & _). discriminate. Qed.
Lemma ex_relocated2 : forall a y, relocated ex 2 a y <-> relAt ex_rels a = Some y.
Proof.
  intros a y. assert (Hs : program_section ex 2 (nth 2 (o_sects ex) null)) by (apply ex_program; tauto). symmetry. apply (relocations_spec ex 2 _ ex_rels ex_regular Hs). reflexivity.
Qed.
Definition ex_names := [("helper", 1%Z); ("lib", 1%Z); ("prog", 2%Z)].
Lemma ex_function : forall i f, function_symbol ex i f <-> (i = 1 /\ f = nth 2 (o_syms ex) (mkSym "" 0 0 0 0 0 0)) \/ (i = 1 /\ f = nth 3 (o_syms ex) (mkSym "" 0 0 0 0 0 0)) \/ (i = 2 /\ f = nth 4 (o_syms ex) (mkSym "" 0 0 0 0 0 0)) \/ (i = 0 /\ f = nth 6 (o_syms ex) (mkSym "" 0 0 0 0 0 0)).
Proof.
  intros i f. split.
  - intros (I & S & N & T). cases_in I; subst f; cbn [y_section y_name y_type y_bind nth o_syms ex] in *; subst i; try (exfalso; lia); try congruence; tauto.
  - intros [(-> & ->)|[(-> & ->)|[(-> & ->)|(-> & ->)]]]; (split; [cbn; tauto|]); cbn [y_section y_name y_type y_bind nth o_syms ex]; (split; [reflexivity|]); (split; [discriminate|]); lia.
Qed.
Lemma ex_usual : usual_file ex.
Proof.
  intros i s f l k ins Hs Hf _ Hc Hk. apply ex_program in Hs as [(-> & ->)|(-> & ->)]; apply ex_function in Hf as [(E & ->)|[(E & ->)|[(E & ->)|(E & ->)]]]; try discriminate E; clear E; vm_compute in Hc; injection Hc as <-;
    repeat (destruct k as [|k]; [cbn [nth_error] in Hk; injection Hk as <-|]; [|cbn [nth_error] in Hk]); try (destruct k; discriminate Hk).
  all: match goal with |- usual ?a ?b ?c ?d => let c' := eval vm_compute in c in change (usual a b c' d) end.
  all: unfold usual, function_reference, is_call, is_dword, cls, in_s, in_u; cbn [Constant OpCode Src].
  all: repeat split; intros; repeat match goal with H : relocated ex 1 _ _ |- _ => destruct (ex_relocated1 _ _ H) | H : relocated ex 2 _ _ |- _ => apply ex_relocated2 in H; vm_compute in H; first [discriminate H|injection H as <-; cbn [y_section y_value y_type y_name] in *] end; try lia.
  all: try (exfalso; match goal with H : program_section ex _ _ |- _ => apply ex_program in H as [(H & _)|(H & _)]; discriminate H end).
  all: try discriminate.
  all: exfalso; match goal with H : data_section ex 0 ?s |- _ => assert (K : kindAt ex 0 = Some KData) by (apply kind_data; eauto); discriminate K end.
Qed.
Lemma ex_loads : exists progs linked, loadPrograms ex ext (indices ex) (indices ex) = Some (Ok (progs, linked)).
Proof. eexists _, _. vm_compute. reflexivity. Qed.
Lemma ex_loadable : loadable ex ext.
Proof.
  destruct ex_loads as (progs & linked & E). destruct (C76_programs _ _ _ _ _ _ ex_regular ex_usual (Permutation_refl _) E) as (_ & Un & A & _). constructor.
  - intros s H. cases_in H; subst s; discriminate.
  - intros i s es e _ H He Ie. apply ex_reloc in H as (-> & ->). rewrite (entries_fun _ _ _ _ ex_entries He) in Ie.
    destruct Ie as [<-|[<-|[<-|[<-|[]]]]]; cbn [e_sym]; eexists; (split; [split; [lia|reflexivity]|]); cbn [y_section].
    + right. eexists. right. left. split; [apply ex_sect; right; right; right; right; left; split; reflexivity|]. cbn. split; [now right|]. split; intros (t & H); discriminate.
    + right. eexists. right. right. left. split; [apply ex_sect; right; right; right; right; right; split; reflexivity|]. right. left. now exists "".
    + right. eexists. left. apply ex_program. left. split; reflexivity.
    + now left.
  - intros i s H. apply ex_program in H as [(-> & ->)|(-> & ->)]; (split; [reflexivity|]); eexists; apply ex_function; [left|right; right; left]; split; reflexivity.
  - intros i s f Hs Hf. destruct (A i s f Hs Hf) as (js & _ & Tr). eauto.
  - exact Un.
Qed.
(** the program is linked with lib and helper: *)
Lemma ex_needs : needs ex 2 (mkSym "prog" 2 1 2 0 56 0) 1 (mkSym "helper" 2 0 1 0 8 0).
Proof.
  eapply n_indirect with (j := 1) (g := mkSym "lib" 2 1 1 8 16 0).
  - apply n_direct. eexists _, _, _, 2%nat, _. split; [apply ex_program; right; split; reflexivity|]. split; [apply ex_function; right; right; left; split; reflexivity|]. split; [apply ex_program; left; split; reflexivity|]. split; [apply ex_function; right; left; split; reflexivity|]. split; [vm_compute; reflexivity|]. split; [reflexivity|].
    right. exists (mkSym "" 3 0 1 0 0 0). split; [apply ex_relocated2; vm_compute; reflexivity|]. split; [reflexivity|]. left. split; [split; reflexivity|reflexivity].
  - eexists _, _, _, 0%nat, _. split; [apply ex_program; left; split; reflexivity|]. split; [apply ex_function; right; left; split; reflexivity|]. split; [apply ex_program; left; split; reflexivity|]. split; [apply ex_function; left; split; reflexivity|]. split; [vm_compute; reflexivity|]. split; [reflexivity|].
    left. split; [intros y; apply ex_relocated1|]. split; [left; split; [split; reflexivity|reflexivity]|]. split; [discriminate|]. split; reflexivity.
Qed.
Theorem C76_example : regular ex /\ usual_file ex /\ loadable ex ext /\ needs ex 2 (mkSym "prog" 2 1 2 0 56 0) 1 (mkSym "helper" 2 0 1 0 8 0) /\
  exists progs, loadPrograms ex ext [] (indices ex) = Some (Ok (progs, [("prog",
    [mkIns 0x18 1 1 0 0 "prog" "events" None; mkIns 0x18 2 2 0 (4 * 2 ^ 32) "" ".data" None; mkIns 0x85 0 1 0 (-1) "" "lib" None; mkIns 0x85 0 2 0 (-1) "" "bpf_kfunc" None; mkIns 0x95 0 0 0 0 "" "" None;
     mkIns 0x85 0 1 0 (-1) "lib" "helper" None; mkIns 0x95 0 0 0 0 "" "" None; mkIns 0x95 0 0 0 0 "helper" "" None])])).
Proof. split; [exact ex_regular|]. split; [exact ex_usual|]. split; [exact ex_loadable|]. split; [exact ex_needs|]. eexists. vm_compute. reflexivity. Qed.

(** *** What fails outside of the usual files *)
Definition file (text prog : list Z) (rels : list entry) (syms : list sym) : obj := mkObj
  [null; sec ".text" 1 6 0 0 text; sec "socket" 1 6 0 0 prog; sec ".relsocket" 9 0 2 16 (concat (map (entry_bytes LE) rels)); sec ".data" 1 3 0 0 [0; 0; 0; 0; 0; 0; 0; 0]]
  ([mkSym "a" 2 1 1 0 8 0; mkSym "b" 2 1 1 8 8 0; mkSym "prog" 2 1 2 0 (Z.of_nat (List.length prog)) 0; mkSym "var" 1 1 4 4 4 0] ++ syms) LE.
Definition resolvedRef (o : obj) (k : nat) : option (Z * string) :=
  match loadPrograms o ext (indices o) (indices o) with
  | Some (Ok (_, [(_, l)])) => match nth_error l k with Some i => Some (Constant i, Reference i) | None => None end
  | _ => None end.
(** The address of the global function b (S + imm = 8 + 0): the value of the symbol is ignored and the address of a, which
    lies at offset 0 + imm, taken instead. *)
Theorem C76_function_pointer_refuted : let o := file (exit8 ++ exit8) (lddw 1 0 ++ exit8) [mkEntry 0 2 1] [] in
  nth_error (o_syms o) 1 = Some (mkSym "b" 2 1 1 8 8 0) /\ resolvedRef o 0 = Some (-1, "a").
Proof. split; vm_compute; reflexivity. Qed.
(** A variable plus an addend (var + 2, at 4 + 2 = 6): the addend is ignored. *)
Theorem C76_addend_refuted : let o := file (exit8 ++ exit8) (lddw 1 2 ++ exit8) [mkEntry 0 4 1] [] in
  nth_error (o_syms o) 3 = Some (mkSym "var" 1 1 4 4 4 0) /\ resolvedRef o 0 = Some (4 * 2 ^ 32, ".data").
Proof. split; vm_compute; reflexivity. Qed.
(** A call of a global function plus an addend (a + 8 * (0 + 1), which is b) is a call of a, and, as the constant isn't -1,
    not even linked: the program ends after its own instructions. *)
Theorem C76_call_addend_refuted : let o := file (exit8 ++ exit8) (call8 0 ++ exit8) [mkEntry 0 1 10] [] in
  resolvedRef o 0 = Some (0, "a") /\ resolvedRef o 2 = None.
Proof. split; vm_compute; reflexivity. Qed.
(** A call to an address before the start of the section is taken for a call of its first function. *)
Theorem C76_negative_refuted : let o := file (exit8 ++ exit8) (call8 (-5) ++ exit8) [] [] in resolvedRef o 0 = Some (-1, "prog").
Proof. vm_compute. reflexivity. Qed.
(** Two names for one function: only one of them is known, and a call by the other one remains unresolved. *)
Theorem C76_alias_refuted : let o := file (exit8 ++ exit8) (call8 (-1) ++ exit8) [mkEntry 0 1 10] [mkSym "alias" 2 1 1 0 8 0] in
  resolvedRef o 0 = Some (-1, "a") /\ exists progs linked, loadPrograms o ext (indices o) (indices o) = Some (Ok (progs, linked)) /\ ~ In "a" (map g_name progs) /\ In "alias" (map g_name progs).
Proof. split; [vm_compute; reflexivity|]. eexists _, _. split; [vm_compute; reflexivity|]. cbn. split; [|tauto]. intros [E|[E|[E|[]]]]; discriminate. Qed.
(** If the file ends within a section, the functions are cut off without an error. *)
Definition truncated : obj :=
  mkObj [null; mkSec "socket" 1 6 0 0 24 (exit8 ++ exit8) false] [mkSym "prog" 2 1 1 0 24 0] LE.
Theorem C76_truncated_refuted : exists progs l, loadPrograms truncated ext [] (indices truncated) = Some (Ok (progs, [("prog", l)])) /\ List.length l = 2%nat.
Proof. eexists _, _. vm_compute. split; reflexivity. Qed.
