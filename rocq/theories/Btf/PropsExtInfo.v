(** C60: loading a .BTF.ext section. *)
From Coq Require Import ZArith List Lia Bool Sorting.Sorted Permutation.
From Verif.Base Require Import GoInt ListExtra.
From Verif.Btf Require Import Strings StringsSpec StringsProof Wire WireSpec WireProof Names PropsNames Types Decode DecodeSpec DecodeRec DecodeTags DecodeProof PropsDecode Encode EncodeDone
  ExtInfo ExtInfoSpec ExtInfoProof ExtInfoLoad.
Import ListNotations.
Open Scope Z_scope.

(** ** from the parsed sections to the result *)
Lemma put_key {A} (m : list (str * A)) k v : In k (map fst (m_put m k v)).
Proof. rewrite put_keys. destruct (existsb (str_eqb k) (map fst m)) eqn:E; [|apply in_or_app; right; now left]. apply existsb_exists in E as (x & H & X). apply str_eqb_eq in X. now subst. Qed.
Lemma put_keys_In {A} (m : list (str * A)) k v n : In n (map fst (m_put m k v)) <-> n = k \/ In n (map fst m).
Proof.
  rewrite put_keys. destruct (existsb (str_eqb k) (map fst m)) eqn:E.
  - split; [auto|]. intros [->|H]; [|exact H]. pose proof (put_key m k v) as P. now rewrite put_keys, E in P.
  - rewrite in_app_iff. cbn. intuition.
Qed.
Lemma puts_keys_In {A} (l : list (str * A)) : forall m n, In n (map fst (puts m l)) <-> In n (map fst m) \/ In n (map fst l).
Proof. induction l as [|(k, v) l IH]; intros m n; cbn [puts map fst]; [cbn; intuition|]. rewrite IH, put_keys_In. cbn. intuition. Qed.
Definition sections_of (names : list str) (secs : list (Z * list (list Z))) : list (str * list (list Z)) := combine names (map snd secs).
Lemma named_of t secs names : Forall2 (named_section t) secs names -> named t secs (sections_of names secs).
Proof. induction 1 as [|sec n secs names (L & N) F IH]; constructor; auto. Qed.
Lemma of_named t secs fn : named t secs fn -> Forall2 (named_section t) secs (map fst fn) /\ fn = sections_of (map fst fn) secs.
Proof. induction 1 as [|sec (n, rs) secs fn (L & N & E) F (I1 & I2)]; [split; constructor|]. cbn in *. split; [constructor; [now split|exact I1]|]. unfold sections_of. cbn. rewrite E. f_equal. exact I2. Qed.
Lemma insns_of names secs : insn_sections names secs = map (fun n => (fst n, map in_insns (snd n))) (sections_of names secs).
Proof. unfold insn_sections, sections_of. revert secs. induction names as [|n names IH]; intros [|sec secs]; cbn; try reflexivity. now rewrite IH. Qed.
Lemma entries_insns {A} (E : list Z -> Z * A -> Prop) rs es : entries_of E (map in_insns rs) es -> entries_of (fun ws => E (in_insns ws)) rs es.
Proof.
  intros ((es' & F & P) & S). split; [|exact S]. exists es'. split; [|exact P]. clear -F. revert es' F. induction rs as [|ws rs IH]; intros es' F; inversion F; subst; constructor; auto.
Qed.
Lemma loaded_of {A} (E E' : list Z -> Z * A -> Prop) fn out : (forall a b, E a b -> E' a b) -> loaded_insns E (puts [] (map (fun n => (fst n, map in_insns (snd n))) fn)) out -> loaded E' fn out.
Proof.
  intros H (N & K & C). split; [exact N|]. split.
  - intros name. rewrite K, puts_keys_In, map_map. cbn. intuition.
  - intros name es Hi. destruct (C name es Hi) as (rs & Hr & En). apply puts_In in Hr as [[]|Hr]. apply in_map_iff in Hr as ((n & rs') & X & Hr). cbn in X. injection X as -> <-. exists rs'. split; [exact Hr|]. apply entries_insns. eapply entries_impl; eassumption.
Qed.
Lemma puts_empty {A} (l : list (str * A)) : puts [] l = [] -> l = [].
Proof. destruct l as [|(k, v) l]; [reflexivity|]. intros E. pose proof (proj2 (puts_keys_In ((k, v) :: l) [] k)) as X. rewrite E in X. destruct X. right. now left. Qed.

(** ** headers *)
Definition as_header (h : extHeader) : btfHeader := mkHeader 60319 1 0 (x_hdrLen h) (x_funcOff h) (x_funcLen h) (x_lineOff h) (x_lineLen h).
Definition word_ok (h : extHeader) : Prop := Forall (in_u 32) [x_hdrLen h; x_funcOff h; x_funcLen h; x_lineOff h; x_lineLen h].
Lemma header_as bo hl fo fl lo ll subs : encode_header bo hl ((fo, fl) :: (lo, ll) :: subs) = header_bytes bo (as_header (mkExt hl fo fl lo ll)) ++ concat (map (fun s => put bo 4 (fst s) ++ put bo 4 (snd s)) subs).
Proof. unfold encode_header, header_bytes, as_header. cbn [Magic Version Flags HdrLen TypeOff TypeLen StringOff StringLen x_hdrLen x_funcOff x_funcLen x_lineOff x_lineLen map concat fst snd]. rewrite <- !app_assoc. reflexivity. Qed.
Lemma as_ranges h : word_ok h -> header_ranges (as_header h).
Proof. intros F. unfold word_ok in F. repeat match goal with H : Forall _ (_ :: _) |- _ => apply Forall_cons_iff in H as (? & ?) end. unfold header_ranges, as_header. cbn. repeat split; try assumption; try lia; apply H || apply H0 || apply H1 || apply H2 || apply H3. Qed.
Lemma parse_header_ok bo h r : word_ok h -> 24 <= x_hdrLen h -> parseBTFExtHeader bo (header_bytes bo (as_header h) ++ r) = Ok (h, r).
Proof.
  intros W L. unfold parseBTFExtHeader, readFull. rewrite app_length, header_length. destruct (Nat.ltb_spec (24 + length r) 24); [lia|].
  rewrite firstn_app_len, skipn_app_len by apply header_length. pose proof (decode_header bo (as_header h) [] (as_ranges h W)) as D. rewrite app_nil_r in D. unfold decodeHeader, as_header in D.
  injection D as D1 D2 D3 D4 D5 D6 D7 D8. fold (as_header h) in *. rewrite D1, D2, D3, D4, D5, D6, D7, D8. change (60319 =? btfMagic) with true. cbn [Z.eqb Pos.eqb negb]. cbn [x_hdrLen].
  destruct (Z.ltb_spec (x_hdrLen h) 24); [lia|]. now destruct h.
Qed.
Lemma parse_header_sound bo r h r' : bytes_ok r -> parseBTFExtHeader bo r = Ok (h, r') -> r = header_bytes bo (as_header h) ++ r' /\ word_ok h /\ 24 <= x_hdrLen h.
Proof.
  intros B E. unfold parseBTFExtHeader, readFull in E. destruct (Nat.ltb_spec (length r) 24) as [Sh|Sh]; [destruct r; discriminate E|].
  set (b := firstn 24 r) in *. assert (Bb : bytes_ok b) by (rewrite <- (firstn_skipn 24 r) in B; apply bytes_ok_app in B; apply B). assert (Lb : length b = 24%nat) by (unfold b; rewrite firstn_length; lia).
  pose proof (header_split bo b Bb ltac:(lia)) as Hs. pose proof (decode_ranges bo b Bb ltac:(lia)) as Hr. rewrite skipn_all2, app_nil_r in Hs by lia. unfold decodeHeader in Hs, Hr.
  destruct (Z.eqb_spec (get bo (at_ b 0 2)) btfMagic) as [M|]; [|discriminate E]. destruct (Z.eqb_spec (get bo (at_ b 2 1)) 1) as [V|]; [|discriminate E]. destruct (Z.eqb_spec (get bo (at_ b 3 1)) 0) as [Fl|]; [|discriminate E]. cbn [negb x_hdrLen] in E.
  destruct (Z.ltb_spec (get bo (at_ b 4 4)) 24); [discriminate E|]. injection E as <- <-. unfold as_header, word_ok. cbn [x_hdrLen x_funcOff x_funcLen x_lineOff x_lineLen]. rewrite M, V, Fl in Hs. change btfMagic with 60319 in Hs.
  split; [rewrite <- Hs; symmetry; apply firstn_skipn|]. split; [|lia]. unfold header_ranges in Hr. cbn in Hr. destruct Hr as (_ & _ & _ & R1 & R2 & R3 & R4 & R5). repeat constructor; apply R1 || apply R2 || apply R3 || apply R4 || apply R5.
Qed.
Lemma core_header bo h r : bytes_ok r -> parseBTFExtCOREHeader bo h r = match readWords bo 2 r with Ok ([off; len], _) => Ok (Some (off, len)) | Ok _ => Err XPanic | Err e => Err e end \/ x_hdrLen h = -1.
Proof. intros B. unfold parseBTFExtCOREHeader. destruct (Z.eqb_spec (x_hdrLen h - -1) 0); [right; lia|left; reflexivity]. Qed.
Lemma part_at bo bytes hl off len k secs : Z.of_nat (length bytes) < 2 ^ 32 -> 0 <= hl -> 0 <= off -> subsection_at bo bytes hl off len k secs -> part bytes (u32 (hl + off)) len = encode_infos bo (4 * Z.of_nat k) secs.
Proof.
  intros L H O ((pre & post & E & P) & Ln & _). assert (R : 0 <= hl + off < 2 ^ 32) by (rewrite E, !app_length in L; lia). unfold u32, wrapu. rewrite Z.mod_small by exact R. unfold part.
  rewrite E, <- P, Nat2Z.id, skipn_app_len by reflexivity. rewrite <- Ln, Nat2Z.id. now apply firstn_app_len.
Qed.
Lemma fine_insns (P : list Z -> Prop) rs : (forall ws, P ws -> P (in_insns ws)) -> Forall P rs -> Forall P (map in_insns rs).
Proof. intros H F. induction F; constructor; auto. Qed.

(** ** C60 *)
(** A well formed section is loaded, whatever was asked of the types before: for each section named in it there is exactly
    one entry per record, in the order of the instructions, with the type TypeByID gives and the strings referred to. *)
Theorem C60_load : forall sort order s st0 bo bytes fsecs lsecs csecs fn ln cn,
  go_sort sort -> (forall m, Permutation (order m) m) -> Forall rec_ok (s_recs s) -> reached s st0 ->
  btf_ext bo true bytes fsecs lsecs csecs ->
  named (s_strings s) fsecs fn -> named (s_strings s) lsecs ln -> named (s_strings s) csecs cn ->
  Forall (fun sec => Forall (func_fine s) (snd sec)) fn -> Forall (fun sec => Forall (line_fine s) (snd sec)) ln -> Forall (fun sec => Forall (relo_fine s) (snd sec)) cn ->
  exists st infos, loadExtInfos sort s order bo st0 bytes = (st, Ok infos) /\ reached s st /\
    loaded (func_entry s st) fn (Funcs infos) /\ loaded (line_entry s) ln (Lines infos) /\ loaded (relo_entry s st) cn (CORERelos infos).
Proof.
  intros sort order s st0 bo bytes fsecs lsecs csecs fn ln cn Hsort Hord Hok R0 (fo & fl & lo & ll & co & cl & rest & Eb & Fw & Bb & Lb & Sf & Sl & Sc) Nf Nl Nc Ff Fl Fc. cbn [app] in Eb.
  repeat match goal with H : Forall (in_u 32) (_ :: _) |- _ => apply Forall_cons_iff in H as (? & ?) end. rewrite header_as in Eb. cbn [map concat fst snd] in Eb. rewrite app_nil_r, <- !app_assoc in Eb.
  assert (E0 : parseBTFExtHeader bo bytes = Ok (mkExt 32 fo fl lo ll, put bo 4 co ++ put bo 4 cl ++ rest)) by (rewrite Eb; apply parse_header_ok; [unfold word_ok, in_u in *; cbn [x_hdrLen x_funcOff x_funcLen x_lineOff x_lineLen]; repeat constructor; lia|cbn; lia]).
  unfold loadExtInfos. rewrite E0.
  assert (Ec : parseBTFExtCOREHeader bo (mkExt 32 fo fl lo ll) (put bo 4 co ++ put bo 4 cl ++ rest) = Ok (Some (co, cl))).
  { unfold parseBTFExtCOREHeader. cbn [x_hdrLen]. change (32 - -1 =? 0) with false. cbv iota. replace (put bo 4 co ++ put bo 4 cl ++ rest) with (encode_record bo [co; cl] ++ rest) by (unfold encode_record; cbn [map concat]; now rewrite app_nil_r, <- app_assoc). rewrite readWords_encode; [reflexivity|lia|]. split; [reflexivity|]. constructor; [assumption|]. constructor; [assumption|constructor]. }
  rewrite Ec. cbn [x_hdrLen x_funcOff x_funcLen x_lineOff x_lineLen]. unfold in_u in *. rewrite (part_at bo bytes 32 fo fl 2 fsecs), (part_at bo bytes 32 lo ll 4 lsecs) by (assumption || lia). change (4 * Z.of_nat 2) with 8. change (4 * Z.of_nat 4) with 16.
  apply of_named in Nf as (Nf & Ef), Nl as (Nl & El), Nc as (Nc & Ecn). rewrite (parseFuncInfos_complete bo _ fsecs (map fst fn) (proj2 (proj2 Sf)) Nf), insns_of, <- Ef.
  set (m1 := puts [] (map (fun n => (fst n, map in_insns (snd n))) fn)).
  assert (K : forall l : list (str * list (list Z)), NoDup (map fst (puts [] (map (fun n => (fst n, map in_insns (snd n))) l)))) by (intros l; apply puts_NoDup; constructor).
  assert (G : forall (P : list Z -> Prop) l, (forall ws, P ws -> P (in_insns ws)) -> Forall (fun sec => Forall P (snd sec)) l -> Forall (fun e : str * list (list Z) => Forall P (snd e)) (puts [] (map (fun n => (fst n, map in_insns (snd n))) l))).
  { intros P l Pi F. rewrite Forall_forall in F. apply Forall_forall. intros e He. apply puts_In in He as [[]|He]. apply in_map_iff in He as (n & <- & Hn). cbn [snd]. apply fine_insns; auto. }
  destruct (perSection_spec s order Hord _ _ _ st0 m1 (newFuncOffsets_stateful s Hok sort Hsort) R0 (K fn)) as (st1 & r1 & E1 & R1 & X1 & V1 & T1).
  destruct T1 as (funcs & ->). { apply G; [|exact Ff]. intros ws (off & id & r & name & -> & X). cbn [in_insns]. exists (off / 8), id, r, name. now split. }
  change (@perSection order (list (Z * ref))) with (@perSection order (list funcOffset)) in E1. rewrite E1. rewrite (parseLineInfos_complete bo _ lsecs (map fst ln) (proj2 (proj2 Sl)) Nl), insns_of, <- El.
  destruct (perSection_spec s order Hord _ _ _ st1 _ (newLineInfos_stateful s sort Hsort) R1 (K ln)) as (st2 & r2 & E2 & R2 & X2 & V2 & T2).
  destruct T2 as (lines & ->). { apply G; [|exact Fl]. intros ws (off & a & b & c & d & e & -> & X). cbn [in_insns]. exists (off / 8), a, b, c, d, e. now split. }
  change (@perSection order (list (Z * line))) with (@perSection order (list lineOffset)) in E2. rewrite E2. specialize (V1 _ eq_refl). specialize (V2 _ eq_refl). destruct (Z.eqb_spec cl 0) as [->|Ncl].
  - destruct Sc as [(_ & ->)|(X & _)]; [|contradiction]. assert (cn = []) by (rewrite Ecn; unfold sections_of; now destruct (map fst cn)). subst cn.
    exists st2. eexists. split; [reflexivity|]. split; [exact R2|]. cbn [Funcs Lines CORERelos]. split; [|split].
    + eapply loaded_of; [|exact V1]. intros a b Hab. apply (func_at_entry s st2). eapply (proj1 (funcs_stateful s Hok)); [exact X2|exact Hab].
    + eapply loaded_of; [|exact V2]. auto.
    + split; [constructor|]. split; [intros; reflexivity|]. intros ? ? [].
  - destruct Sc as [(X & _)|(_ & Sc)]; [contradiction|]. rewrite (part_at bo bytes 32 co cl 4 csecs) by (assumption || lia). change (4 * Z.of_nat 4) with 16.
    rewrite (parseCORERelos_complete bo _ csecs (map fst cn) (proj2 (proj2 Sc)) Nc), insns_of, <- Ecn.
    destruct (perSection_spec s order Hord _ _ _ st2 _ (newRelocationInfos_stateful s Hok sort Hsort) R2 (K cn)) as (st3 & r3 & E3 & R3 & X3 & V3 & T3).
    destruct T3 as (relos & ->). { apply G; [|exact Fc]. intros ws (off & a & b & c & d & e & -> & X). cbn [in_insns]. exists (off / 8), a, b, c, d, e. now split. }
    change (@perSection order (list (Z * relocation))) with (@perSection order (list reloOffset)) in E3. rewrite E3. specialize (V3 _ eq_refl). exists st3. eexists. split; [reflexivity|]. split; [exact R3|]. cbn [Funcs Lines CORERelos]. split; [|split].
    + eapply loaded_of; [|exact V1]. intros a b Hab. apply (func_at_entry s st3). eapply (proj1 (funcs_stateful s Hok)); [exact X3|]. eapply (proj1 (funcs_stateful s Hok)); [exact X2|exact Hab].
    + eapply loaded_of; [|exact V2]. auto.
    + eapply loaded_of; [|exact V3]. intros a b. apply relo_at_entry.
Qed.
Print Assumptions C60_load.

(** Whatever is loaded, from whatever bytes and after whatever history, is in the file: each section which is returned is
    one of the file, with exactly one entry per record, of the type and with the strings the record refers to. *)
Definition found_at (bo : byteorder) (bytes : list Z) (start len size : Z) (secs : list (Z * list (list Z))) : Prop :=
  firstn (Z.to_nat len) (skipn (Z.to_nat (start mod 2 ^ 32)) bytes) = encode_infos bo size secs.
Theorem C60_sound : forall sort order s st0 bo bytes st infos,
  go_sort sort -> (forall m, Permutation (order m) m) -> Forall rec_ok (s_recs s) -> reached s st0 -> bytes_ok bytes ->
  loadExtInfos sort s order bo st0 bytes = (st, Ok infos) ->
  reached s st /\
  exists hl fo fl lo ll co cl rest fsize lsize fsecs lsecs csecs fn ln cn,
    bytes = encode_header bo hl [(fo, fl); (lo, ll); (co, cl)] ++ rest /\ 24 <= hl /\
    found_at bo bytes (hl + fo) fl fsize fsecs /\ Forall (section_ok 2) fsecs /\ (fsize = 8 \/ fsecs = []) /\
    found_at bo bytes (hl + lo) ll lsize lsecs /\ Forall (section_ok 4) lsecs /\ (lsize = 16 \/ lsecs = []) /\
    (cl = 0 /\ csecs = [] \/ found_at bo bytes (hl + co) cl 16 csecs /\ Forall (section_ok 4) csecs) /\
    named (s_strings s) fsecs fn /\ named (s_strings s) lsecs ln /\ named (s_strings s) csecs cn /\
    loaded (func_entry s st) fn (Funcs infos) /\ loaded (line_entry s) ln (Lines infos) /\ loaded (relo_entry s st) cn (CORERelos infos).
Proof.
  intros sort order s st0 bo bytes st infos Hsort Hord Hok R0 Bb E. unfold loadExtInfos in E.
  destruct (parseBTFExtHeader bo bytes) as [(h & r)|] eqn:Eh; [|discriminate E]. destruct (parse_header_sound bo bytes h r Bb Eh) as (Eb & Wh & Lh).
  destruct (parseBTFExtCOREHeader bo h r) as [core|] eqn:Ec; [|discriminate E].
  assert (Br : bytes_ok r) by (rewrite Eb in Bb; apply bytes_ok_app in Bb; apply Bb).
  destruct (core_header bo h r Br) as [X|X]; [|lia]. rewrite X in Ec. clear X. destruct (readWords bo 2 r) as [(ws & r')|] eqn:Ew; [|discriminate Ec]. destruct (readWords_sound bo 2 r ws r' Br Ew) as (Er & (Lw & Fw) & Br').
  destruct ws as [|co [|cl [|? ?]]]; try discriminate Lw. injection Ec as <-.
  assert (Bp : forall o l, bytes_ok (part bytes o l)).
  { intros o l. unfold part. rewrite <- (firstn_skipn (Z.to_nat o) bytes) in Bb. apply bytes_ok_app in Bb as (_ & Bb). rewrite <- (firstn_skipn (Z.to_nat l) (skipn (Z.to_nat o) bytes)) in Bb. apply bytes_ok_app in Bb. apply Bb. }
  assert (K : forall l : list (str * list (list Z)), NoDup (map fst (puts [] (map (fun n => (fst n, map in_insns (snd n))) l)))) by (intros l; apply puts_NoDup; constructor).
  assert (Em : forall names secs t, Forall2 (named_section t) secs names -> puts [] (insn_sections names secs) = [] -> secs = []).
  { intros names secs t F H. apply puts_empty in H. rewrite insns_of in H. apply map_eq_nil in H. destruct F; [reflexivity|discriminate H]. }
  destruct (parseFuncInfos bo (s_strings s) _) as [mf|] eqn:Ef; [|discriminate E]. destruct (parseFuncInfos_sound bo (s_strings s) _ _ (Bp _ _) Ef) as (fsize & Zf & fsecs & fnames & Pf & Of & Nf & Mf).
  assert (Zf' : fsize = 8 \/ fsecs = []) by (destruct Zf as [Zf|Zf]; [now left|right; rewrite Zf in Mf; symmetry in Mf; eapply Em; eassumption]). rewrite insns_of in Mf.
  destruct (perSection_spec s order Hord _ _ _ st0 mf (newFuncOffsets_stateful s Hok sort Hsort) R0 ltac:(rewrite Mf; apply K)) as (st1 & r1 & E1 & R1 & X1 & V1 & _).
  change (@perSection order (list (Z * ref))) with (@perSection order (list funcOffset)) in E1. rewrite E1 in E. destruct r1 as [funcs|]; [|discriminate E]. specialize (V1 _ eq_refl).
  destruct (parseLineInfos bo (s_strings s) _) as [ml|] eqn:El; [|discriminate E]. destruct (parseLineInfos_sound bo (s_strings s) _ _ (Bp _ _) El) as (lsize & Zl & lsecs & lnames & Pl & Ol & Nl & Ml).
  assert (Zl' : lsize = 16 \/ lsecs = []) by (destruct Zl as [Zl|Zl]; [now left|right; rewrite Zl in Ml; symmetry in Ml; eapply Em; eassumption]). rewrite insns_of in Ml.
  destruct (perSection_spec s order Hord _ _ _ st1 ml (newLineInfos_stateful s sort Hsort) R1 ltac:(rewrite Ml; apply K)) as (st2 & r2 & E2 & R2 & X2 & V2 & _).
  change (@perSection order (list (Z * line))) with (@perSection order (list lineOffset)) in E2. rewrite E2 in E. destruct r2 as [lines|]; [|discriminate E]. specialize (V2 _ eq_refl).
  assert (Eall : bytes = encode_header bo (x_hdrLen h) [(x_funcOff h, x_funcLen h); (x_lineOff h, x_lineLen h); (co, cl)] ++ r').
  { rewrite header_as. cbn [map concat fst snd]. rewrite Eb, Er. unfold encode_record. cbn [map concat]. rewrite !app_nil_r, <- !app_assoc. now destruct h. }
  assert (Done : forall csecs cnames st3 relos, reached s st3 -> Ext st2 st3 -> Forall2 (named_section (s_strings s)) csecs cnames ->
    (cl = 0 /\ csecs = [] \/ found_at bo bytes (x_hdrLen h + co) cl 16 csecs /\ Forall (section_ok 4) csecs) -> loaded (relo_entry s st3) (sections_of cnames csecs) relos ->
    (st3, @Ok xerr _ (mkExtInfos funcs lines relos)) = (st, Ok infos) ->
    reached s st /\ exists hl fo fl lo ll co cl rest fsize lsize fsecs lsecs csecs fn ln cn,
    bytes = encode_header bo hl [(fo, fl); (lo, ll); (co, cl)] ++ rest /\ 24 <= hl /\
    found_at bo bytes (hl + fo) fl fsize fsecs /\ Forall (section_ok 2) fsecs /\ (fsize = 8 \/ fsecs = []) /\
    found_at bo bytes (hl + lo) ll lsize lsecs /\ Forall (section_ok 4) lsecs /\ (lsize = 16 \/ lsecs = []) /\
    (cl = 0 /\ csecs = [] \/ found_at bo bytes (hl + co) cl 16 csecs /\ Forall (section_ok 4) csecs) /\
    named (s_strings s) fsecs fn /\ named (s_strings s) lsecs ln /\ named (s_strings s) csecs cn /\
    loaded (func_entry s st) fn (Funcs infos) /\ loaded (line_entry s) ln (Lines infos) /\ loaded (relo_entry s st) cn (CORERelos infos)).
  { intros csecs cnames st3 relos R3 X3 Nc Oc Lc Q. injection Q as <- <-. split; [exact R3|].
    exists (x_hdrLen h), (x_funcOff h), (x_funcLen h), (x_lineOff h), (x_lineLen h), co, cl, r', fsize, lsize, fsecs, lsecs, csecs, (sections_of fnames fsecs), (sections_of lnames lsecs), (sections_of cnames csecs).
    split; [exact Eall|]. split; [exact Lh|]. split; [exact Pf|]. split; [exact Of|]. split; [exact Zf'|]. split; [exact Pl|]. split; [exact Ol|]. split; [exact Zl'|]. split; [exact Oc|].
    split; [now apply named_of|]. split; [now apply named_of|]. split; [now apply named_of|]. cbn [Funcs Lines CORERelos]. split; [|split; [|exact Lc]].
    - rewrite Mf in V1. eapply loaded_of; [|exact V1]. intros a b Hab. apply (func_at_entry s st3). eapply (proj1 (funcs_stateful s Hok)); [eapply Ext_trans; [exact X2|exact X3]|exact Hab].
    - rewrite Ml in V2. eapply loaded_of; [|exact V2]. auto. }
  destruct (Z.eqb_spec cl 0) as [Z0|Nz].
  - eapply (Done [] [] st2 []); [exact R2|apply Ext_refl|constructor|left; now split| |exact E]. split; [constructor|]. split; [intros; reflexivity|]. intros ? ? [].
  - destruct (parseCORERelos bo (s_strings s) _) as [mc|] eqn:Ecr; [|discriminate E]. destruct (parseCORERelos_sound bo (s_strings s) _ _ (Bp _ _) Ecr) as (csecs & cnames & Pc & Oc & Nc & Mc). rewrite insns_of in Mc.
    destruct (perSection_spec s order Hord _ _ _ st2 mc (newRelocationInfos_stateful s Hok sort Hsort) R2 ltac:(rewrite Mc; apply K)) as (st3 & r3 & E3 & R3 & X3 & V3 & _).
    change (@perSection order (list (Z * relocation))) with (@perSection order (list reloOffset)) in E3. rewrite E3 in E. destruct r3 as [relos|]; [|discriminate E]. specialize (V3 _ eq_refl).
    eapply (Done csecs cnames st3 relos); [exact R3|exact X3|exact Nc|right; split; [exact Pc|exact Oc]| |exact E]. rewrite Mc in V3. eapply loaded_of; [|exact V3]. intros a b. apply relo_at_entry.
Qed.
Print Assumptions C60_sound.

(** ** Cases *)
(** an implementation of sort.Slice *)
Fixpoint insert {A} (less : A -> A -> bool) (x : A) (l : list A) : list A :=
  match l with [] => [x] | y :: l' => if less x y then x :: l else y :: insert less x l' end.
Definition isort (A : Type) (less : A -> A -> bool) (l : list A) : list A := fold_right (insert less) [] l.
Lemma insert_perm {A} less (x : A) l : Permutation (x :: l) (insert less x l).
Proof. induction l as [|y l IH]; cbn; [apply Permutation_refl|]. destruct (less x y); [apply Permutation_refl|]. eapply Permutation_trans; [apply perm_swap|]. now constructor. Qed.
Lemma isort_perm {A} less (l : list A) : Permutation l (isort A less l).
Proof. induction l as [|x l IH]; cbn; [constructor|]. eapply Permutation_trans; [|apply insert_perm]. now constructor. Qed.
Lemma insert_sorted {A} less (key : A -> Z) x : forall l, (forall y, In y l -> less x y = (key x <? key y)) -> ~ In (key x) (map key l) -> StronglySorted Z.lt (map key l) -> StronglySorted Z.lt (map key (insert less x l)).
Proof.
  induction l as [|y l IH]; intros Hl N Hs; cbn; [repeat constructor|]. cbn in Hs. inversion Hs as [|? ? Hs' F]; subst. rewrite Hl by now left. destruct (Z.ltb_spec (key x) (key y)) as [L|L].
  - cbn. constructor; [exact Hs|]. constructor; [exact L|]. eapply Forall_impl; [|exact F]. cbn. lia.
  - cbn. constructor; [apply IH; auto; [intros z Hz; apply Hl; now right|intros H; apply N; now right]|]. eapply Permutation_Forall; [apply Permutation_map, insert_perm|]. cbn. constructor; [|exact F]. destruct (Z.eq_dec (key y) (key x)) as [E|]; [|lia]. exfalso. apply N. left. exact E.
Qed.
Lemma isort_sorts : go_sort isort.
Proof.
  intros A less l. split; [apply isort_perm|]. intros key. induction l as [|x l IH]; intros H N; cbn; [constructor|]. cbn in N. inversion N as [|? ? Nx N']; subst. apply insert_sorted.
  - intros y Hy. assert (Hy' : In y l) by (eapply Permutation_in; [apply Permutation_sym, isort_perm|exact Hy]). apply H; [now left|now right|]. intros E. apply Nx. rewrite E. now apply in_map.
  - intros Hi. apply Nx. eapply Permutation_in; [apply Permutation_map, Permutation_sym, isort_perm|exact Hi].
  - apply IH; [intros; apply H; auto; now right|exact N'].
Qed.
(** strings: "" 0, "f" 1, "x" 3, "0" 5, ".s" 7; types: 1 void (void), 2 func f, 3 func x *)
Definition ex_spec : spec := mkSpec (Table None [0; 102; 0; 120; 0; 48; 0; 46; 115; 0])
  [mkRec (mkBtfType 0 (13 * 2 ^ 24) 0) []; mkRec (mkBtfType 1 (12 * 2 ^ 24) 1) []; mkRec (mkBtfType 3 (12 * 2 ^ 24) 1) []].
(** two functions, out of order, two lines, one relocation *)
Definition ex_fsecs := [(7, [[16; 3]; [0; 2]])].
Definition ex_lsecs := [(7, [[0; 1; 3; 5 * 1024 + 7]; [16; 1; 5; 9 * 1024]]); (1, [[8; 3; 3; 1]])].
Definition ex_csecs := [(7, [[8; 2; 5; 6]])].
Definition ex_named (secs : list (Z * list (list Z))) : list (str * list (list Z)) :=
  map (fun sec => (match Lookup (s_strings ex_spec) (fst sec) with Some (Ok n) => n | _ => [] end, snd sec)) secs.
Definition ex_file (core : bool) (fsecs lsecs csecs : list (Z * list (list Z))) : list Z :=
  let f := encode_infos LE 8 fsecs in let l := encode_infos LE 16 lsecs in let c := encode_infos LE 16 csecs in
  let len x := Z.of_nat (length (x : list Z)) in
  encode_header LE (if core then 32 else 24) ([(0, len f); (len f, len l)] ++ if core then [(len f + len l, len c)] else []) ++ f ++ l ++ if core then c else [].
Lemma ex_recs_ok : Forall rec_ok (s_recs ex_spec).
Proof. repeat (apply Forall_cons; [split; [unfold type_ranges, in_u; cbn; lia|split; [apply DataLen_aux; reflexivity|repeat constructor; unfold in_u; cbn; lia]]|]). constructor. Qed.
Lemma ex_types id : id = 2 \/ id = 3 -> type_fine ex_spec id.
Proof.
  intros Hid. assert (T0 : forall t, ~ tags_type (s_recs ex_spec) 0 t) by (intros t H; apply declTags_spec in H; vm_compute in H; exact H).
  split; [exact T0|]. split.
  - assert (X : exists st' x, TypeByID (table_names (s_strings ex_spec)) (s_recs ex_spec) fresh id = Some (st', Some x)) by (destruct Hid as [->| ->]; do 2 eexists; vm_compute; reflexivity). destruct X as (st' & x & X).
    eapply (C31_errors _ (s_recs ex_spec) [] fresh [] id); [exact ex_recs_ok|reflexivity|intros []|exact T0|exact X].
  - intros j r t _ _ _ T _. destruct T as (r' & (P & R) & K & _). apply nth_error_In in R. cbn in R. destruct R as [<-|[<-|[<-|[]]]]; vm_compute in K; discriminate K.
Qed.
Lemma ex_well_formed core fsecs lsecs csecs : (core = false -> csecs = []) ->
  forallb (fun x => (0 <=? x) && (x <? 256)) (ex_file core fsecs lsecs csecs) = true ->
  Z.of_nat (length (ex_file core fsecs lsecs csecs)) < 2 ^ 32 ->
  Forall (section_ok 2) fsecs -> Forall (section_ok 4) lsecs -> Forall (section_ok 4) csecs -> btf_ext LE core (ex_file core fsecs lsecs csecs) fsecs lsecs csecs.
Proof.
  intros Hc Hb Hl F1 F2 F3. unfold ex_file in *. set (f := encode_infos LE 8 fsecs) in *. set (l := encode_infos LE 16 lsecs) in *. set (c := encode_infos LE 16 csecs) in *. cbv zeta in *.
  exists 0, (Z.of_nat (length f)), (Z.of_nat (length f)), (Z.of_nat (length l)), (Z.of_nat (length f) + Z.of_nat (length l)), (Z.of_nat (length c)), (f ++ l ++ if core then c else []).
  cbv zeta. split; [reflexivity|].
  assert (Lc : core = true -> Z.of_nat (length f) + Z.of_nat (length l) + Z.of_nat (length c) < 2 ^ 32 - 24) by (intros ->; cbn [app] in Hl; rewrite !app_length, header_as, !app_length, header_length in Hl; lia).
  assert (Lf : Z.of_nat (length f) + Z.of_nat (length l) < 2 ^ 32 - 24) by (rewrite !app_length in Hl; cbn [app] in Hl; rewrite header_as, !app_length, header_length in Hl; lia).
  assert (Lz : core = false -> length c = 4%nat) by (intros H; unfold c; rewrite (Hc H); unfold encode_infos; rewrite app_length, put_length; reflexivity).
  split; [repeat apply Forall_cons; try apply Forall_nil; unfold in_u; try lia; destruct core; [specialize (Lc eq_refl)|specialize (Lz eq_refl)]; lia|].
  split; [apply Forall_forall; intros x Hx; rewrite forallb_forall in Hb; specialize (Hb x Hx); unfold is_byte; apply andb_true_iff in Hb as (B1 & B2); apply Z.leb_le in B1; apply Z.ltb_lt in B2; lia|]. split; [exact Hl|].
  assert (Lh : forall a b c' d, length (encode_header LE (if core then 32 else 24) ([(a, b); (c', d)] ++ if core then [(Z.of_nat (length f) + Z.of_nat (length l), Z.of_nat (length c))] else [])) = if core then 32%nat else 24%nat) by (intros; destruct core; cbn [app]; rewrite header_as, app_length, header_length; cbn [map concat length]; rewrite ?app_length, ?put_length; reflexivity).
  split; [split; [|split; [reflexivity|exact F1]]|split; [split; [|split; [reflexivity|exact F2]]|]].
  - eexists _, _. split; [reflexivity|]. rewrite Lh. destruct core; reflexivity.
  - eexists (_ ++ f), _. split; [rewrite <- app_assoc; reflexivity|]. rewrite app_length, Lh. destruct core; lia.
  - destruct core; [|now apply Hc]. right. split; [unfold c, encode_infos; rewrite app_length, put_length; lia|]. split; [|split; [reflexivity|exact F3]]. exists (encode_header LE 32 ([(0, Z.of_nat (length f)); (Z.of_nat (length f), Z.of_nat (length l))] ++ [(Z.of_nat (length f) + Z.of_nat (length l), Z.of_nat (length c))]) ++ f ++ l), [].
    rewrite app_nil_r. split; [rewrite <- !app_assoc; reflexivity|]. rewrite !app_length. specialize (Lh 0 (Z.of_nat (length f)) (Z.of_nat (length f)) (Z.of_nat (length l))). cbv iota in Lh. rewrite Lh. lia.
Qed.
Ltac sections := repeat apply Forall_cons; try apply Forall_nil; unfold section_ok, words_ok; cbn; repeat split; try discriminate; repeat constructor; cbn; unfold in_u; try lia.
Lemma ex_names secs : forallb (fun sec => match Lookup (s_strings ex_spec) (fst sec) with Some (Ok (_ :: _)) => true | _ => false end) secs = true -> named (s_strings ex_spec) secs (ex_named secs).
Proof.
  induction secs as [|sec secs IH]; intros H; [constructor|]. cbn [forallb] in H. apply andb_true_iff in H as (H1 & H2). constructor; [|apply IH; exact H2]. cbn [fst snd]. revert H1. destruct (Lookup (s_strings ex_spec) (fst sec)) as [[[|c n]|]|]; intros H1; try discriminate H1. split; [reflexivity|]. split; [discriminate|reflexivity].
Qed.
Example C60_example :
  btf_ext LE true (ex_file true ex_fsecs ex_lsecs ex_csecs) ex_fsecs ex_lsecs ex_csecs /\
  named (s_strings ex_spec) ex_fsecs (ex_named ex_fsecs) /\ named (s_strings ex_spec) ex_lsecs (ex_named ex_lsecs) /\ named (s_strings ex_spec) ex_csecs (ex_named ex_csecs) /\
  Forall (fun sec => Forall (func_fine ex_spec) (snd sec)) (ex_named ex_fsecs) /\ Forall (fun sec => Forall (line_fine ex_spec) (snd sec)) (ex_named ex_lsecs) /\ Forall (fun sec => Forall (relo_fine ex_spec) (snd sec)) (ex_named ex_csecs) /\
  exists st, loadExtInfos isort ex_spec (fun m => m) LE fresh (ex_file true ex_fsecs ex_lsecs ex_csecs) = (st, Ok (mkExtInfos [([46; 115], [(0, RPtr 2); (2, RPtr 0)])]
    [([46; 115], [(0, mkLine [102] [120] 5 7); (2, mkLine [102] [48] 9 0)]); ([102], [(1, mkLine [120] [120] 0 1)])] [([46; 115], [(1, mkRelo (RPtr 2) [0] 6 2)])])).
Proof.
  split; [apply ex_well_formed; [discriminate|vm_compute; reflexivity|vm_compute; reflexivity|sections..]|].
  split; [now apply ex_names|]. split; [now apply ex_names|]. split; [now apply ex_names|]. split; [|split; [|split]].
  - constructor; [|constructor]. constructor; [|constructor; [|constructor]].
    + exists 16, 3, (mkRec (mkBtfType 3 (12 * 2 ^ 24) 1) []), [120]. split; [reflexivity|]. split; [apply ex_types; auto|]. split; [split; [lia|reflexivity]|]. split; [reflexivity|]. split; [reflexivity|discriminate].
    + exists 0, 2, (mkRec (mkBtfType 1 (12 * 2 ^ 24) 1) []), [102]. split; [reflexivity|]. split; [apply ex_types; auto|]. split; [split; [lia|reflexivity]|]. split; [reflexivity|]. split; [reflexivity|discriminate].
  - repeat constructor; do 6 eexists; (split; [reflexivity|]); split; reflexivity.
  - repeat constructor. exists 8, 2, 5, 6, [48], [0]. split; [reflexivity|]. split; [apply ex_types; auto|]. split; [reflexivity|]. apply C43_parse. reflexivity.
  - eexists. vm_compute. reflexivity.
Qed.

(** *** What isn't so *)
(** A header without CO-RE relocations (24 bytes, as written by older compilers) is never recognised: the bytes after it are
    taken for the offset and length of CO-RE relocations. A well formed section isn't loaded. *)
Theorem C60_refuted_header : exists bytes fsecs lsecs,
  btf_ext LE false bytes fsecs lsecs [] /\ named (s_strings ex_spec) fsecs (ex_named fsecs) /\ named (s_strings ex_spec) lsecs (ex_named lsecs) /\
  Forall (fun sec => Forall (func_fine ex_spec) (snd sec)) (ex_named fsecs) /\ Forall (fun sec => Forall (line_fine ex_spec) (snd sec)) (ex_named lsecs) /\
  snd (loadExtInfos isort ex_spec (fun m => m) LE fresh bytes) = Err XRecordSize.
Proof.
  exists (ex_file false [(7, [[0; 2]])] [(7, [[0; 1; 3; 0]])] []), [(7, [[0; 2]])], [(7, [[0; 1; 3; 0]])].
  split; [apply ex_well_formed; [reflexivity|vm_compute; reflexivity|vm_compute; reflexivity|sections..]|].
  split; [now apply ex_names|]. split; [now apply ex_names|]. split; [|split].
  - constructor; [|constructor]. constructor; [|constructor]. exists 0, 2, (mkRec (mkBtfType 1 (12 * 2 ^ 24) 1) []), [102]. split; [reflexivity|]. split; [apply ex_types; auto|]. split; [split; [lia|reflexivity]|]. split; [reflexivity|]. split; [reflexivity|discriminate].
  - repeat constructor; do 6 eexists; (split; [reflexivity|]); split; reflexivity.
  - vm_compute. reflexivity.
Qed.
(** If two sections have the same name, the records of the first are lost. *)
Theorem C60_refuted_duplicate : exists bytes fsecs lsecs,
  btf_ext LE true bytes fsecs lsecs [] /\ named (s_strings ex_spec) fsecs (ex_named fsecs) /\
  fsecs = [(7, [[0; 2]]); (7, [[8; 3]])] /\
  exists st infos, loadExtInfos isort ex_spec (fun m => m) LE fresh bytes = (st, Ok infos) /\ Funcs infos = [([46; 115], [(1, RPtr 0)])].
Proof.
  exists (ex_file true [(7, [[0; 2]]); (7, [[8; 3]])] [(7, [[0; 1; 3; 0]])] []), [(7, [[0; 2]]); (7, [[8; 3]])], [(7, [[0; 1; 3; 0]])].
  split; [apply ex_well_formed; [reflexivity|vm_compute; reflexivity|vm_compute; reflexivity|sections..]|].
  split; [now apply ex_names|]. split; [reflexivity|]. do 2 eexists. split; vm_compute; reflexivity.
Qed.
(** A section without line infos (of length 0, so that there isn't even a record size) isn't loaded at all. *)
Theorem C60_refuted_no_lines : exists bytes f,
  bytes = encode_header LE 32 [(0, Z.of_nat (length f)); (Z.of_nat (length f), 0); (Z.of_nat (length f), 0)] ++ f /\
  f = encode_infos LE 8 [(7, [[0; 2]])] /\
  snd (loadExtInfos isort ex_spec (fun m => m) LE fresh bytes) = Err XShort.
Proof. do 2 eexists. split; [reflexivity|]. split; [reflexivity|]. vm_compute. reflexivity. Qed.
