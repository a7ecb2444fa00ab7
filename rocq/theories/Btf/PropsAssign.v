(** C62: the metadata of a section is given to the instructions it is for. *)
From Coq Require Import ZArith List Lia Bool Sorting.Sorted Permutation.
From Verif.Base Require Import GoInt ListExtra.
From Verif.Btf Require Import Types Decode ExtInfo ExtInfoSpec.
Import ListNotations.
Open Scope Z_scope.

(** the metadata for an offset *)
Fixpoint q_get {T} (q : list (Z * T)) (off : Z) : option T :=
  match q with [] => None | (o, x) :: q' => if o =? off then Some x else q_get q' off end.
Definition over {T} (new old : option T) : option T := match new with Some x => Some x | None => old end.
(** the instruction with the metadata for an offset *)
Definition with_meta (fo : list funcOffset) (lo : list lineOffset) (ro : list reloOffset) (i : xins) (off : Z) : xins :=
  mkXins (i_width i) (over (q_get fo off) (i_func i)) (over (option_map SLine (q_get lo off)) (i_source i)) (over (q_get ro off) (i_relo i)).
Fixpoint meta_all (fo : list funcOffset) (lo : list lineOffset) (ro : list reloOffset) (insns : list xins) (off : Z) : list xins :=
  match insns with [] => [] | i :: insns' => with_meta fo lo ro i off :: meta_all fo lo ro insns' (off + i_width i) end.

Lemma assignLoop_app a : forall b raw q, assignLoop (a ++ b) raw q =
  let '(o1, raw1, q1) := assignLoop a raw q in let '(o2, raw2, q2) := assignLoop b raw1 q1 in (o1 ++ o2, raw2, q2).
Proof.
  induction a as [|i a IH]; intros b raw q; cbn [assignLoop app].
  - now destruct (assignLoop b raw q) as ((? & ?) & ?).
  - destruct (assignMetadata i raw q) as (i' & q1). rewrite IH. destruct (assignLoop a (raw + i_width i) q1) as ((o1 & raw1) & q2). now destruct (assignLoop b raw1 q2) as ((o2 & raw2) & q3).
Qed.
Lemma assignSymbols_flat progs : forall raw q outs raw' q', assignSymbols progs raw q = (outs, raw', q') ->
  assignLoop (concat progs) raw q = (concat outs, raw', q') /\ map (@length _) outs = map (@length _) progs.
Proof.
  induction progs as [|insns progs IH]; intros raw q outs raw' q' E; cbn [assignSymbols concat] in *; [injection E as <- <- <-; split; reflexivity|].
  destruct (assignLoop insns raw q) as ((o1 & raw1) & q1) eqn:E1. destruct (assignSymbols progs raw1 q1) as ((o2 & raw2) & q2) eqn:E2. injection E as <- <- <-. destruct (IH _ _ _ _ _ E2) as (F & L).
  rewrite assignLoop_app, E1, F. split; [reflexivity|]. cbn. rewrite L. f_equal.
  clear -E1. revert raw q o1 raw1 q1 E1. induction insns as [|i insns IH]; intros raw q o1 raw1 q1 E; cbn in E; [injection E as <- _ _; reflexivity|].
  destruct (assignMetadata i raw q) as (i' & q2). destruct (assignLoop insns (raw + i_width i) q2) as ((o & r) & q3) eqn:E'. injection E as <- _ _. cbn. f_equal. eapply IH. exact E'.
Qed.

Definition begins (raw : Z) (widths : list Z) (off : Z) : Prop := exists k, (k < length widths)%nat /\ off = raw + fold_right Z.add 0 (firstn k widths).
Definition queue_ok {T} (q : list (Z * T)) raw widths : Prop := StronglySorted Z.lt (map fst q) /\ Forall (begins raw widths) (map fst q).
Lemma begins_cons raw w ws off : 0 < w -> Forall (Z.lt 0) ws -> begins raw (w :: ws) off -> off = raw \/ raw < off /\ begins (raw + w) ws off.
Proof.
  intros P F (k & L & ->). destruct k as [|k]; [left; cbn; lia|]. right. cbn [firstn fold_right length] in *. assert (S : 0 <= fold_right Z.add 0 (firstn k ws)).
  { clear -F. revert k. induction F as [|x ws H F IH]; intros [|k]; cbn; try lia; specialize (IH k); lia. }
  split; [lia|]. exists k. split; lia.
Qed.
Lemma q_get_none {T} (q : list (Z * T)) off : Forall (Z.lt off) (map fst q) -> q_get q off = None.
Proof. induction q as [|(o, x) q IH]; intros F; [reflexivity|]. cbn in *. inversion F; subst. destruct (Z.eqb_spec o off); [lia|auto]. Qed.
Lemma take_ok {T} (q : list (Z * T)) raw w ws : 0 < w -> Forall (Z.lt 0) ws -> queue_ok q raw (w :: ws) ->
  exists q', take q raw = (q_get q raw, q') /\ queue_ok q' (raw + w) ws /\ (forall off, off <> raw -> q_get q' off = q_get q off).
Proof.
  intros P F (S & B). destruct q as [|(o, x) q]; cbn [take].
  - exists []. split; [reflexivity|]. split; [split; constructor|auto].
  - cbn in S, B. inversion S as [|? ? S' So]; subst. inversion B as [|? ? Bo B']; subst. destruct (Z.eqb_spec o raw) as [->|N].
    + exists q. cbn [q_get]. rewrite Z.eqb_refl. split; [reflexivity|]. split; [split; [exact S'|]|intros off Hn; destruct (Z.eqb_spec raw off); [congruence|reflexivity]].
      clear -B' So P F. induction B' as [|y l Hy B' IH]; [constructor|]. inversion So; subst. constructor; [|auto]. destruct (begins_cons _ _ _ _ P F Hy) as [->|(_ & H)]; [lia|exact H].
    + exists ((o, x) :: q). assert (Lo : raw < o) by (destruct (begins_cons _ _ _ _ P F Bo) as [->|(H & _)]; [congruence|exact H]).
      rewrite q_get_none; [|cbn; constructor; [exact Lo|]; eapply Forall_impl; [|exact So]; cbn; lia]. split; [reflexivity|]. split; [split; [exact S|]|auto].
      cbn. assert (A : Forall (fun y => raw < y) (o :: map fst q)) by (constructor; [exact Lo|]; eapply Forall_impl; [|exact So]; cbn; lia). clear -A B P F. cbn in B. induction B as [|y l Hy B IH]; [constructor|]. inversion A; subst. constructor; [|auto]. destruct (begins_cons _ _ _ _ P F Hy) as [->|(_ & H)]; [lia|exact H].
Qed.
Lemma meta_all_ext fo lo ro fo' lo' ro' insns : forall off, (forall o, off <= o -> q_get fo o = q_get fo' o /\ q_get lo o = q_get lo' o /\ q_get ro o = q_get ro' o) -> Forall (fun i => 0 < i_width i) insns ->
  meta_all fo lo ro insns off = meta_all fo' lo' ro' insns off.
Proof.
  induction insns as [|i insns IH]; intros off H F; [reflexivity|]. cbn [meta_all]. inversion F; subst. f_equal; [|apply IH; [intros; apply H; lia|assumption]]. unfold with_meta. destruct (H off ltac:(lia)) as (-> & -> & ->). reflexivity.
Qed.
Lemma assign_ok insns : forall raw fo lo ro, Forall (fun i => 0 < i_width i) insns ->
  queue_ok fo raw (map i_width insns) -> queue_ok lo raw (map i_width insns) -> queue_ok ro raw (map i_width insns) ->
  exists raw', assignLoop insns raw (fo, lo, ro) = (meta_all fo lo ro insns raw, raw', ([], [], [])).
Proof.
  induction insns as [|i insns IH]; intros raw fo lo ro F Qf Ql Qr; cbn [assignLoop meta_all].
  - assert (N : forall T (q : list (Z * T)), queue_ok q raw [] -> q = []) by (intros T [|(o, x) q] (_ & B); [reflexivity|]; inversion B as [|? ? (k & L & _)]; cbn in L; lia).
    cbn [map] in *. rewrite (N _ _ Qf), (N _ _ Ql), (N _ _ Qr). eexists. reflexivity.
  - inversion F as [|? ? P F']; subst. cbn [map] in *. assert (W : Forall (Z.lt 0) (map i_width insns)) by (rewrite Forall_map; exact F').
    destruct (take_ok fo raw _ _ P W Qf) as (fo' & Tf & Qf' & Gf), (take_ok lo raw _ _ P W Ql) as (lo' & Tl & Ql' & Gl), (take_ok ro raw _ _ P W Qr) as (ro' & Tr & Qr' & Gr).
    unfold assignMetadata. unfold funcOffset, lineOffset, reloOffset in *. rewrite Tf, Tl, Tr. destruct (IH (raw + i_width i) fo' lo' ro' F' Qf' Ql' Qr') as (raw' & E). unfold funcOffset, lineOffset, reloOffset in *. rewrite E. exists raw'. f_equal. f_equal. f_equal.
    + unfold with_meta. unfold funcOffset, lineOffset, reloOffset in *. destruct i as [w f l r]. destruct (q_get fo raw), (q_get lo raw), (q_get ro raw); reflexivity.
    + apply meta_all_ext; [|exact F']. intros o Ho. rewrite Gf, Gl, Gr by lia. auto.
Qed.
Lemma meta_nth fo lo ro insns : forall raw k i, nth_error insns k = Some i -> nth_error (meta_all fo lo ro insns raw) k = Some (with_meta fo lo ro i (raw + fold_right Z.add 0 (firstn k (map i_width insns)))).
Proof.
  induction insns as [|j insns IH]; intros raw k i E; [destruct k; discriminate E|]. destruct k as [|k]; cbn [nth_error meta_all map firstn fold_right] in *; [injection E as ->; now rewrite Z.add_0_r|]. rewrite (IH _ _ _ E). now rewrite Z.add_assoc.
Qed.
Lemma q_get_In {T} (q : list (Z * T)) off x : StronglySorted Z.lt (map fst q) -> q_get q off = Some x <-> In (off, x) q.
Proof.
  induction q as [|(o, y) q IH]; intros S; cbn [q_get In]; [split; [discriminate|intros []]|]. cbn in S. inversion S as [|? ? S' F]; subst. destruct (Z.eqb_spec o off) as [->|N].
  - split; [intros E; injection E as ->; now left|]. intros [E|H]; [now injection E as ->|]. rewrite Forall_forall in F. specialize (F off (in_map fst _ _ H)). cbn in F. lia.
  - rewrite IH by exact S'. split; [auto|]. intros [E|H]; [congruence|exact H].
Qed.

(** If the offsets of functions, lines and relocations increase, as they do when loaded (C60), and each is the offset of an
    instruction, then every instruction of the section, over all its symbols, gets the function, line and relocation for its
    offset, keeps what it had if there is none, and nothing is left over. *)
Definition gets {T U} (q : list (Z * T)) (f : T -> U) (off : Z) (old new : option U) : Prop :=
  (forall x, In (off, x) q -> new = Some (f x)) /\ ((forall x, ~ In (off, x) q) -> new = old).
Theorem C62_assigned : forall progs fo lo ro outs raw q, let insns := concat progs in let widths := map i_width insns in
  Forall (fun w => 0 < w) widths ->
  StronglySorted Z.lt (map fst fo) -> StronglySorted Z.lt (map fst lo) -> StronglySorted Z.lt (map fst ro) ->
  Forall (fun off => exists k, starts_at widths k off) (map fst fo ++ map fst lo ++ map fst ro) ->
  assignSymbols progs 0 (fo, lo, ro) = (outs, raw, q) ->
  q = ([], [], []) /\ map (@length _) outs = map (@length _) progs /\
  forall k i off, nth_error insns k = Some i -> starts_at widths k off ->
  exists i', nth_error (concat outs) k = Some i' /\ i_width i' = i_width i /\
    gets fo (fun f => f) off (i_func i) (i_func i') /\ gets lo SLine off (i_source i) (i_source i') /\ gets ro (fun r => r) off (i_relo i) (i_relo i').
Proof.
  intros progs fo lo ro outs raw q insns widths W Sf Sl Sr St E. destruct (assignSymbols_flat _ _ _ _ _ _ E) as (E' & L).
  assert (B : forall T (q : list (Z * T)), StronglySorted Z.lt (map fst q) -> Forall (fun off => exists k, starts_at widths k off) (map fst q) -> queue_ok q 0 widths).
  { intros T q0 S F. split; [exact S|]. eapply Forall_impl; [|exact F]. intros o (k & K & Eo). exists k. split; [exact K|]. lia. }
  apply Forall_app in St as (F1 & St). apply Forall_app in St as (F2 & F3).
  assert (Wi : Forall (fun i => 0 < i_width i) insns) by (unfold widths in W; rewrite Forall_map in W; exact W).
  destruct (assign_ok insns 0 fo lo ro Wi (B _ _ Sf F1) (B _ _ Sl F2) (B _ _ Sr F3)) as (raw' & A). unfold insns in *. rewrite E' in A. injection A as Eo -> ->.
  split; [reflexivity|]. split; [exact L|]. intros k i off K (Lk & ->). fold insns in K, Eo. rewrite Eo, (meta_nth fo lo ro insns 0 k i K). fold widths. rewrite Z.add_0_l. set (off := fold_right Z.add 0 (firstn k widths)). eexists. split; [reflexivity|]. cbn [with_meta i_width i_func i_source i_relo]. split; [reflexivity|].
  assert (G : forall T U (q : list (Z * T)) (f : T -> U) old, StronglySorted Z.lt (map fst q) -> gets q f off old (over (option_map f (q_get q off)) old)).
  { intros T U q0 f old S. split; [intros x H; apply (q_get_In q0 off x S) in H; now rewrite H|]. intros H. destruct (q_get q0 off) as [x|] eqn:X; [|reflexivity]. apply (q_get_In q0 off x S) in X. destruct (H x X). }
  assert (O : forall T (o : option T), option_map (fun f => f) o = o) by (intros T [x|]; reflexivity).
  split; [|split; [apply G; exact Sl|]].
  - specialize (G _ _ fo (fun f => f) (i_func i) Sf). now rewrite O in G.
  - specialize (G _ _ ro (fun f => f) (i_relo i) Sr). now rewrite O in G.
Qed.
Print Assumptions C62_assigned.

Definition no_meta (w : Z) : xins := mkXins w None None None.
Definition ln (n : Z) : line := mkLine [] [] n 0.
(** two symbols: a move and a dword load; a move and an exit *)
Example C62_example : let progs := [[no_meta 1; no_meta 2]; [no_meta 1; no_meta 1]] in
  Forall (fun w => 0 < w) (map i_width (concat progs)) /\ starts_at (map i_width (concat progs)) 2 3 /\
  assignSymbols progs 0 ([(0, RPtr 0); (3, RPtr 1)], [(1, ln 1); (3, ln 2); (4, ln 3)], []) =
    ([[mkXins 1 (Some (RPtr 0)) None None; mkXins 2 None (Some (SLine (ln 1))) None];
      [mkXins 1 (Some (RPtr 1)) (Some (SLine (ln 2))) None; mkXins 1 None (Some (SLine (ln 3))) None]], 5, ([], [], [])).
Proof. cbv zeta. split; [repeat constructor|]. split; [split; [cbn; lia|reflexivity]|]. reflexivity. Qed.
(** Both hypotheses are needed: after an offset which isn't that of an instruction, here the second half of a dword load, ... *)
Lemma blocked (q : list funcOffset) : forall (w : list unit) raw, (forall r, raw <= r -> take q r = (None, q)) ->
  exists outs, assignLoop (map (fun _ => no_meta 1) w) raw (q, [], []) = (outs, raw + Z.of_nat (length w), (q, [], [])) /\ Forall (fun i => i_func i = None) outs.
Proof.
  induction w as [|x w IH]; intros raw R; cbn [map assignLoop length]; [exists []; rewrite Z.add_0_r; split; [reflexivity|constructor]|].
  unfold assignMetadata. unfold funcOffset in *. rewrite (R raw ltac:(lia)). cbn [take]. change (i_width (no_meta 1)) with 1.
  destruct (IH (raw + 1)) as (outs & E & F); [intros r Hr; apply R; lia|]. unfold funcOffset, lineOffset, reloOffset in *. rewrite E. exists (no_meta 1 :: outs). split; [replace (raw + 1 + Z.of_nat (length w)) with (raw + Z.of_nat (S (length w))) by lia; reflexivity|]. constructor; [reflexivity|exact F].
Qed.
Theorem C62_refuted_unaligned : forall (w : list unit) f rest, exists outs q,
  assignLoop (no_meta 2 :: map (fun _ => no_meta 1) w) 0 ((1, f) :: rest, [], []) = (outs, 2 + Z.of_nat (length w), q) /\ Forall (fun i => i_func i = None) outs /\ q = ((1, f) :: rest, [], []).
Proof.
  intros w f rest. destruct (blocked ((1, f) :: rest) w 2) as (outs & E & F); [intros r Hr; cbn [take]; destruct (Z.eqb_spec 1 r); [lia|reflexivity]|].
  cbn [assignLoop]. unfold assignMetadata. cbn [take Z.eqb]. change (0 + i_width (no_meta 2)) with 2. unfold funcOffset, lineOffset, reloOffset in *. rewrite E. do 2 eexists. split; [reflexivity|]. split; [|reflexivity]. constructor; [reflexivity|exact F].
Qed.
(** ... or after a second entry for the same offset, no instruction gets anything any more. *)
Theorem C62_refuted_duplicate : forall (w : list unit) f1 f2 rest, exists outs q i,
  assignLoop (no_meta 1 :: map (fun _ => no_meta 1) w) 0 ((0, f1) :: (0, f2) :: rest, [], []) = (i :: outs, 1 + Z.of_nat (length w), q) /\ i_func i = Some f1 /\ Forall (fun i => i_func i = None) outs /\ q = ((0, f2) :: rest, [], []).
Proof.
  intros w f1 f2 rest. destruct (blocked ((0, f2) :: rest) w 1) as (outs & E & F); [intros r Hr; cbn [take]; destruct (Z.eqb_spec 0 r); [lia|reflexivity]|].
  cbn [assignLoop]. unfold assignMetadata. cbn [take Z.eqb]. change (0 + i_width (no_meta 1)) with 1. unfold funcOffset, lineOffset, reloOffset in *. rewrite E. do 3 eexists. split; [reflexivity|]. split; [reflexivity|]. split; [exact F|reflexivity].
Qed.
