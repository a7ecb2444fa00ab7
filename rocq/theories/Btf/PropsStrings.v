(** Theorems C24, C25 about btf/strings.go. *)
From Coq Require Import ZArith List Lia Bool Permutation.
From Verif.Base Require Import GoInt.
From Verif.Btf Require Import Strings StringsSpec StringsProof.
Import ListNotations.
Open Scope Z_scope.

(** ** C24 *)
(** Any sequence [l] of Add calls on a new builder (as long as the table stays below 4 GiB), encoded with any
    map iteration order after any buffer [buf]:
    - the encoding has the reported length and is accepted as a string table;
    - every Add either returned the offset at which that string is found again, or the string contains NUL. *)
Theorem C24_round_trip : forall l rs b order buf,
  Z.of_nat (length (encoding l)) + 1 < 2 ^ 32 ->
  b_adds newStringTableBuilder l = (rs, b) ->
  Permutation order (b_strings b) ->
  exists enc t,
    AppendEncoded b order buf = Some (buf ++ enc) /\ Z.of_nat (length enc) = b_length b /\
    newStringTable enc None = Ok t /\
    Forall2 (fun s r => match r with
                        | Ok o => Lookup t o = Some (Ok s) /\ b_lookup b s = Ok o /\ string_at enc o s
                        | Err e => e = ContainsNul /\ In 0 s
                        end) l rs.
Proof.
  intros l rs b order buf Ht E P.
  destruct (bok_adds l newStringTableBuilder [[]] bok_new) as (strs & B & (x & Ex) & F).
  { rewrite total_app. unfold total at 2. change (total [[]]) with 1. lia. }
  rewrite E in *. cbn [fst snd] in *.
  exists (encoding strs), (Table None (encoding strs)).
  split; [apply encoded_ok; assumption|]. destruct B as (B1 & B2 & B3 & B4 & B5 & (l0 & B6)).
  split; [rewrite B2; reflexivity|].
  split.
  { unfold newStringTable. rewrite last_encoding by (rewrite B6; discriminate).
    rewrite B6. cbn. reflexivity. }
  eapply Forall2_mono; [|exact F]. intros s r Hr. destruct r as [o|e]; [|exact Hr].
  destruct Hr as [I Nz]. destruct (entry_bytes strs s o I) as (O1 & O2 & _).
  assert (SA : string_at (encoding strs) o s) by (apply entry_at; assumption).
  split; [|split; [|exact SA]].
  - unfold Lookup. destruct (Z.eqb_spec o 0) as [->|N].
    + do 2 f_equal. apply (string_at_fun (encoding strs) 0); [|exact SA].
      apply entry_at; [assumption|]. rewrite B6. left. reflexivity.
    + cbn [lookupSlow]. apply lookup_here_ok; [|lia|exact SA]. exact B3.
  - unfold b_lookup. rewrite B1. destruct (m_find (entries 0 strs) s) as [o'|] eqn:M.
    + f_equal. apply m_find_entries in M.
      destruct (entries_in _ _ _ _ I) as (a & c & E1 & ->). destruct (entries_in _ _ _ _ M) as (a' & c' & E2 & ->).
      assert (Ea : a = a'); [|subst; reflexivity].
      rewrite E1 in E2. rewrite E1 in B4. clear - E2 B4. revert a' E2 B4. induction a as [|y a IH]; intros [|z a'] E2 B4; cbn in *.
      * reflexivity.
      * inversion E2; subst. inversion B4 as [|? ? Hn _]; subst. exfalso. apply Hn. apply in_or_app. right; left; reflexivity.
      * inversion E2; subst. inversion B4 as [|? ? Hn _]; subst. exfalso. apply Hn. apply in_or_app. right; left; reflexivity.
      * inversion E2; subst. inversion B4; subst. f_equal. apply (IH a'); assumption.
    + apply m_find_none in M. exfalso. apply M. destruct (entries_in _ _ _ _ I) as (a & c & -> & _).
      apply in_or_app; right; left; reflexivity.
Qed.
Print Assumptions C24_round_trip.

(** Equal strings share one offset, distinct strings have distinct offsets. *)
Theorem C24_offsets : forall l rs b i j s s' o o',
  Z.of_nat (length (encoding l)) + 1 < 2 ^ 32 ->
  b_adds newStringTableBuilder l = (rs, b) ->
  nth_error l i = Some s -> nth_error rs i = Some (Ok o) ->
  nth_error l j = Some s' -> nth_error rs j = Some (Ok o') ->
  s = s' <-> o = o'.
Proof.
  intros l rs b i j s s' o o' Ht E L1 R1 L2 R2.
  destruct (C24_round_trip l rs b (b_strings b) [] Ht E (Permutation_refl _)) as (enc & t & _ & _ & _ & F).
  assert (G : forall n a q, nth_error l n = Some a -> nth_error rs n = Some (Ok q) ->
              Lookup t q = Some (Ok a) /\ b_lookup b a = Ok q).
  { clear - F. induction F as [|a r l rs Hr F IH]; intros [|n] a' q; cbn; try discriminate.
    - intros E1 E2. inversion E1; inversion E2; subst. tauto.
    - apply IH. }
  destruct (G _ _ _ L1 R1) as [A1 B1]. destruct (G _ _ _ L2 R2) as [A2 B2].
  split; intros X; subst; congruence.
Qed.
Print Assumptions C24_offsets.

Example C24_example : b_adds newStringTableBuilder [[97; 98]; []; [99]; [97; 98]; [97; 0]]
  = ([Ok 1; Ok 0; Ok 4; Ok 1; Err ContainsNul], mkBuilder 6 [([], 0); ([97; 98], 1); ([99], 4)]) /\
  AppendEncoded (mkBuilder 6 [([], 0); ([97; 98], 1); ([99], 4)]) [([99], 4); ([], 0); ([97; 98], 1)] [7]
  = Some [7; 0; 97; 98; 0; 99; 0].
Proof. split; reflexivity. Qed.

(** ** C25 *)
(** Accepted contents: empty, or NUL terminated and (if this is not a split table) starting with NUL. *)
Theorem C25_accepts : forall bytes base, Z.of_nat (length (match base with Some b => t_bytes b | None => [] end)) < 2 ^ 32 ->
  (exists t, newStringTable bytes base = Ok t) <->
  (bytes = [] \/ (exists l, bytes = l ++ [0]) /\
     (match base with Some b => t_bytes b | None => [] end = [] -> exists l, bytes = 0 :: l)).
Proof.
  intros bytes base Hb. unfold newStringTable. destruct bytes as [|x l]; [split; eauto|].
  set (bb := match base with Some b => t_bytes b | None => [] end) in *.
  replace (match base with Some b => len32 (t_bytes b) | None => 0 end) with (Z.of_nat (length bb))
    by (unfold bb; destruct base; [rewrite len32_id by assumption|]; reflexivity).
  assert (NN : x :: l <> []) by discriminate. destruct (exists_last NN) as (p & y & Ep). assert (El : last (x :: l) 0 = y) by (rewrite Ep; apply last_last). rewrite El.
  destruct (Z.eqb_spec y 0) as [Ey|Ny]; cbn [negb].
  - rewrite Ey in Ep. clear El Ey y. destruct bb as [|b0 bb]; cbn [length Z.of_nat Z.eqb andb].
    + destruct (Z.eqb_spec x 0) as [->|Nx]; cbn [negb].
      * split; [intros _; right; split; eauto|eauto].
      * split; [intros [t Ht]; discriminate|]. intros [?|[_ H]]; [discriminate|]. destruct (H eq_refl) as [q Hq]. congruence.
    + split; [intros _; right; split; [eauto|discriminate]|eauto].
  - split; [intros [t Ht]; discriminate|]. intros [?|[[q Hq] _]]; [discriminate|]. rewrite Ep in Hq. apply app_inj_tail in Hq. tauto.
Qed.
Print Assumptions C25_accepts.

(** Lookups in a table without base: never a panic; Ok exactly for the strings of the table (and the empty
    string for offset 0). *)
Theorem C25_lookup : forall bytes t o, Z.of_nat (length bytes) < 2 ^ 32 ->
  newStringTable bytes None = Ok t -> 0 <= o < 2 ^ 32 ->
  (exists r, Lookup t o = Some r) /\
  (forall s, Lookup t o = Some (Ok s) <-> (bytes = [] /\ o = 0 /\ s = []) \/ string_at bytes o s).
Proof.
  intros bytes t o Hl Hn Ho.
  assert (Et : t = Table None bytes /\ (bytes = [] \/ exists l, bytes = 0 :: l)).
  { unfold newStringTable in Hn. destruct bytes as [|x l]; [inversion Hn; auto|].
    destruct (negb (last (x :: l) 0 =? 0)); [discriminate|]. cbn in Hn. destruct (Z.eqb_spec x 0) as [->|]; [|discriminate].
    inversion Hn. eauto. }
  destruct Et as [-> Hb]. unfold Lookup. cbn [lookupSlow].
  destruct (Z.eqb_spec o 0) as [->|N].
  - split; [eauto|]. intros s. split.
    + intros E; inversion E; subst. destruct Hb as [->|[l ->]]; [left; auto|]. right.
      exists [], l. split; [reflexivity|]. split; [reflexivity|]. split; [intros []|left; reflexivity].
    + intros [(_ & _ & ->)|SA]; [reflexivity|]. do 2 f_equal.
      destruct SA as (pre & post & E & L & Nz & _). assert (pre = []) by (destruct pre; [reflexivity|cbn in L; lia]). subst pre.
      destruct s as [|y s]; [reflexivity|]. exfalso. destruct Hb as [->|[l ->]]; [discriminate|]. cbn in E. inversion E; subst. apply Nz; left; reflexivity.
  - split; [apply lookup_here_total; [assumption|lia]|]. intros s. rewrite lookup_here_ok by (assumption || lia).
    split; [auto|]. intros [(_ & ? & _)|?]; [contradiction|assumption].
Qed.
Print Assumptions C25_lookup.

(** Split tables: offsets below the length of the base are looked up in the base, the others in the table
    itself at the distance past the base; nothing panics. *)
Theorem C25_split : forall bb bytes o, Z.of_nat (length bb) + Z.of_nat (length bytes) < 2 ^ 32 -> 0 < o < 2 ^ 32 ->
  let t := Table (Some (Table None bb)) bytes in
  (exists r, Lookup t o = Some r) /\
  forall s, Lookup t o = Some (Ok s) <->
    if o <? Z.of_nat (length bb) then string_at bb o s else string_at bytes (o - Z.of_nat (length bb)) s.
Proof.
  intros bb bytes o Hl Ho t. unfold Lookup. destruct (Z.eqb_spec o 0); [lia|]. unfold t. cbn [lookupSlow t_bytes].
  rewrite len32_id by lia.
  destruct (Z.ltb_spec o (Z.of_nat (length bb))).
  - split; [apply lookup_here_total; lia|]. intros s. apply lookup_here_ok; lia.
  - rewrite wrapu_id by (unfold in_u; lia).
    split; [apply lookup_here_total; lia|]. intros s. apply lookup_here_ok; lia.
Qed.
Print Assumptions C25_split.

(** Cached lookups agree with uncached ones after any history of cached lookups. *)
Fixpoint cached_run (t : table) (c : cache) (os : list Z) : option cache :=
  match os with
  | [] => Some c
  | o :: os' => match LookupCached t c o with None => None | Some (_, c') => cached_run t c' os' end
  end.
Theorem C25_cached : forall t os c o, cached_run t [] os = Some c ->
  option_map fst (LookupCached t c o) = Lookup t o.
Proof.
  intros t os c o H.
  assert (G : forall os c0, (forall k s, c_find c0 k = Some s -> Lookup t k = Some (Ok s)) ->
              cached_run t c0 os = Some c -> forall k s, c_find c k = Some s -> Lookup t k = Some (Ok s)).
  { clear. induction os as [|o os IH]; intros c0 Hc E; cbn in E; [inversion E; subst; exact Hc|].
    destruct (LookupCached t c0 o) as [[r c1]|] eqn:E1; [|discriminate].
    apply (IH c1); [|exact E]. unfold LookupCached in E1.
    destruct (o =? 0); [inversion E1; subst; exact Hc|].
    destruct (c_find c0 o) as [s|] eqn:F; [inversion E1; subst; exact Hc|].
    destruct (Lookup t o) as [[s|e]|] eqn:L; [|inversion E1; subst; exact Hc|discriminate].
    inversion E1; subst. intros k s'. cbn. destruct (Z.eqb_spec k o) as [->|]; [|apply Hc].
    intros X; inversion X; subst. exact L. }
  specialize (G os [] (fun k s X => ltac:(discriminate)) H).
  unfold LookupCached. destruct (Z.eqb_spec o 0) as [->|N]; [reflexivity|].
  destruct (c_find c o) as [s|] eqn:F; [symmetry; apply G; exact F|].
  destruct (Lookup t o) as [[s|e]|]; reflexivity.
Qed.
Print Assumptions C25_cached.

Example C25_example : newStringTable [0; 97; 98; 0; 99; 0] None = Ok (Table None [0; 97; 98; 0; 99; 0]) /\
  map (Lookup (Table None [0; 97; 98; 0; 99; 0])) [0; 1; 2; 4; 6; 7]
  = [Some (Ok []); Some (Ok [97; 98]); Some (Err NotBeginning); Some (Ok [99]); Some (Err NoNul); Some (Err OutOfBounds)].
Proof. split; reflexivity. Qed.
