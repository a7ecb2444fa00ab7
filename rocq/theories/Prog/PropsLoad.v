(** C80: the verifier log of a program. C82: the log of BTF. *)
From Coq Require Import List Bool Arith Lia Ascii String ZArith.
From Verif Require Import Base.GoInt Internal.Math Prog.VerifierError Prog.VerifierErrorSpec Prog.VerifierErrorProof Prog.Load Prog.LoadSpec Prog.LoadProof.
Import ListNotations.
Open Scope list_scope. Open Scope Z_scope.

(** ** Any kernel *)
(** Loading ends after at most 30 system calls, whatever the kernel does. *)
Theorem C80_bounded : forall k o calls have, exists r tr, newProgram k o calls have = Some (r, tr) /\ (1 <= List.length tr <= 30)%nat.
Proof.
  intros k o calls have. assert (H : exists oc tr, load k o = Some (oc, tr) /\ (1 <= List.length tr <= 30)%nat).
  { unfold load. destruct (o_disabled o).
    - cbv zeta. destruct (r_err (k 1%nat (Attr 0 0 0 None))); do 2 eexists; (split; [reflexivity|cbn; lia]).
    - destruct (loop_total k (o_start o) 40 1 (if o_level o =? 0 then Attr 0 0 0 None else Attr (o_level o) (Between (o_start o) minVerifierLogSize maxVerifierLogSize) 0 None) nilbuf) as (oc & tr & E & L); [lia|lia|]. eauto. }
  destruct H as (oc & tr & E & L). unfold newProgram. rewrite E. destruct oc as [log|[e|] b|e]; eauto.
Qed.
(** A kernel that never fills in LogTrueSize never drives it to that bound. *)
Theorem C80_never_gives_up : forall k o calls have, no_hints k ->
  exists r tr, newProgram k o calls have = Some (r, tr) /\ (List.length tr <= 29)%nat /\ forall e, r <> RBug e.
Proof.
  intros k o calls have K. assert (H : exists oc tr, load k o = Some (oc, tr) /\ (forall e, oc <> TooMany e) /\ (List.length tr <= 29)%nat).
  { unfold load. destruct (o_disabled o).
    - cbv zeta. destruct (r_err (k 1%nat (Attr 0 0 0 None))); do 2 eexists; (split; [reflexivity|split; [discriminate|cbn; lia]]).
    - destruct (Z.eqb_spec (o_level o) 0) as [L|L].
      + destruct (loop_silent k (o_start o) K 14 1 40 (Attr 0 0 0 None) nilbuf) as (oc & tr & E & N & Le); cbn [a_size]; auto; try lia. do 2 eexists. split; [exact E|]. split; [exact N|lia].
      + destruct (loop_level k (o_start o) K 14 1 40 (Attr (o_level o) (Between (o_start o) minVerifierLogSize maxVerifierLogSize) 0 None) nilbuf) as (oc & tr & E & N & Le); cbn [a_size a_level]; auto; try lia; [apply steps_between|]. do 2 eexists. split; [exact E|]. split; [exact N|lia]. }
  destruct H as (oc & tr & E & N & L). unfold newProgram. rewrite E. destruct oc as [log|[e|] b|e]; [| | |exfalso; eapply N; reflexivity]; do 2 eexists; (split; [reflexivity|]); (split; [exact L|]); intros e'; try discriminate.
  unfold programLoadError. repeat match goal with |- context [if ?b then _ else _] => destruct b end; discriminate.
Qed.
(** With LogDisabled there is exactly one system call, without a log. *)
Theorem C80_disabled : forall k o calls have, o_disabled o = true ->
  exists r, newProgram k o calls have = Some (r, [Attr 0 0 0 None]) /\
    match r_err (k 1%nat (Attr 0 0 0 None)) with
    | None => r = RLoaded []
    | Some TokenErr => r = RToken TokenErr
    | Some (Errno e) => r = RCalls \/ exists hint E, r = RVerifier hint E /\ ve_log E = [] /\ ve_cause E = CErr (Errno e)
    end.
Proof.
  intros k o calls have D. unfold newProgram, load. rewrite D. cbv zeta. destruct (r_err (k 1%nat (Attr 0 0 0 None))) as [[e|]|]; eexists; (split; [reflexivity|]); try reflexivity.
  unfold programLoadError. cbn [b_len nilbuf b_data]. change (0 <? 0) with false. cbn [andb]. change (contains (tail nilbuf) coreBadCall) with false. change (contains (tail nilbuf) kfuncBadCall) with false. change (contains (tail nilbuf) coreBadLoad) with false.
  cbv beta iota. repeat match goal with |- context [if ?b then _ else _] => destruct b end; try (left; reflexivity); right; do 2 eexists; (split; [reflexivity|]); split; reflexivity.
Qed.

(** ** Programs that verify *)
(** Without a log level there is one system call, and no log. With a log level, VerifierLog
    has the whole log of that level, if the kernel can hand it out at all. *)
Theorem C80_accepted : forall k v o calls have, options_ok o -> o_disabled o = false ->
  verifies k v -> (forall l, ~ In NUL (v_log v l)) -> v_verdict v = None ->
  (o_level o = 0 -> newProgram k o calls have = Some (RLoaded [], [Attr 0 0 0 None])) /\
  (o_level o <> 0 -> need v (o_level o) <= 1073741823 ->
     exists tr, newProgram k o calls have = Some (RLoaded (v_log v (o_level o)), tr) /\ (List.length tr <= if v_hints v then 2 else 15)%nat).
Proof.
  intros k v o calls have O D K T V. destruct (load_accepted k v o O D K T V) as (A & B). unfold newProgram. split.
  - intros L. now rewrite (A L).
  - intros L M. destruct (B L M) as (tr & E & Le). exists tr. rewrite E. auto.
Qed.

(** ** Programs that are rejected *)
Lemma ple_simple : forall e b calls have, calls = false \/ have = true -> programLoadError (Errno e) b calls have =
  let V c := RVerifier false (ErrorWithLog (lit "load program") c (b_data b)) in
  if e =? EPERM then if (0 <? b_len b) && (match b_data b with [] => true | c :: _ => Ascii.eqb c NUL end) then RMemlock (Errno e) else V (CErr (Errno e))
  else if e =? EFAULT then RVerifier true (ErrorWithLog (lit "hit verifier bug") (CErr (Errno e)) (b_data b))
  else if e =? EINVAL then if contains (tail b) coreBadCall then V BadRelocation else if contains (tail b) kfuncBadCall then V UnknownKfunc else V (CErr (Errno e))
  else if e =? EACCES then if contains (tail b) coreBadLoad then V BadRelocation else V (CErr (Errno e))
  else V (CErr (Errno e)).
Proof.
  intros e b calls have H. unfold programLoadError. cbn [is]. cbv beta zeta. assert (A : forall x, x && calls && negb have = false) by (intros x; destruct H as [-> | ->]; [now rewrite andb_false_r|apply andb_false_r]).
  rewrite !A. reflexivity.
Qed.

(** The error has the whole log, of the level asked for or else of LogLevelBranch; its cause
    is the verifier's errno, unless the log ends in one of the library's own markers. *)
Theorem C80_rejected : forall k v o calls have e, options_ok o -> o_disabled o = false ->
  verifies k v -> (forall l, ~ In NUL (v_log v l)) -> v_verdict v = Some (Errno e) -> e <> ENOSPC -> e <> EFAULT ->
  need v (level o) <= 1073741823 ->
  (e = EPERM -> v_log v (level o) <> []) -> calls = false \/ have = true ->
  exists E tr, newProgram k o calls have = Some (RVerifier false E, tr) /\
    ve_source E = lit "load program" /\ log_lines (v_log v (level o)) (ve_log E) /\ explained e (v_log v (level o)) (ve_cause E) /\
    (List.length tr <= (if (o_level o =? 0)%Z then 1 else 0) + (if v_hints v then 2 else 15))%nat.
Proof.
  intros k v o calls have e O D K T V N1 N2 M NE HC.
  assert (P : plain v). { unfold plain. rewrite V. cbn [is]. split; now apply Z.eqb_neq. }
  destruct (load_rejected k v o (Errno e) O D K T P V M) as (oc & tr & E & F & Le). unfold final in F. rewrite V in F. destruct F as (b & -> & C & Lb).
  unfold newProgram. rewrite E. cbn [is]. set (log := v_log v (level o)) in *.
  assert (L : forall c : cause, log_lines log (ve_log (ErrorWithLog (lit "load program") c (b_data b)))).
  { intros c. cbn [ErrorWithLog ve_log]. rewrite cstr_lines, C. apply logLines_spec. }
  assert (R : forall c, explained e log c -> exists E0 tr0, Some (RVerifier false (ErrorWithLog (lit "load program") c (b_data b)), tr) = Some (RVerifier false E0, tr0) /\ ve_source E0 = lit "load program" /\ log_lines log (ve_log E0) /\ explained e log (ve_cause E0) /\ (List.length tr0 <= (if (o_level o =? 0)%Z then 1 else 0) + (if v_hints v then 2 else 15))%nat).
  { intros c X. do 2 eexists. split; [reflexivity|]. split; [reflexivity|]. split; [apply L|]. split; [exact X|exact Le]. }
  rewrite ple_simple by exact HC. cbv beta zeta. unfold tail. rewrite C. unfold explained in R.
  assert (S1 := near_spec log coreBadCall). assert (S2 := near_spec log kfuncBadCall). assert (S3 := near_spec log coreBadLoad).
  assert (F1 : contains (lastn 256 log) coreBadCall = false -> ~ near_end log coreBadCall) by (intros X Y; apply S1 in Y; congruence).
  assert (F2 : contains (lastn 256 log) kfuncBadCall = false -> ~ near_end log kfuncBadCall) by (intros X Y; apply S2 in Y; congruence).
  assert (F3 : contains (lastn 256 log) coreBadLoad = false -> ~ near_end log coreBadLoad) by (intros X Y; apply S3 in Y; congruence).
  fold coreBadCall kfuncBadCall coreBadLoad in R. unfold EPERM, EFAULT, EINVAL, EACCES in *.
  destruct (Z.eqb_spec e 1) as [E1|E1].
  - replace ((0 <? b_len b) && match b_data b with [] => true | c :: _ => Ascii.eqb c NUL end) with false.
    + apply R. right. right. split; [reflexivity|]. split; intros; exfalso; lia.
    + symmetry. apply andb_false_intro2. specialize (NE E1). destruct (b_data b) as [|c d]; [cbn in C; congruence|]. cbn [cstr] in C. destruct (Ascii.eqb c NUL); [congruence|reflexivity].
  - destruct (Z.eqb_spec e 14); [contradiction|]. destruct (Z.eqb_spec e 22) as [E22|E22].
    + destruct (contains (lastn 256 log) coreBadCall) eqn:X1; [apply R; left; split; [reflexivity|]; left; split; [exact E22|now apply S1]|].
      destruct (contains (lastn 256 log) kfuncBadCall) eqn:X2; [apply R; right; left; split; [reflexivity|]; split; [exact E22|]; split; [now apply S2|now apply F1]|].
      apply R. right. right. split; [reflexivity|]. split; [intros _; auto|intros; exfalso; lia].
    + destruct (Z.eqb_spec e 13) as [E13|E13].
      * destruct (contains (lastn 256 log) coreBadLoad) eqn:X3; [apply R; left; split; [reflexivity|]; right; split; [exact E13|now apply S3]|].
        apply R. right. right. split; [reflexivity|]. split; [intros; exfalso; lia|auto].
      * apply R. right. right. split; [reflexivity|]. split; intros; exfalso; lia.
Qed.
(** The cause is determined by errno and log. *)
Theorem C80_explained : forall e log, (exists c, explained e log c) /\ forall c c', explained e log c -> explained e log c' -> c = c'.
Proof.
  intros e log. split.
  - unfold explained. fold coreBadCall kfuncBadCall coreBadLoad. pose proof (near_spec log coreBadCall) as S1. pose proof (near_spec log kfuncBadCall) as S2. pose proof (near_spec log coreBadLoad) as S3.
    destruct (contains (lastn 256 log) coreBadCall), (contains (lastn 256 log) kfuncBadCall), (contains (lastn 256 log) coreBadLoad); unfold EINVAL, EACCES in *; destruct (Z.eq_dec e 22) as [E1|E1], (Z.eq_dec e 13) as [E2|E2]; try (exfalso; lia);
      first [exists BadRelocation; left; intuition congruence|exists UnknownKfunc; right; left; intuition congruence|eexists; right; right; split; [reflexivity|]; intuition congruence].
  - intros c c' [(-> & A)|[(-> & A)|(-> & A)]] [(-> & B)|[(-> & B)|(-> & B)]]; try reflexivity; exfalso; unfold EINVAL, EACCES in *; try (intuition congruence); intuition lia.
Qed.

(** A verifier bug (EFAULT) is reported with the whole log if LogSizeStart has room for it,
    and with what the kernel left of it otherwise: EFAULT does not make the buffer grow. *)
Theorem C80_verifier_bug : forall k v o calls have, options_ok o -> o_disabled o = false ->
  verifies k v -> (forall l, ~ In NUL (v_log v l)) -> v_verdict v = Some (Errno EFAULT) ->
  exists E tr, newProgram k o calls have = Some (RVerifier true E, tr) /\ ve_cause E = CErr (Errno EFAULT) /\
    (List.length tr <= 2)%nat /\
    (need v (level o) <= Z.max 65536 (Z.min (o_start o) 1073741823) -> log_lines (v_log v (level o)) (ve_log E)).
Proof.
  intros k v o calls have O D K T V. assert (Hb : Between (o_start o) minVerifierLogSize maxVerifierLogSize = Z.max 65536 (Z.min (o_start o) 1073741823)).
  { rewrite max_val, min_val. unfold Between, MAX. cbn [Z.gtb Z.compare Pos.compare Pos.compare_cont]. lia. }
  assert (H : forall n fuel b0 l, l <> 0 -> exists b, loop k (o_start o) (S fuel) n (Attr l (Between (o_start o) minVerifierLogSize maxVerifierLogSize) 0 None) b0 = Some (Failed (Errno EFAULT) b, [attr1 (Attr l (Between (o_start o) minVerifierLogSize maxVerifierLogSize) 0 None)]) /\
    (need v l <= Between (o_start o) minVerifierLogSize maxVerifierLogSize -> cstr (b_data b) = v_log v l)).
  { intros n fuel b0 l L. destruct (between_spec (o_start o)) as (B & _). set (sz := Between (o_start o) minVerifierLogSize maxVerifierLogSize) in *. destruct (Z_le_gt_dec (need v l) sz) as [F|F].
    - destruct (loop_fits k v (o_start o) fuel n (Attr l sz 0 None) b0) as (oc & E & Fi); cbn [a_level a_size]; auto; [lia|now rewrite V|]. unfold final in Fi. rewrite V in Fi. destruct Fi as (b & -> & C & _). exists b. split; [exact E|]. intros _. exact C.
    - rewrite loop_unfold by exact L. destruct (answer_full k v n (Attr l sz 0 None)) as (data & t & E & Hh); cbn [a_level a_size]; auto; [lia|lia|]. rewrite E, V. cbn [r_err r_true]. change (EFAULT =? EFAULT) with true. cbv iota.
      rewrite retry_stop; [|right; split; [reflexivity|destruct t; exact L]]. eexists. split; [reflexivity|]. intros. exfalso. lia. }
  unfold newProgram, load. rewrite D. destruct (Z.eqb_spec (o_level o) 0) as [L|L].
  - destruct (silent_first k v (o_start o) 39 nilbuf K) as (t & Ht & E). rewrite E, V. rewrite retry_level; cbn [a_size a_level a_true a_buf]; [|unfold MAX; lia|reflexivity|reflexivity].
    destruct (H 2%nat 38%nat nilbuf 1) as (b & E' & C); [lia|]. rewrite E'. do 2 eexists. split; [reflexivity|]. split; [reflexivity|]. split; [cbn; lia|]. unfold level. rewrite L. cbn [Z.eqb]. rewrite <- Hb. intros F. cbn [ErrorWithLog ve_log]. rewrite cstr_lines, (C F). apply logLines_spec.
  - destruct (H 1%nat 39%nat nilbuf (o_level o) L) as (b & E' & C). rewrite E'. do 2 eexists. split; [reflexivity|]. split; [reflexivity|]. split; [cbn; lia|]. unfold level. destruct (Z.eqb_spec (o_level o) 0); [contradiction|]. rewrite <- Hb. intros F. cbn [ErrorWithLog ve_log]. rewrite cstr_lines, (C F). apply logLines_spec.
Qed.

Lemma loop_unfold0 : forall k start fuel n b, loop k start (S fuel) n (Attr 0 0 0 None) b =
  match r_err (k n (Attr 0 0 0 None)) with
  | None => Some (Loaded (cstr (b_data b)), [Attr 0 0 0 None])
  | Some e => match retryLogAttrs (hint (Attr 0 0 0 None) (r_true (k n (Attr 0 0 0 None)))) start e with
    | None => Some (Failed e b, [Attr 0 0 0 None])
    | Some a' => if (maxVerifierAttempts <=? n)%nat then Some (TooMany e, [Attr 0 0 0 None])
      else match loop k start fuel (S n) a' b with Some (o, tr) => Some (o, Attr 0 0 0 None :: tr) | None => None end
    end
  end.
Proof. reflexivity. Qed.
(** A program refused before the verifier runs: with EPERM, the error suggests that MEMLOCK
    is too low; the load is repeated once, to get a log, if no level was given. *)
Theorem C80_refused : forall k o calls have e, options_ok o -> o_disabled o = false -> refuses k (Errno e) -> e <> ENOSPC ->
  exists r tr, newProgram k o calls have = Some (r, tr) /\ (List.length tr <= 2)%nat /\
    (e = EPERM -> r = RMemlock (Errno EPERM)) /\
    (e <> EPERM -> r = RCalls \/ exists h E, r = RVerifier h E /\ ve_log E = [] /\ ve_cause E = CErr (Errno e)).
Proof.
  intros k o calls have e O D K N. destruct (between_spec (o_start o)) as (B & _). assert (N' : is (Errno e) ENOSPC = false) by (now apply Z.eqb_neq).
  assert (H : forall n fuel b0 l, l <> 0 -> loop k (o_start o) (S fuel) n (Attr l (Between (o_start o) minVerifierLogSize maxVerifierLogSize) 0 None) b0 =
     Some (Failed (Errno e) (Buffer (Between (o_start o) minVerifierLogSize maxVerifierLogSize) []), [attr1 (Attr l (Between (o_start o) minVerifierLogSize maxVerifierLogSize) 0 None)])).
  { intros n fuel b0 l L. rewrite loop_unfold by exact L. rewrite !K. cbn [r_err r_data r_true hint a_size]. rewrite retry_stop; [|right; split; [exact N'|exact L]]. now rewrite firstn_nil. }
  set (bf := Buffer (Between (o_start o) minVerifierLogSize maxVerifierLogSize) []) in *.
  assert (Hl : exists tr, load k o = Some (Failed (Errno e) bf, tr) /\ (List.length tr <= 2)%nat).
  { unfold load. rewrite D. destruct (Z.eqb_spec (o_level o) 0) as [L|L].
    - rewrite loop_unfold0, !K. cbn [r_err r_data r_true hint store a_buf]. rewrite retry_level; cbn [a_size a_level a_true a_buf]; [|unfold MAX; lia|exact N'|reflexivity]. change (maxVerifierAttempts <=? 1)%nat with false. cbv iota.
      rewrite (H 2%nat 38%nat nilbuf 1 ltac:(lia)). eexists. split; [reflexivity|cbn; lia].
    - rewrite H by exact L. eexists. split; [reflexivity|cbn; lia]. }
  destruct Hl as (tr & E & Le). unfold newProgram. rewrite E. eexists. exists tr. split; [reflexivity|]. split; [exact Le|].
  unfold programLoadError. cbn [is]. unfold bf. cbn [b_len b_data]. change (tail (Buffer (Between (o_start o) minVerifierLogSize maxVerifierLogSize) [])) with (@nil ascii). change (contains [] coreBadCall) with false. change (contains [] kfuncBadCall) with false. change (contains [] coreBadLoad) with false. split; intros HE.
  - subst e. change (EPERM =? EPERM) with true. destruct (Z.ltb_spec 0 (Between (o_start o) minVerifierLogSize maxVerifierLogSize)); [reflexivity|lia].
  - destruct (Z.eqb_spec e EPERM); [contradiction|]. cbv beta iota. repeat match goal with |- context [if ?b then _ else _] => destruct b end; try (left; reflexivity); right; do 2 eexists; (split; [reflexivity|]); split; reflexivity.
Qed.

(** ** Logs the kernel cannot hand out *)
(** If the log does not fit the largest buffer, a kernel that says so makes the library ask
    for more than is allowed: the verifier's errno and the log are both lost, and a program
    that would verify is not loaded. *)
Theorem C80_too_long_hinted : forall k v o have, options_ok o -> o_disabled o = false ->
  verifies k v -> v_hints v = true -> plain v -> v_verdict v <> None \/ o_level o <> 0 ->
  need v (level o) > 1073741823 -> o_start o < 1073741823 ->
  exists E tr, newProgram k o false have = Some (RVerifier false E, tr) /\ ve_cause E = CErr (Errno EINVAL) /\ ve_log E = [].
Proof.
  intros k v o have (O1 & O2) D K Hh P HV M St. destruct (between_spec (o_start o)) as (B & _).
  assert (Bs : Between (o_start o) minVerifierLogSize maxVerifierLogSize < MAX). { rewrite max_val, min_val. unfold Between, MAX. cbn [Z.gtb Z.compare Pos.compare Pos.compare_cont]. lia. }
  set (sz := Between (o_start o) minVerifierLogSize maxVerifierLogSize) in *.
  assert (H : forall n fuel b0, (n <= 2)%nat -> exists tr, loop k (o_start o) (S (S fuel)) n (Attr (level o) sz 0 None) b0 = Some (Failed (Errno EINVAL) (Buffer (need v (level o)) []), tr)).
  { intros n fuel b0 Hn. assert (L : level o <> 0). { unfold level. destruct (Z.eqb_spec (o_level o) 0); lia. } rewrite loop_unfold by exact L.
    destruct (answer_full k v n (Attr (level o) sz 0 None)) as (data & t & E & Ht); cbn [a_level a_size]; auto; [lia|unfold MAX in *; lia|]. rewrite plain_full in E by exact P. rewrite E. cbn [r_err r_true r_data]. cbn [a_level] in Ht. unfold hints in Ht. rewrite Hh in Ht. rewrite Ht.
    rewrite retry_hint; cbn [hint attr1 a_size a_true a_level a_buf]; [|lia|unfold need; lia|reflexivity]. unfold maxVerifierAttempts. destruct (Nat.leb_spec 30 n); [lia|].
    rewrite loop_unfold by exact L. set (a2 := Attr (level o) (need v (level o)) (need v (level o)) (Some sz)).
    pose proof (K (S n) (attr1 a2)) as A. assert (NV : ~ valid (attr1 a2)). { intros [(X & _)|(_ & X & _)]; cbn in X; [contradiction|lia]. }
    inversion A as [_ E2|? V|? ? V|? ? V]; try contradiction. cbn [r_err r_true r_data hint]. rewrite retry_stop; [|right; split; [reflexivity|exact L]]. rewrite firstn_nil. cbn [a2 a_size]. eexists. reflexivity. }
  assert (Hl : exists tr, load k o = Some (Failed (Errno EINVAL) (Buffer (need v (level o)) []), tr)).
  { unfold load. rewrite D. destruct (Z.eqb_spec (o_level o) 0) as [L|L].
    - destruct HV as [HV|HV]; [|contradiction]. destruct (silent_first k v (o_start o) 39 nilbuf K) as (t & Ht & E). rewrite E. destruct (v_verdict v) as [e|] eqn:V; [|congruence]. unfold plain in P. rewrite V in P.
      rewrite retry_level; cbn [a_size a_level a_true a_buf]; [|unfold MAX; lia|apply P|reflexivity]. destruct (H 2%nat 37%nat nilbuf) as (tr & E'); [lia|]. unfold level in E' at 1. rewrite L in E'. cbn [Z.eqb] in E'. fold sz. rewrite E'. eauto.
    - destruct (H 1%nat 38%nat nilbuf) as (tr & E'); [lia|]. unfold level in E' at 1. destruct (Z.eqb_spec (o_level o) 0); [contradiction|]. fold sz. rewrite E'. eauto. }
  destruct Hl as (tr & E). unfold newProgram. rewrite E. rewrite ple_simple by (now left). do 2 eexists. split; [reflexivity|]. split; reflexivity.
Qed.

(** ** Examples *)
(** A kernel for a verifier; [part] is what is left in a buffer which is too small. *)
Definition validb (a : attr) : bool :=
  if a_level a =? 0 then (a_size a =? 0) && match a_buf a with None => true | _ => false end
  else (0 <? a_size a) && (a_size a <=? 1073741823) && match a_buf a with Some n => n =? a_size a | None => false end.
Definition kernelOf (v : verifier) (part : bytes) : kernel := fun _ a =>
  if negb (validb a) then Reply (Some (Errno EINVAL)) [] None
  else if a_level a =? 0 then Reply (v_verdict v) [] None
  else let t := if v_hints v then Some (need v (a_level a)) else None in
    if need v (a_level a) <=? a_size a then Reply (v_verdict v) (v_log v (a_level a) ++ [NUL]) t
    else Reply (Some (match v_verdict v with Some (Errno e) => if e =? EFAULT then Errno EFAULT else Errno ENOSPC | _ => Errno ENOSPC end)) part t.
Lemma validb_spec : forall a, validb a = true <-> valid a.
Proof.
  intros [l s t b]. unfold validb, valid. cbn [a_level a_size a_buf]. destruct (Z.eqb_spec l 0) as [-> |N].
  - rewrite andb_true_iff, Z.eqb_eq. destruct b; intuition congruence.
  - rewrite !andb_true_iff, Z.ltb_lt, Z.leb_le. destruct b as [n|]; [rewrite Z.eqb_eq|]; intuition congruence.
Qed.
Lemma kernelOf_verifies : forall v part, verifies (kernelOf v part) v.
Proof.
  intros v part i a. unfold kernelOf. destruct (validb a) eqn:V; cbn [negb].
  - apply validb_spec in V. destruct (Z.eqb_spec (a_level a) 0) as [L|L]; [now apply ans_silent; auto|]. cbv zeta. destruct (Z.leb_spec (need v (a_level a)) (a_size a)).
    + apply ans_logged; auto. unfold hints. now destruct (v_hints v).
    + apply ans_full; auto. unfold hints. now destruct (v_hints v).
  - apply ans_invalid. intros X. apply validb_spec in X. congruence.
Qed.
Definition ex_log : bytes := lit "func#0 @0" ++ [NL] ++ repeat "x"%char (Z.to_nat 140000) ++ [NL] ++ lit "R0 !read_ok" ++ [NL].
Definition ex_v (h : bool) := Verifier (fun l => if l =? 1 then ex_log else lit "stats") (Some (Errno EACCES)) h.
Definition same (a b : bytes) : bool := (List.length a =? List.length b)%nat && forallb (fun q => Ascii.eqb (fst q) (snd q)) (combine a b).
Definition ex_sizes (h : bool) (o : options) : option (list (Z * Z)) :=
  match load (kernelOf (ex_v h) (lit "...")) o with
  | Some (Failed (Errno 13) b, tr) => if same (cstr (b_data b)) ex_log then Some (List.map (fun a => (a_level a, a_size a)) tr) else None
  | _ => None
  end.
Theorem C80_ex_hints : ex_sizes true (Options 0 0 false) = Some [(0, 0); (1, 65536); (1, 140024)].
Proof. vm_compute. reflexivity. Qed.
Theorem C80_ex_nohints : ex_sizes false (Options 0 0 false) = Some [(0, 0); (1, 65536); (1, 131072); (1, 262144)].
Proof. vm_compute. reflexivity. Qed.
Example C80_ex_start : ex_sizes false (Options 1 150000 false) = Some [(1, 150000)].
Proof. vm_compute. reflexivity. Qed.
Example C80_ex_hyps : options_ok (Options 0 0 false) /\ verifies (kernelOf (ex_v true) (lit "...")) (ex_v true) /\ need (ex_v true) 1 <= 1073741823.
Proof. split; [split; unfold in_u; cbn; lia|]. split; [apply kernelOf_verifies|]. vm_compute. intros H. discriminate H. Qed.
Example C80_ex_marker : near_end (lit "0: (85) call unknown#195896080" ++ [NL] ++ lit "invalid func unknown#195896080" ++ [NL] ++ lit "processed 1 insns" ++ [NL]) (lit "invalid func unknown#195896080" ++ [NL]).
Proof. exists (lit "0: (85) call unknown#195896080" ++ [NL]), (lit "processed 1 insns" ++ [NL]). split; [now vm_compute|vm_compute; lia]. Qed.

(** ** Where the bound is reached *)
(** A kernel whose hints grow is asked 30 times; the error then has no log at all. *)
Theorem C80_growing_hints_refuted : exists k tr,
  newProgram k (Options 1 0 false) false true = Some (RBug (Errno ENOSPC), tr) /\ List.length tr = 30%nat.
Proof. exists (fun _ a => Reply (Some (Errno ENOSPC)) (lit "log") (Some (a_size a + 1))). eexists. vm_compute. split; reflexivity. Qed.
(** ENOSPC that is not about the log (there are no free program ids) is taken to be about it:
    a load without a log is retried with a size but no level, which is not valid, and a
    kernel with hints is asked 30 times for a log it already wrote. *)
Theorem C80_enospc_refuted : exists v tr, v_verdict v = Some (Errno ENOSPC) /\
  newProgram (kernelOf v []) (Options 0 0 false) false true = Some (RBug (Errno ENOSPC), tr) /\
  List.length tr = 30%nat /\ nth 1 tr (Attr 0 0 0 None) = Attr 0 131072 0 None.
Proof. exists (Verifier (fun _ => lit "ok") (Some (Errno ENOSPC)) true). eexists. vm_compute. repeat split. Qed.

Print Assumptions C80_bounded.
Print Assumptions C80_never_gives_up.
Print Assumptions C80_disabled.
Print Assumptions C80_accepted.
Print Assumptions C80_rejected.
Print Assumptions C80_explained.
Print Assumptions C80_verifier_bug.
Print Assumptions C80_refused.
Print Assumptions C80_too_long_hinted.
