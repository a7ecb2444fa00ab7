(** C96: running programs *)
From Verif Require Import Base.GoInt Prog.Run Prog.RunSpec.
Open Scope Z_scope.

Section Kernel.
Variable exec : nat -> res.
Variable clip syscall : bool.
Notation kernelRun := (kernelRun exec clip syscall). Notation attempts := (attempts exec clip syscall). Notation run := (run exec clip syscall).
(** Everything up to the last attempt was interrupted; the last wasn't, or just one execution was wanted. *)
Lemma attempts_ok fuel a reset sched : (forall i e, sched i = Error e -> e <> EINTR) -> forall i k r p i' k' r', attempts fuel a reset sched i k r = Some (p, i', k', r') ->
  exists j kj, i' = S j /\ (i <= j)%nat /\ (k <= kj)%nat /\ (forall l, (i <= l < j)%nat -> exists m, sched l = Signal m) /\ r' = (if reset then r + (j - i) else r)%nat /\ (a_repeat a <= 1 -> j = i) /\
   ((exists m, sched j = Signal m /\ a_repeat a <= 1 /\ k' = (kj + m)%nat /\ p = Reply None 0 [] (a_out a) []) \/
    (forall m, sched j <> Signal m) /\ kernelRun a kj (sched j) = (p, k')).
Proof.
  intros NE. induction fuel as [|fuel IH]; cbn; intros i k r p i' k' r' H; [discriminate|].
  destruct (kernelRun a k (sched i)) as (q & k1) eqn:K. 
  assert (SG : (exists m, sched i = Signal m /\ q = failed EINTR /\ k1 = (k + m)%nat) \/ (forall m, sched i <> Signal m) /\ k_err q <> Some EINTR).
  { destruct (sched i) as [|m|e] eqn:SI.
    - right. split; [discriminate|]. unfold Run.kernelRun in K.
      destruct (syscall && _); [injection K as <- <-; cbn; discriminate|]. cbv zeta in K. destruct (negb (Nat.eqb (a_out a) 0) && clip && Nat.ltb _ _); [injection K as <- <-; discriminate|].
      destruct (negb _ && Nat.ltb _ _); injection K as <- <-; discriminate.
    - cbn in K. injection K as <- <-. left. eauto.
    - cbn in K. injection K as <- <-. right. split; [discriminate|]. cbn. specialize (NE _ _ SI). congruence. }
  destruct SG as [(m & SI & -> & ->)|(NS & NI)].
  - cbn [failed k_err k_ret k_data k_ctx] in H. rewrite Z.eqb_refl in H. destruct (Z.leb_spec (a_repeat a) 1) as [L|L].
    + injection H as <- <- <- <-. exists i, k. split; auto. split; auto. split; auto. split; [intros; lia|]. split; [destruct reset; lia|]. split; auto. left. exists m. split; auto.
    + destruct (IH _ _ _ _ _ _ _ H) as (j & kj & A1 & A2 & A3 & A4 & A5 & A6 & A7). exists j, kj. split; auto. split; [lia|]. split; [lia|]. split.
      * intros l LL. destruct (Nat.eq_dec l i) as [-> | N]; [eauto|]. apply A4. lia.
      * split; [destruct reset; lia|]. split; [lia|auto].
  - assert (H' : (q, S i, k1, r) = (p, i', k', r')). { destruct (k_err q) as [e|] eqn:E; [|congruence]. destruct (Z.eqb_spec e EINTR) as [-> | N]; [easy|congruence]. }
    injection H' as <- <- <- <-. exists i, k. split; auto. split; auto. split; auto. split; [intros; lia|]. split; [destruct reset; lia|]. split; auto. 
Qed.
(** What comes back without an error is the result of the last execution; the program ran at least as often as asked for. *)
Theorem C96_result : forall fuel o sched d ret out ctx, usable o ->
  (forall i, signalsNew (o_repeat o) (sched i)) \/ (forall i, signalsOld (o_repeat o) (sched i)) /\ 1 < o_repeat o ->
  run fuel o sched = Some d -> d_out d = Ret ret out ctx ->
  let x := exec (d_runs d - 1) in
  (Nat.max 1 (Z.to_nat (o_repeat o)) <= d_runs d)%nat /\ ret = r_ret x /\ outputIs o x out /\
  (match o_ctxout o, ctx with
   | None, None => True
   | Some n, Some c => 0 < n -> (length c = Z.to_nat n \/ length c = length (ctxin o) /\ syscall = true) /\ firstn (length (r_ctx x)) c = r_ctx x
   | _, _ => False end) /\
  d_resets d = (if o_reset o then d_attempts d - 1 else 0)%nat.
Proof.
  intros fuel o sched d ret out ctx U SG H R. unfold Run.run in H.
  assert (NE : forall i e, sched i = Error e -> e <> EINTR) by (intros i e E; destruct SG as [SG|(SG & _)]; specialize (SG i); rewrite E in SG; exact SG).
  assert (NS : o_repeat o <= 1 -> forall i m, sched i <> Signal m) by (intros L i m E; destruct SG as [SG|(_ & SG)]; [specialize (SG i); rewrite E in SG; unfold signalsNew in SG; lia|lia]).
  destruct (match o_ctxout o with Some z => z <? 0 | None => false end) eqn:NEG; [injection H as <-; discriminate|].
  destruct (inplace syscall o && _) eqn:IP; [injection H as <-; discriminate|].
  destruct (attempts fuel (attrOf syscall o) (o_reset o) sched 0 0 0) as [[[[p i] k] r]|] eqn:A; [|discriminate]. injection H as <-. cbn [d_out d_runs d_attempts d_resets] in *.
  destruct (attempts_ok _ _ _ _ NE _ _ _ _ _ _ _ A) as (j & kj & -> & _ & _ & _ & -> & _ & [(m & S & L & _)|(_ & K)]); [elim (NS L j m S)|].
  unfold finish in R. destruct (k_err p) eqn:KE; [discriminate|]. 
  unfold Run.kernelRun in K. destruct (sched j) as [|m|e]; [|injection K as <- <-; discriminate|injection K as <- <-; discriminate].
  destruct (syscall && (_ || _)) eqn:SC; [injection K as <- <-; discriminate|]. cbv zeta in K. set (k' := (kj + runs (a_repeat (attrOf syscall o)))%nat) in *. set (x := exec (k' - 1)) in *.
  destruct (negb (Nat.eqb (a_out (attrOf syscall o)) 0) && clip && Nat.ltb _ _) eqn:E1; [injection K as <- <-; discriminate|].
  destruct (negb _ && Nat.ltb _ (length (r_ctx x))) eqn:E2; [injection K as <- <-; discriminate|]. injection K as <- <-. cbn [k_ret k_data k_size k_ctx k_err] in *. fold x.
  split; [unfold k', runs; cbn [attrOf a_repeat]; lia|].
  assert (RS : (if o_reset o then (0 + (j - 0))%nat else O) = (if o_reset o then (S j - 1)%nat else O)) by (destruct (o_reset o); lia).
  assert (CX : forall b, ctxout o = Some b -> o_ctxout o <> None /\ (forall n, o_ctxout o = Some n -> b = repeat 0 (Z.to_nat n))) by (unfold ctxout; intros b; destruct (o_ctxout o); intros [= <-]; split; congruence).
  assert (CTX : forall c, (match ctxout o, (if inplace syscall o then Some (ctxin o) else ctxout o) with
      | Some _, Some b => Some (write b (if Nat.eqb (if syscall then length (a_ctxin (attrOf syscall o)) else a_ctxout (attrOf syscall o)) 0 then [] else r_ctx x)) | _, _ => None end) = c ->
      match o_ctxout o, c with None, None => True | Some n, Some c => 0 < n -> (length c = Z.to_nat n \/ length c = length (ctxin o) /\ syscall = true) /\ firstn (length (r_ctx x)) c = r_ctx x | _, _ => False end).
  { intros c <-. unfold ctxout. destruct (o_ctxout o) as [n|] eqn:CO; [|destruct (inplace syscall o); auto]. unfold ctxout in *. rewrite CO in *. cbn [attrOf a_ctxin a_ctxout] in *.
    assert (W : forall b, (length (r_ctx x) <= length b)%nat -> length (write b (r_ctx x)) = length b /\ firstn (length (r_ctx x)) (write b (r_ctx x)) = r_ctx x).
    { intros b L. unfold write. rewrite app_length, skipn_length. split; [lia|]. rewrite firstn_app, Nat.sub_diag, firstn_all. cbn. apply app_nil_r. }
    unfold inplace, ctxout in *. rewrite CO in *. destruct syscall eqn:SY; cbn [andb] in *.
    - destruct (o_ctx o) as [ci|] eqn:OC; cbn [a_out a_ctxin a_ctxout a_repeat attrOf] in *.
      + unfold ctxin in *. rewrite OC in *. cbn [size_] in IP. rewrite repeat_length in IP. apply negb_false_iff, Nat.eqb_eq in IP. intros N. destruct (Nat.eqb_spec (length ci) 0) as [Z0|Z0]; [lia|]. cbn [negb andb] in E2. apply Nat.ltb_ge in E2. destruct (W ci E2) as (W1 & W2). split; [auto|auto].
      + apply orb_false_iff in SC. destruct SC as (SC & _). apply orb_false_iff in SC. destruct SC as (SC & _). cbn [attrOf a_ctxout size_ andb] in SC. unfold inplace, ctxout in SC. rewrite ?OC, ?CO in SC. cbn [andb size_] in SC. rewrite repeat_length in SC. apply negb_false_iff, Nat.eqb_eq in SC. intros N. lia.
    - cbn [size_] in *. intros N. rewrite repeat_length in *. destruct (Nat.eqb_spec (Z.to_nat n) 0) as [Z0|Z0]; [lia|]. cbn [negb andb] in E2. apply Nat.ltb_ge in E2. destruct (W (repeat 0 (Z.to_nat n)) ltac:(rewrite repeat_length; auto)) as (W1 & W2). rewrite repeat_length in W1. auto. }
  unfold usable in U. unfold outputIs. destruct (o_out o) as [s|] eqn:OO.
  - destruct (Nat.ltb_spec (cap s) (length (r_data x))) as [L|L]; [discriminate|]. injection R as <- <- C. split; auto. split; [|split; [apply CTX; exact C|exact RS]]. cbn [s_len s_mem attrOf a_out] in *. unfold attrOf in E1. rewrite OO in *. cbn [a_out] in E1.
    destruct (Nat.eqb_spec (s_len s) 0) as [Z0|Z0]; [lia|]. unfold cap in L.
    assert (E : (if clip then firstn (s_len s) (r_data x) else r_data x) = r_data x). { destruct clip; auto. cbn [negb andb] in E1. apply Nat.ltb_ge in E1. apply firstn_all2. auto. }
    rewrite E. unfold write. split; [rewrite firstn_app, Nat.sub_diag, firstn_all; cbn; apply app_nil_r|]. split; auto. rewrite app_length, skipn_length. lia.
  - injection R as <- <- C. split; auto. split; auto. split; [apply CTX; exact C|exact RS].
Qed.
(** Errors are those of the kernel: from a system call, because a buffer is too small, or because syscall programs don't allow it. *)
Theorem C96_error : forall fuel o sched d e, (forall i, signalsOld (o_repeat o) (sched i)) -> run fuel o sched = Some d -> d_out d = KErr e ->
  sched (d_attempts d - 1)%nat = Error e \/
  e = ENOSPC /\ (exists s, o_out o = Some s /\ (s_len s < length (r_data (exec (d_runs d - 1))))%nat \/ (exists n, o_ctxout o = Some n /\ (Z.to_nat n < length (r_ctx (exec (d_runs d - 1))))%nat) \/ syscall = true /\ (length (ctxin o) < length (r_ctx (exec (d_runs d - 1))))%nat) \/
  e = EINVAL /\ syscall = true /\ (o_out o <> None \/ o_repeat o <> 0 \/ o_ctxout o <> None /\ o_ctx o = None).
Proof.
  intros fuel o sched d e SG H R. unfold Run.run in H.
  assert (NE : forall i e, sched i = Error e -> e <> EINTR) by (intros i e' E; specialize (SG i); rewrite E in SG; exact SG).
  destruct (match o_ctxout o with Some z => z <? 0 | None => false end) eqn:NEG; [injection H as <-; discriminate|].
  destruct (inplace syscall o && _) eqn:IP; [injection H as <-; discriminate|].
  destruct (attempts fuel (attrOf syscall o) (o_reset o) sched 0 0 0) as [[[[p i] k] r]|] eqn:A; [|discriminate]. injection H as <-. cbn [d_out d_runs d_attempts d_resets] in *.
  unfold finish in R. destruct (k_err p) as [e'|] eqn:KE; [|destruct (o_out o) as [s|]; [destruct (Nat.ltb (cap s) (k_size p))|]; discriminate]. injection R as ->.
  destruct (attempts_ok _ _ _ _ NE _ _ _ _ _ _ _ A) as (j & kj & -> & _ & _ & _ & _ & _ & [(m & S & L & _ & ->)|(_ & K)]); [discriminate|]. replace (S j - 1)%nat with j by lia.
  unfold Run.kernelRun in K. destruct (sched j) as [|m|e'] eqn:SJ; [|injection K as <- <-; cbn in KE; injection KE as <-|injection K as <- <-; cbn in KE; injection KE as ->; auto].
  2:{ exfalso. destruct (attempts_ok _ _ _ _ NE _ _ _ _ _ _ _ A) as (j' & kj' & E & _ & _ & _ & _ & _ & [(m' & S & L & _ & X)|(NSG & _)]); [discriminate|]. injection E as <-. elim (NSG m SJ). }
  right. destruct (syscall && (_ || _)) eqn:SC.
  - injection K as <- <-. cbn in KE. injection KE as <-. right. split; auto. apply andb_true_iff in SC. destruct SC as (-> & SC). split; auto. rewrite !orb_true_iff, !negb_true_iff, !Nat.eqb_neq, Z.eqb_neq in SC. cbn [attrOf a_ctxout a_out a_repeat] in SC. unfold inplace in SC. destruct SC as [[SC|SC]|SC]; auto.
    + right. right. unfold ctxout in SC. destruct (o_ctxout o) as [n|]; [|cbn in SC; destruct (o_ctx o); easy]. split; [discriminate|]. destruct (o_ctx o); [cbn in SC; easy|auto].
    + left. destruct (o_out o); easy.
  - left. cbv zeta in K. set (k' := (kj + runs (a_repeat (attrOf syscall o)))%nat) in *. set (x := exec (k' - 1)) in *.
    destruct (negb (Nat.eqb (a_out (attrOf syscall o)) 0) && clip && Nat.ltb _ _) eqn:E1.
    + injection K as <- <-. injection KE as <-. split; auto. fold x. apply andb_true_iff in E1. destruct E1 as (E1 & E2). apply Nat.ltb_lt in E2. apply andb_true_iff in E1. destruct E1 as (E1 & _). apply negb_true_iff, Nat.eqb_neq in E1. cbn [attrOf a_out] in *. destruct (o_out o) as [s|]; [|easy]. exists s. auto.
    + destruct (negb _ && Nat.ltb _ (length (r_ctx x))) eqn:E2; [|injection K as <- <-; discriminate]. injection K as <- <-. injection KE as <-. split; auto. fold x. apply andb_true_iff in E2. destruct E2 as (E2 & E3). apply negb_true_iff, Nat.eqb_neq in E2. apply Nat.ltb_lt in E3. exists (Slice [] 0).
      right. cbn [attrOf a_ctxin a_ctxout] in *. destruct syscall; [right; auto|]. left. cbn in E2, E3. unfold ctxout in *. destruct (o_ctxout o) as [n|]; cbn [size_] in *; [|easy]. rewrite repeat_length in E3. exists n. auto.
Qed.
(** It panics only if ContextOut has no fixed size, or if the kernel wrote past the end of the buffer. *)
Theorem C96_panic : forall fuel o sched d, usable o -> run fuel o sched = Some d -> d_out d = Panic ->
  (exists n, o_ctxout o = Some n /\ n < 0) \/ clip = false /\ exists s, o_out o = Some s /\ (length (s_mem s) < length (r_data (exec (d_runs d - 1))))%nat.
Proof.
  intros fuel o sched d U H R. unfold Run.run in H.
  destruct (match o_ctxout o with Some z => z <? 0 | None => false end) eqn:NEG; [injection H as <-; left; destruct (o_ctxout o) as [n|]; [|discriminate]; exists n; split; auto; lia|]. right.
  destruct (inplace syscall o && _) eqn:IP; [injection H as <-; discriminate|].
  destruct (attempts fuel (attrOf syscall o) (o_reset o) sched 0 0 0) as [[[[p i] k] r]|] eqn:A; [|discriminate]. injection H as <-. cbn [d_out d_runs d_attempts d_resets] in *.
  unfold finish in R. destruct (k_err p) as [e'|] eqn:KE; [discriminate|]. destruct (o_out o) as [s|] eqn:OO; [|discriminate]. destruct (Nat.ltb_spec (cap s) (k_size p)) as [L|L]; [|discriminate]. unfold usable in U. rewrite OO in U. unfold cap in L.
  assert (G : forall fuel i k r p i' k' r', attempts fuel (attrOf syscall o) (o_reset o) sched i k r = Some (p, i', k', r') -> k_err p = None -> k_size p = s_len s \/ clip = false /\ k_size p = length (r_data (exec (k' - 1))) \/ (k_size p <= s_len s)%nat).
  { clear - OO U. induction fuel as [|fuel IH]; cbn [Run.attempts]; intros i k r p i' k' r' H E; [discriminate|]. destruct (kernelRun (attrOf syscall o) k (sched i)) as (q & k1) eqn:K. destruct (k_err q) as [e|] eqn:KE.
    - destruct (e =? EINTR); [|injection H as <- <- <- <-; congruence]. destruct (a_repeat (attrOf syscall o) <=? 1); [|eapply IH; eauto]. injection H as <- <- <- <-. cbn. rewrite OO. auto.
    - injection H as <- <- <- <-. unfold Run.kernelRun in K. destruct (sched i); [|injection K as <- <-; discriminate|injection K as <- <-; discriminate]. destruct (syscall && _); [injection K as <- <-; discriminate|]. cbv zeta in K.
      cbn [attrOf a_out] in K. rewrite OO in K. destruct (Nat.eqb_spec (s_len s) 0); [lia|]. cbn [negb andb] in K. destruct clip; cbn [andb] in K.
      + destruct (Nat.ltb_spec (s_len s) (length (r_data (exec (k + runs (a_repeat (attrOf syscall o)) - 1))))) as [L|L]; [injection K as <- <-; discriminate|]. destruct (_ && _); injection K as <- <-; [discriminate|]. auto.
      + destruct (_ && _); injection K as <- <-; [discriminate|]. auto. }
  destruct (G _ _ _ _ _ _ _ _ A KE) as [E|[(E1 & E2)|E]]; [lia| |lia]. split; auto. exists s. split; auto. lia.
Qed.
Lemma not_eintr a k c q k1 : (forall m, c <> Signal m) -> (forall e, c = Error e -> e <> EINTR) -> kernelRun a k c = (q, k1) -> k_err q <> Some EINTR.
Proof.
  intros NS NE K. destruct c as [|m|e]; [|elim (NS m eq_refl)|cbn in K; injection K as <- <-; cbn; specialize (NE e eq_refl); congruence]. unfold Run.kernelRun in K.
  destruct (syscall && _); [injection K as <- <-; cbn; discriminate|]. cbv zeta in K. destruct (negb (Nat.eqb (a_out a) 0) && clip && Nat.ltb _ _); [injection K as <- <-; discriminate|]. destruct (negb _ && Nat.ltb _ _); injection K as <- <-; discriminate.
Qed.
Lemma attempts_S fuel a reset sched i k r : attempts (S fuel) a reset sched i k r =
  let '(p, k) := kernelRun a k (sched i) in
      match k_err p with
      | None => Some (p, S i, k, r)
      | Some e =>
          if e =? EINTR then
            if a_repeat a <=? 1 then Some (Reply None (k_ret p) (k_data p) (a_out a) (k_ctx p), S i, k, r)
            else attempts fuel a reset sched (S i) k (if reset then S r else r)
          else Some (p, S i, k, r)
      end.
Proof. reflexivity. Qed.
(** It ends as soon as an attempt is not interrupted. *)
Theorem C96_ends : forall o sched, (forall i, signalsOld (o_repeat o) (sched i)) -> (exists j, forall m, sched j <> Signal m) -> exists fuel, run fuel o sched <> None.
Proof.
  intros o sched SG (j & NJ). exists (S j). unfold Run.run. destruct (match o_ctxout o with Some z => z <? 0 | None => false end); [discriminate|]. destruct (inplace syscall o && _); [discriminate|].
  assert (NE : forall i e, sched i = Error e -> e <> EINTR) by (intros i e' E; specialize (SG i); rewrite E in SG; exact SG).
  assert (G : forall n i k r, (j = i + n)%nat -> attempts (S n) (attrOf syscall o) (o_reset o) sched i k r <> None).
  { induction n as [|n IH]; intros i k r E; rewrite attempts_S; destruct (kernelRun (attrOf syscall o) k (sched i)) as (q & k1) eqn:K.
    - replace i with j in * by lia. pose proof (not_eintr _ _ _ _ _ NJ (NE j) K) as NI. destruct (k_err q) as [e|] eqn:KE; [|discriminate]. destruct (Z.eqb_spec e EINTR) as [-> | N]; [easy|discriminate].
    - destruct (k_err q) as [e|]; [|discriminate]. destruct (e =? EINTR); [|discriminate]. destruct (a_repeat _ <=? 1); [discriminate|]. apply IH. lia. }
  specialize (G j 0%nat 0%nat 0%nat eq_refl). destruct (attempts _ _ _ _ _ _ _) as [[[[p i] k] r]|]; [discriminate|easy].
Qed.
(** All attempts but the last were interrupted. *)
Theorem C96_attempts : forall fuel o sched d, (forall i, signalsOld (o_repeat o) (sched i)) -> run fuel o sched = Some d ->
  (forall i, (i < d_attempts d - 1)%nat -> exists m, sched i = Signal m) /\ ((d_attempts d > 1)%nat -> 1 < o_repeat o) /\ (o_repeat o <= 1 -> d_resets d = 0%nat).
Proof.
  intros fuel o sched d SG H. unfold Run.run in H. assert (NE : forall i e, sched i = Error e -> e <> EINTR) by (intros i e' E; specialize (SG i); rewrite E in SG; exact SG).
  destruct (match o_ctxout o with Some z => z <? 0 | None => false end); [injection H as <-; cbn; split; [intros; lia|split; auto; lia]|]. destruct (inplace syscall o && _); [injection H as <-; cbn; split; [intros; lia|split; auto; lia]|].
  destruct (attempts _ _ _ _ _ _ _) as [[[[p i] k] r]|] eqn:A; [|discriminate]. injection H as <-. cbn [d_attempts d_resets].
  destruct (attempts_ok _ _ _ _ NE _ _ _ _ _ _ _ A) as (j & kj & -> & _ & _ & A1 & A2 & A3 & _). split; [intros l L; apply A1; lia|]. cbn [attrOf a_repeat] in A3. split; [intros L; destruct (Z_le_gt_dec (o_repeat o) 1) as [LE|GT]; [specialize (A3 LE); lia|lia]|]. intros L. specialize (A3 L). subst. destruct (o_reset o); lia.
Qed.
End Kernel.
(** Test: a packet with room for 258 bytes more. *)
Theorem C96_test : forall (exec : nat -> res) clip fuel input sched d, (forall i, signalsNew 1 (sched i)) -> run exec clip false fuel (testOpts input) sched = Some d ->
  match d_out d return Prop with
  | Ret ret out _ => ret = r_ret (exec (d_runs d - 1)%nat) /\ (0 < d_runs d)%nat /\ (input <> [] -> exists s, out = Some s /\ content s = r_data (exec (d_runs d - 1)%nat))
  | Panic => clip = false /\ (length input + 258 < length (r_data (exec (d_runs d - 1)%nat)))%nat
  | KErr e => sched (d_attempts d - 1)%nat = Error e \/ e = ENOSPC /\ (length input + 258 < length (r_data (exec (d_runs d - 1)%nat)))%nat
  | Invalid => False
  end.
Proof.
  intros exec clip fuel input sched d SG H. assert (U : usable (testOpts input)) by (unfold usable, testOpts; cbn [o_out]; destruct input; auto; cbn [s_len s_mem]; rewrite repeat_length; unfold outputPad; lia).
  assert (SO : forall i, signalsOld (o_repeat (testOpts input)) (sched i)) by (intros i; specialize (SG i); unfold signalsNew, signalsOld in *; cbn [testOpts o_repeat]; destruct (sched i); auto; lia).
  destruct (d_out d) as [ret out ctx|e| |] eqn:D.
  - destruct (C96_result exec clip false fuel (testOpts input) sched d ret out ctx U (or_introl SG) H D) as (R1 & R2 & R3 & _). split; auto. split; [lia|]. intros N. unfold outputIs, testOpts in R3. cbn [o_out] in R3. destruct input; [easy|]. destruct out as [s|]; [|easy]. exists s. unfold content. tauto.
  - destruct (C96_error exec clip false fuel (testOpts input) sched d e SO H D) as [X|[(-> & s & X)|(_ & X & _)]]; [auto| |discriminate]. right. split; auto. destruct X as [(X & Y)|[(n & X & _)|(X & _)]]; [|discriminate|discriminate]. unfold testOpts in X. cbn [o_out] in X. destruct input; [discriminate|]. injection X as <-. cbn [s_len] in Y. exact Y.
  - unfold run in H. cbn [testOpts o_ctxout inplace andb] in H. destruct (attempts _ _ _ _ _ _ _ _ _ _) as [[[[p i] k] r]|]; [|discriminate]. injection H as <-. cbn in D. unfold finish in D. destruct (k_err p); [discriminate|]. destruct (o_out _) as [s|]; [destruct (Nat.ltb _ _)|]; discriminate.
  - destruct (C96_panic exec clip false fuel (testOpts input) sched d U H D) as [(n & X & _)|(-> & s & X & Y)]; [discriminate|]. split; auto. unfold testOpts in X. cbn [o_out] in X. destruct input; [discriminate|]. injection X as <-. cbn [s_mem length] in Y. rewrite repeat_length in Y. cbn [length]. unfold outputPad in Y. lia.
Qed.

(** ** Examples *)
Definition prog (n : nat) : res := Res (2 + Z.of_nat n) [Z.of_nat n; 7; 8] [5].
Definition twice (i : nat) : choice := match i with O | 1%nat => Signal 2 | _ => Complete end.
Theorem C96_example :
  run prog true false 9 (Opts (Some (Slice [0; 0; 0; 0] 4)) None (Some 2) 3 true) twice = Some (Done (Ret 8 (Some (Slice [6; 7; 8; 0] 3)) (Some [5; 0])) 2 7 3) /\
  (forall i, signalsNew 3 (twice i)) /\
  run prog true false 9 (Opts (Some (Slice [0; 0] 2)) None None 1 false) (fun _ => Complete) = Some (Done (KErr ENOSPC) 0 1 1) /\
  run prog true true 9 (Opts None (Some [1]) (Some 1) 0 false) (fun _ => Complete) = Some (Done (Ret 2 None (Some [5])) 0 1 1) /\
  run prog true true 9 (testOpts [1]) (fun _ => Complete) = Some (Done (KErr EINVAL) 0 0 1) /\
  run prog true true 9 (Opts None (Some [1]) (Some 2) 0 false) (fun _ => Complete) = Some (Done Invalid 0 0 0) /\
  run prog true false 9 (Opts None None None 1 false) (fun _ => Error EINVAL) = Some (Done (KErr EINVAL) 0 0 1).
Proof. split; [vm_compute; reflexivity|]. split; [intros [|[|i]]; cbn; auto; lia|]. repeat split; vm_compute; reflexivity. Qed.
(** Before Linux 5.11 a signal during the only execution makes Test return 0 and a packet of zeros, without an error, whatever the program did. *)
Theorem C96_interrupted_refuted : exists sched d, (forall i, signalsOld 1 (sched i)) /\ run prog true false 9 (testOpts [1]) sched = Some d /\
  d_out d = Ret 0 (Some (Slice (repeat 0 259) 259)) None /\ d_runs d = 1%nat /\ forall n, r_ret (prog n) <> 0 /\ length (r_data (prog n)) = 3%nat.
Proof.
  exists (fun _ => Signal 1). eexists. split; [intros i; unfold signalsOld; lia|]. split; [reflexivity|]. split; [vm_compute; reflexivity|]. split; [reflexivity|]. intros n. unfold prog. cbn [r_ret r_data]. split; [lia|auto].
Qed.
(** A buffer for output that is empty but not nil: Run panics, or gives out bytes that have nothing to do with the program. *)
Theorem C96_empty_refuted : run prog true false 9 (Opts (Some (Slice [] 0)) None None 1 false) (fun _ => Complete) = Some (Done Panic 0 1 1) /\
  run prog true false 9 (Opts (Some (Slice [9; 9; 9; 9] 0)) None None 1 false) (fun _ => Complete) = Some (Done (Ret 2 (Some (Slice [9; 9; 9; 9] 3)) None) 0 1 1).
Proof. split; vm_compute; reflexivity. Qed.
(** ContextOut of a type without fixed size: Run panics instead of returning an error. *)
Theorem C96_context_refuted : forall exec clip syscall sched, run exec clip syscall 1 (Opts None None (Some (-1)) 1 false) sched = Some (Done Panic 0 0 0).
Proof. reflexivity. Qed.

Print Assumptions C96_result.
Print Assumptions C96_error.
Print Assumptions C96_panic.
Print Assumptions C96_ends.
Print Assumptions C96_attempts.
Print Assumptions C96_test.
Print Assumptions C96_example.
Print Assumptions C96_interrupted_refuted.
