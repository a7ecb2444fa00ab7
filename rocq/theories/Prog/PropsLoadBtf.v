(** C82: the log of rejected BTF. *)
From Coq Require Import List Bool Arith Lia Ascii String ZArith Sorting.Sorted.
From Verif Require Import Base.GoInt Internal.Math Prog.VerifierError Prog.VerifierErrorSpec Prog.VerifierErrorProof Prog.Load Prog.LoadSpec Prog.LoadProof Prog.PropsLoad.
Import ListNotations.
Open Scope list_scope. Open Scope Z_scope.

(** The BTF verifier of kernels before 6.4: rejected BTF is reported with the verifier's
    errno even if the log does not fit the buffer. *)
Inductive answers_old (v : verifier) (a : attr) : reply -> Prop :=
| old_invalid : ~ valid a -> answers_old v a (Reply (Some (Errno EINVAL)) [] None)
| old_silent : valid a -> a_level a = 0 -> answers_old v a (Reply (v_verdict v) [] None)
| old_logged : forall rest, valid a -> a_level a <> 0 -> need v (a_level a) <= a_size a ->
    answers_old v a (Reply (v_verdict v) (v_log v (a_level a) ++ NUL :: rest) None)
| old_full : forall data, valid a -> a_level a <> 0 -> a_size a < need v (a_level a) ->
    answers_old v a (Reply (match v_verdict v with Some e => Some e | None => Some (Errno ENOSPC) end) data None).

Definition u32_hints (k : kernel) : Prop := forall i a t, r_true (k i a) = Some t -> in_u 32 t.
Definition inv (a : attr) (b : buffer) : Prop :=
  in_u 32 (a_size a) /\ in_u 32 (a_true a) /\ b_len b = a_size a /\ (a_size a = 0 /\ a_buf a = None \/ a_size a <> 0 /\ a_buf a = Some (a_size a)).

(** One round of the loop. *)
Lemma btf_step : forall k fuel n a b, u32_hints k -> inv a b ->
  (exists o, btfLoop k (S fuel) n a b = Some (o, [a])) \/
  exists a' b', inv a' b' /\ a_size a < a_size a' /\ a_level a' = 1 /\
    btfLoop k (S fuel) n a b = match btfLoop k fuel (S n) a' b' with Some (o, tr) => Some (o, a :: tr) | None => None end.
Proof.
  intros k fuel n a b U (I1 & I2 & I3 & I4). cbn [btfLoop]. cbv zeta. destruct (r_err (k n a)) as [e|]; [|left; eauto].
  assert (Hs : a_size (hint a (r_true (k n a))) = a_size a) by (destruct (r_true (k n a)); reflexivity).
  assert (Ht : in_u 32 (a_true (hint a (r_true (k n a))))). { destruct (r_true (k n a)) as [t|] eqn:E; [cbn; now apply (U n a)|exact I2]. }
  set (a1 := hint a (r_true (k n a))) in *. set (b1 := store a b (r_data (k n a))).
  assert (Hb : b_len b1 = a_size a). { unfold b1, store. destruct (a_buf a); exact I3. }
  rewrite Hs, Hb. destruct (negb (a_true a1 =? 0) && (a_size a >=? a_true a1)) eqn:C1; [left; eauto|]. destruct (negb (a_size a =? 0) && negb (is e ENOSPC)) eqn:C2; [left; eauto|].
  set (ls := u32 (Z.max (a_size a * 2) minLogSize)). destruct (Z.ltb_spec ls (a_size a)) as [|G]; [left; eauto|]. right.
  set (sz := if negb (a_true a1 =? 0) then a_true a1 else ls). exists (Attr 1 sz (a_true a1) (Some sz)), (makebuf sz).
  assert (Hls : in_u 32 ls) by (unfold ls, u32, wrapu, in_u; apply Z.mod_pos_bound; lia).
  assert (Hsz : in_u 32 sz /\ a_size a < sz).
  { unfold sz. destruct (Z.eqb_spec (a_true a1) 0) as [Z0|Z0]; cbn [negb].
    - split; [exact Hls|]. unfold ls, minLogSize, u32, wrapu, in_u in *. change (2 ^ 32) with 4294967296 in *. destruct (Z_lt_le_dec (Z.max (a_size a * 2) (64 * 1024)) 4294967296) as [B|B].
      + rewrite Z.mod_small by lia. lia.
      + exfalso. replace (Z.max (a_size a * 2) (64 * 1024)) with ((a_size a * 2 - 4294967296) + 1 * 4294967296) in G by lia. rewrite Z.mod_add, Z.mod_small in G by lia. lia.
    - split; [exact Ht|]. cbn [negb andb] in C1. destruct (Z.eqb_spec (a_true a1) 0); [contradiction|]. cbn [negb andb] in C1. destruct (Z.geb_spec (a_size a) (a_true a1)); [discriminate|lia]. }
  destruct Hsz as (S1 & S2). split.
  - split; [exact S1|]. split; [exact Ht|]. split; [reflexivity|]. right. cbn [a_size a_buf]. split; [unfold in_u in *; lia|reflexivity].
  - split; [exact S2|]. split; [reflexivity|]. reflexivity.
Qed.
Lemma btf_ends : forall k, u32_hints k -> forall m fuel n a b, inv a b -> 2 ^ 32 - a_size a <= Z.of_nat m -> (m <= fuel)%nat ->
  exists o tr, btfLoop k fuel n a b = Some (o, a :: tr) /\ StronglySorted (fun x y => a_size x < a_size y) (a :: tr) /\ Forall (fun x => a_level x = 1) tr.
Proof.
  intros k U. induction m as [|m IH]; intros fuel n a b I M F; [exfalso; destruct I as (I & _); unfold in_u in I; lia|]. destruct fuel as [|fuel]; [lia|].
  destruct (btf_step k fuel n a b U I) as [(o & E)|(a' & b' & I' & L & L1 & E)].
  - exists o, []. split; [exact E|]. split; [repeat constructor|constructor].
  - destruct (IH fuel (S n) a' b' I') as (o & tr & E' & S & L'); [lia|lia|]. rewrite E, E'. exists o, (a' :: tr). split; [reflexivity|]. split; [|now constructor]. constructor; [exact S|]. constructor; [exact L|].
    apply StronglySorted_inv in S as (_ & S). eapply Forall_impl; [|exact S]. cbn. intros; lia.
Qed.
Lemma inv0 : inv (Attr 0 0 0 None) nilbuf.
Proof. unfold inv, in_u. cbn. repeat split; try lia. now left. Qed.

(** ** Any kernel *)
(** Loading BTF ends, whatever the kernel does, and every further system call has a larger
    buffer than the one before. *)
Theorem C82_ends : forall k have, u32_hints k -> exists r tr enough, (forall fuel, (enough <= fuel)%nat -> newHandle k fuel have = Some (r, Attr 0 0 0 None :: tr)) /\
  StronglySorted (fun x y => a_size x < a_size y) (Attr 0 0 0 None :: tr) /\ Forall (fun x => a_level x = 1) tr.
Proof.
  intros k have U. assert (Bm : exists m, 2 ^ 32 <= Z.of_nat m) by (exists (Z.to_nat (2 ^ 32)); rewrite Z2Nat.id; lia). destruct Bm as (m & Hm).
  assert (H : forall fuel, (m <= fuel)%nat -> exists o tr, btfLoad k fuel = Some (o, Attr 0 0 0 None :: tr) /\ StronglySorted (fun x y => a_size x < a_size y) (Attr 0 0 0 None :: tr) /\ Forall (fun x => a_level x = 1) tr).
  { intros fuel F. apply (btf_ends k U m); [apply inv0|cbn [a_size]; lia|exact F]. }
  assert (Mono : forall fuel fuel' n a b x, (fuel <= fuel')%nat -> btfLoop k fuel n a b = Some x -> btfLoop k fuel' n a b = Some x).
  { clear. induction fuel as [|fuel IH]; intros fuel' n a b x L E; [discriminate|]. destruct fuel' as [|fuel']; [lia|]. cbn [btfLoop] in *. cbv zeta in *. destruct (r_err (k n a)) as [e|]; [|exact E].
    destruct (_ && _); [exact E|]. destruct (_ && _); [exact E|]. destruct (_ <? _); [exact E|].
    match type of E with match btfLoop k fuel ?i ?aa ?bb with _ => _ end = _ => destruct (btfLoop k fuel i aa bb) as [(o & tr)|] eqn:E'; [|discriminate]; rewrite (IH fuel' i aa bb (o, tr)) by (auto; lia) end. exact E. }
  destruct (H m (le_n _)) as (o & tr & E & S & L). eexists. exists tr, m. split; [|auto].
  intros fuel F. unfold newHandle. unfold btfLoad in *. rewrite (Mono _ _ _ _ _ _ F E).
  instantiate (1 := match o with BtfLoaded => BHandle | BtfOverflow => BOverflow | BtfFailed TokenErr _ => BToken | BtfFailed e b => if have then BVerifier (ErrorWithLog (lit "load btf") e (b_data b)) else BUnsupported end).
  destruct o as [|[e|] b|]; reflexivity.
Qed.

(** ** BTF that is correct *)
Theorem C82_accepted : forall k v fuel have, verifies k v -> v_verdict v = None -> newHandle k (S fuel) have = Some (BHandle, [Attr 0 0 0 None]).
Proof.
  intros k v fuel have K V. pose proof (K 1%nat (Attr 0 0 0 None)) as A. assert (Va : valid (Attr 0 0 0 None)) by (left; auto).
  inversion A as [N|t _ L0 Ht E|rest t _ L _ _ E|data t _ L _ _ E]; [contradiction| |cbn in L; lia|cbn in L; lia].
  unfold newHandle, btfLoad. cbn [btfLoop]. cbv zeta. rewrite <- E, V. reflexivity.
Qed.

Lemma btf_first : forall k fuel e t, k 1%nat (Attr 0 0 0 None) = Reply (Some e) [] t -> (t = None \/ t = Some 0) ->
  btfLoad k (S fuel) = match btfLoop k fuel 2 (Attr 1 65536 0 (Some 65536)) (makebuf 65536) with Some (o, tr) => Some (o, Attr 0 0 0 None :: tr) | None => None end.
Proof. intros k fuel e t E H. unfold btfLoad. cbn [btfLoop]. cbv zeta. rewrite E. destruct H as [-> | ->]; reflexivity. Qed.
Lemma btf_fits : forall k v fuel n a b e, verifies k v -> (forall l, ~ In NUL (v_log v l)) -> v_verdict v = Some e -> v_hints v = true -> a_level a <> 0 -> a_buf a = Some (a_size a) -> b_len b = a_size a -> 0 < a_size a <= MAX -> need v (a_level a) <= a_size a ->
  exists b', btfLoop k (S fuel) n a b = Some (BtfFailed e b', [a]) /\ cstr (b_data b') = v_log v (a_level a).
Proof.
  intros k v fuel n a b e K T V Hh L B Lb S F. pose proof (K n a) as A. assert (Va : valid a) by (right; unfold MAX in S; auto).
  inversion A as [N|t _ L0 Ht E|rest t _ _ _ Hn E|data t _ _ F' _ E]; [contradiction|contradiction| |lia]. cbn [btfLoop]. cbv zeta. rewrite <- E, V. cbn [r_err r_data r_true].
  unfold hints in Hn. rewrite Hh in Hn. rewrite Hn. cbn [hint a_true a_size]. assert (Nn : need v (a_level a) <> 0) by (unfold need; lia). destruct (Z.eqb_spec (need v (a_level a)) 0); [contradiction|]. destruct (Z.geb_spec (a_size a) (need v (a_level a))); [|lia]. cbn [negb andb].
  eexists. split; [reflexivity|]. unfold store. rewrite B. cbn [b_data]. rewrite Lb. apply cstr_text; [apply T|unfold need in F; lia].
Qed.

(** ** BTF that is rejected *)
(** The error has the verifier's errno and the whole log; at most three system calls. *)
Theorem C82_rejected : forall k v fuel e, verifies k v -> v_hints v = true -> (forall l, ~ In NUL (v_log v l)) ->
  v_verdict v = Some (Errno e) -> e <> ENOSPC -> e <> EFAULT -> need v 1 <= 1073741823 -> (3 <= fuel)%nat ->
  exists E tr, newHandle k fuel true = Some (BVerifier E, tr) /\ ve_source E = lit "load btf" /\ ve_cause E = Errno e /\ log_lines (v_log v 1) (ve_log E) /\ (List.length tr <= 3)%nat.
Proof.
  intros k v fuel e K Hh T V N1 N2 M F. assert (P : plain v). { unfold plain. rewrite V. cbn [is]. split; now apply Z.eqb_neq. }
  destruct fuel as [|[|[|fuel]]]; try lia. clear F.
  assert (H : exists b tr, btfLoad k (S (S (S fuel))) = Some (BtfFailed (Errno e) b, tr) /\ cstr (b_data b) = v_log v 1 /\ (List.length tr <= 3)%nat).
  { pose proof (K 1%nat (Attr 0 0 0 None)) as A. assert (Va : valid (Attr 0 0 0 None)) by (left; auto).
    inversion A as [N|t _ L0 Ht E|rest t _ L _ _ E|data t _ L _ _ E]; [contradiction| |cbn in L; lia|cbn in L; lia].
    rewrite (btf_first k _ (Errno e) t); [|rewrite <- E; now rewrite V|exact Ht].
    set (a1 := Attr 1 65536 0 (Some 65536)). destruct (Z_le_gt_dec (need v 1) 65536) as [Ft|Ft].
    - destruct (btf_fits k v (S fuel) 2 a1 (makebuf 65536) (Errno e)) as (b & Eb & C); auto; try (cbn; unfold MAX; lia). rewrite Eb. do 2 eexists. split; [reflexivity|]. split; [exact C|cbn; lia].
    - destruct (answer_full k v 2 (Attr 1 65536 0 None)) as (data & t' & E' & Hn); cbn [a_level a_size]; auto; [lia|unfold MAX; lia|lia|]. rewrite plain_full in E' by exact P. change (attr1 (Attr 1 65536 0 None)) with a1 in E'. cbn [a_level] in Hn. unfold hints in Hn. rewrite Hh in Hn. subst t'.
      change (btfLoop k (S (S fuel)) 2 a1 (makebuf 65536)) with
        (let r := k 2%nat a1 in let logBuf := store a1 (makebuf 65536) (r_data r) in
         match r_err r with None => Some (BtfLoaded, [a1]) | Some e0 => let a' := hint a1 (r_true r) in
           if negb (a_true a' =? 0) && (a_size a' >=? a_true a') then Some (BtfFailed e0 logBuf, [a1]) else if negb (a_size a' =? 0) && negb (is e0 ENOSPC) then Some (BtfFailed e0 logBuf, [a1])
           else let logSize := u32 (Z.max (b_len logBuf * 2) minLogSize) in if logSize <? b_len logBuf then Some (BtfOverflow, [a1])
             else let logSize := if negb (a_true a' =? 0) then a_true a' else logSize in match btfLoop k (S fuel) 3 (Attr 1 logSize (a_true a') (Some logSize)) (makebuf logSize) with Some (o, tr) => Some (o, a1 :: tr) | None => None end end).
      cbv zeta. rewrite E'. cbn [r_err r_true r_data hint a1 a_true a_size a_level a_buf store makebuf b_len]. assert (Nn : need v 1 <> 0) by (unfold need; lia). destruct (Z.eqb_spec (need v 1) 0); [contradiction|]. destruct (Z.geb_spec 65536 (need v 1)); [lia|]. cbn [negb andb].
      change (65536 =? 0) with false. change (is (Errno ENOSPC) ENOSPC) with true. cbn [negb andb]. change (u32 (Z.max (65536 * 2) minLogSize) <? 65536) with false. cbv iota.
      destruct (btf_fits k v fuel 3 (Attr 1 (need v 1) (need v 1) (Some (need v 1))) (makebuf (need v 1)) (Errno e)) as (b & Eb & C); cbn [a_level a_size a_buf makebuf b_len]; auto; [lia|unfold MAX, need in *; lia|lia|]. unfold makebuf in *. rewrite Eb. do 2 eexists. split; [reflexivity|]. split; [exact C|cbn; lia]. }
  destruct H as (b & tr & E & C & L). unfold newHandle. rewrite E. do 2 eexists. split; [reflexivity|]. split; [reflexivity|]. split; [reflexivity|]. split; [|exact L]. cbn [ErrorWithLog ve_log]. rewrite cstr_lines, C. apply logLines_spec.
Qed.
(** Old kernels are asked for 64 KiB of log; what does not fit is missing. *)
Theorem C82_rejected_old : forall k v fuel e, (forall i a, answers_old v a (k i a)) -> (forall l, ~ In NUL (v_log v l)) ->
  v_verdict v = Some (Errno e) -> e <> ENOSPC -> (2 <= fuel)%nat ->
  exists E, newHandle k fuel true = Some (BVerifier E, [Attr 0 0 0 None; Attr 1 65536 0 (Some 65536)]) /\ ve_cause E = Errno e /\ (need v 1 <= 65536 -> log_lines (v_log v 1) (ve_log E)).
Proof.
  intros k v fuel e K T V N F. destruct fuel as [|[|fuel]]; try lia. set (a1 := Attr 1 65536 0 (Some 65536)).
  assert (H1 : k 1%nat (Attr 0 0 0 None) = Reply (Some (Errno e)) [] None).
  { pose proof (K 1%nat (Attr 0 0 0 None)) as A. assert (Va : valid (Attr 0 0 0 None)) by (left; auto). inversion A as [X|_ L0 E|rest _ L _ E|data _ L _ E]; [contradiction|now rewrite V|cbn in L; lia|cbn in L; lia]. }
  assert (H2 : exists data, k 2%nat a1 = Reply (Some (Errno e)) data None /\ (need v 1 <= 65536 -> exists rest, data = v_log v 1 ++ NUL :: rest)).
  { pose proof (K 2%nat a1) as A. assert (Va : valid a1) by (right; cbn; split; [lia|]; split; [lia|reflexivity]). inversion A as [X|_ L0 E|rest _ L _ E|data _ L Fl E]; [contradiction|cbn in L0; lia| |]; rewrite V.
    - eexists. split; [reflexivity|]. intros _. eexists. reflexivity.
    - eexists. split; [reflexivity|]. cbn in Fl. intros; exfalso; lia. }
  destruct H2 as (data & H2 & Hd). unfold newHandle. rewrite (btf_first k (S fuel) (Errno e) None H1) by (now left). fold a1. cbn [btfLoop]. cbv zeta. rewrite H2. cbn [r_err r_true r_data hint a1 a_true a_size]. change (65536 =? 0) with false. cbn [negb andb Z.eqb is]. destruct (Z.eqb_spec e ENOSPC); [contradiction|]. cbn [negb].
  eexists. split; [reflexivity|]. split; [reflexivity|]. intros Hn. destruct (Hd Hn) as (rest & ->). cbn [ErrorWithLog ve_log]. unfold store, makebuf, a1. cbn [a_buf b_data b_len]. rewrite cstr_lines, cstr_text; [apply logLines_spec|apply T|unfold need in Hn; lia].
Qed.
(** BTF is not supported, or loading is refused before: no log. *)
Theorem C82_refused : forall k e fuel, refuses k (Errno e) -> e <> ENOSPC -> (2 <= fuel)%nat ->
  exists E tr, newHandle k fuel true = Some (BVerifier E, tr) /\ ve_cause E = Errno e /\ ve_log E = [] /\ newHandle k fuel false = Some (BUnsupported, tr).
Proof.
  intros k e fuel K N F. destruct fuel as [|[|fuel]]; try lia. unfold newHandle. rewrite (btf_first k (S fuel) (Errno e) None) by (auto; apply K). cbn [btfLoop]. cbv zeta. rewrite !K. cbn [r_err r_true r_data hint a_true a_size]. change (65536 =? 0) with false. cbn [negb andb Z.eqb is]. destruct (Z.eqb_spec e ENOSPC); [contradiction|]. cbn [negb].
  do 2 eexists. split; [reflexivity|]. split; [reflexivity|]. split; [cbn [ErrorWithLog ve_log store a_buf b_data]; rewrite firstn_nil; reflexivity|reflexivity].
Qed.

(** ** Examples *)
Theorem C82_ex : exists E tr, newHandle (kernelOf (ex_v true) []) 3 true = Some (BVerifier E, tr) /\ ve_cause E = Errno EACCES /\ log_lines ex_log (ve_log E).
Proof.
  destruct (C82_rejected (kernelOf (ex_v true) []) (ex_v true) 3 EACCES) as (E & tr & H1 & _ & H2 & H3 & _); [apply kernelOf_verifies|reflexivity| |reflexivity|discriminate|discriminate| |lia|].
  - intros l. cbn [ex_v v_log]. destruct (l =? 1).
    + intros I. assert (X : existsb (Ascii.eqb NUL) ex_log = false) by (vm_compute; reflexivity). assert (Y : existsb (Ascii.eqb NUL) ex_log = true) by (apply existsb_exists; exists NUL; split; [exact I|apply Ascii.eqb_refl]). congruence.
    + cbn. intuition discriminate.
  - vm_compute. intros H. discriminate H.
  - eauto.
Qed.
(** The kernel of an old machine may lose log without telling. *)
Theorem C82_old_truncates_refuted : exists k v e E, (forall i a, answers_old v a (k i a)) /\ v_verdict v = Some e /\ newHandle k 2 true = Some (BVerifier E, [Attr 0 0 0 None; Attr 1 65536 0 (Some 65536)]) /\ ve_log E = [lit "cut"] /\ v_log v 1 = ex_log.
Proof.
  set (v := Verifier (fun _ => ex_log) (Some (Errno EINVAL)) false).
  exists (fun _ a => if negb (validb a) then Reply (Some (Errno EINVAL)) [] None else if a_level a =? 0 then Reply (Some (Errno EINVAL)) [] None else if need v (a_level a) <=? a_size a then Reply (Some (Errno EINVAL)) (ex_log ++ [NUL]) None else Reply (Some (Errno EINVAL)) (lit "cut") None), v, (Errno EINVAL).
  exists (VE (lit "load btf") (Errno EINVAL) [lit "cut"]). split; [|split; [reflexivity|split; [vm_compute; reflexivity|split; [reflexivity|unfold v; cbn [v_log]; reflexivity]]]].
  intros i a. destruct (validb a) eqn:Va; cbn [negb].
  - apply validb_spec in Va. destruct (Z.eqb_spec (a_level a) 0); [now apply (old_silent v a)|]. destruct (Z.leb_spec (need v (a_level a)) (a_size a)); [now apply (old_logged v a [])|now apply (old_full v a (lit "cut"))].
  - apply old_invalid. intros X. apply validb_spec in X. congruence.
Qed.

Print Assumptions C82_ends.
Print Assumptions C82_accepted.
Print Assumptions C82_rejected.
Print Assumptions C82_rejected_old.
Print Assumptions C82_refused.
