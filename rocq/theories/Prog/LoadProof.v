(** Proofs about loading programs. *)
From Coq Require Import List Bool Arith Lia Ascii String ZArith.
From Verif Require Import Base.GoInt Internal.Math Prog.VerifierError Prog.VerifierErrorSpec Prog.VerifierErrorProof Prog.Load Prog.LoadSpec.
Import ListNotations.
Open Scope list_scope. Open Scope Z_scope.

Definition MAX := 1073741823.
Lemma max_val : maxVerifierLogSize = MAX.
Proof. reflexivity. Qed.
Lemma half_val : maxVerifierLogSize / 2 = 536870911.
Proof. reflexivity. Qed.
Lemma min_val : minVerifierLogSize = 65536.
Proof. reflexivity. Qed.
Lemma is_spec : forall m n, is (Errno m) n = true <-> m = n.
Proof. intros m n. cbn [is]. apply Z.eqb_eq. Qed.
Lemma between_spec : forall x, 65536 <= Between x minVerifierLogSize maxVerifierLogSize <= MAX /\ (65536 <= x <= MAX -> Between x minVerifierLogSize maxVerifierLogSize = x) /\ (x <= 65536 -> Between x minVerifierLogSize maxVerifierLogSize = 65536).
Proof. intros x. rewrite max_val, min_val. unfold Between, MAX. cbn [Z.gtb Z.compare Pos.compare Pos.compare_cont]. lia. Qed.
Lemma grown_spec : forall s, 0 <= s < 536870911 -> u32 (Between s minVerifierLogSize (maxVerifierLogSize / 2) * 2) = 2 * Z.max s 65536.
Proof.
  intros s H. rewrite half_val, min_val. unfold Between. cbn [Z.gtb Z.compare Pos.compare Pos.compare_cont]. unfold u32, wrapu. rewrite Z.mod_small; lia.
Qed.

(** What a failed load without hints does to the attributes. *)
Lemma retry_nospc : forall a start e, a_size a <= MAX -> 0 <= a_size a -> a_size a <> MAX -> a_true a = 0 -> is e ENOSPC = true ->
  exists s, retryLogAttrs a start e = Some (Attr (a_level a) s 0 (a_buf a)) /\ s <= MAX /\ (s = MAX \/ s = 2 * Z.max (a_size a) 65536).
Proof.
  intros a start e H1 H0 H2 T N. unfold retryLogAttrs. rewrite max_val. destruct (Z.eqb_spec (a_size a) MAX) as [|_]; [contradiction|]. rewrite N, T. cbn [Z.eqb negb].
  rewrite <- max_val, half_val. destruct (Z.geb_spec (a_size a) 536870911).
  - exists MAX. split; [reflexivity|]. rewrite ?max_val. unfold MAX in *. lia.
  - rewrite <- half_val, grown_spec by lia. eexists. split; [reflexivity|]. rewrite ?max_val. unfold MAX in *. lia.
Qed.
Lemma retry_hint : forall a start e, a_size a <> MAX -> a_true a <> 0 -> is e ENOSPC = true -> retryLogAttrs a start e = Some (Attr (a_level a) (a_true a) (a_true a) (a_buf a)).
Proof.
  intros a start e H T N. unfold retryLogAttrs. rewrite max_val. destruct (Z.eqb_spec (a_size a) MAX) as [|_]; [contradiction|]. rewrite N. destruct (Z.eqb_spec (a_true a) 0); [contradiction|]. reflexivity.
Qed.
Lemma retry_level : forall a start e, a_size a <> MAX -> is e ENOSPC = false -> a_level a = 0 -> retryLogAttrs a start e = Some (Attr 1 (Between start minVerifierLogSize maxVerifierLogSize) (a_true a) (a_buf a)).
Proof.
  intros a start e H N L. unfold retryLogAttrs. rewrite max_val at 1. destruct (Z.eqb_spec (a_size a) MAX) as [|_]; [contradiction|]. rewrite N, L. reflexivity.
Qed.
Lemma retry_stop : forall a start e, a_size a = MAX \/ is e ENOSPC = false /\ a_level a <> 0 -> retryLogAttrs a start e = None.
Proof.
  intros a start e [H|(N & L)]; unfold retryLogAttrs; rewrite max_val; destruct (Z.eqb_spec (a_size a) MAX) as [|D]; try reflexivity; [contradiction|].
  rewrite N. destruct (Z.eqb_spec (a_level a) 0); [contradiction|]. reflexivity.
Qed.

(** ** Any kernel *)
Lemma loop_total : forall k start fuel n a b, (1 <= n <= 30)%nat -> (31 <= fuel + n)%nat ->
  exists o tr, loop k start fuel n a b = Some (o, tr) /\ (1 <= List.length tr <= 31 - n)%nat.
Proof.
  intros k start fuel. induction fuel as [|fuel IH]; intros n a b Hn Hf; [lia|]. cbn [loop].
  destruct (if a_level a =? 0 then (b, a) else (makebuf (a_size a), Attr (a_level a) (a_size a) (a_true a) (Some (a_size a)))) as (b1, a1). cbv zeta.
  destruct (r_err (k n a1)) as [e|]; [|do 2 eexists; split; [reflexivity|cbn [List.length]; lia]].
  destruct (retryLogAttrs (hint a1 (r_true (k n a1))) start e) as [a'|]; [|do 2 eexists; split; [reflexivity|cbn [List.length]; lia]].
  unfold maxVerifierAttempts. destruct (Nat.leb_spec 30 n); [do 2 eexists; split; [reflexivity|cbn [List.length]; lia]|].
  destruct (IH (S n) a' (store a1 b1 (r_data (k n a1)))) as (o & tr & E & L); [lia|lia|]. rewrite E. do 2 eexists. split; [reflexivity|]. cbn [List.length]. lia.
Qed.

(** ** Kernels without hints *)
(** [j] more buffer sizes to go *)
Definition steps_left (s : Z) (j : nat) : Prop := 65536 <= s <= MAX /\ MAX <= s * 2 ^ Z.of_nat j.
Lemma steps_next : forall s s' j, s <> MAX -> steps_left s j -> s' <= MAX -> (s' = MAX \/ s' = 2 * Z.max s 65536) -> exists j', j = S j' /\ steps_left s' j'.
Proof.
  intros s s' j N (B & H) G G'. destruct j as [|j].
  - exfalso. cbn in H. lia.
  - exists j. split; [reflexivity|]. rewrite Nat2Z.inj_succ, Z.pow_succ_r in H by lia. assert (P : 0 < 2 ^ Z.of_nat j) by (apply Z.pow_pos_nonneg; lia). unfold steps_left, MAX in *. destruct G' as [-> | ->]; nia.
Qed.
Lemma steps_between : forall x, steps_left (Between x minVerifierLogSize maxVerifierLogSize) 14.
Proof. intros x. destruct (between_spec x) as (B & _). split; [exact B|]. change (2 ^ Z.of_nat 14) with 16384. unfold MAX in *. lia. Qed.
Lemma loop_level : forall k start, no_hints k -> forall j n fuel a b, a_level a <> 0 -> a_true a = 0 -> steps_left (a_size a) j -> (n + j <= 29)%nat -> (j < fuel)%nat ->
  exists o tr, loop k start fuel n a b = Some (o, tr) /\ (forall e, o <> TooMany e) /\ (List.length tr <= S j)%nat.
Proof.
  intros k start K. induction j as [|j IH]; intros n fuel a b L T S H F; (destruct fuel as [|fuel]; [lia|]); cbn [loop]; destruct (Z.eqb_spec (a_level a) 0) as [|_]; try contradiction; cbv zeta; cbn [a_size];
    set (a1 := Attr (a_level a) (a_size a) (a_true a) (Some (a_size a))); destruct (r_err (k n a1)) as [e|]; try (do 2 eexists; split; [reflexivity|]; split; [discriminate|cbn; lia]);
    assert (T1 : a_true (hint a1 (r_true (k n a1))) = 0) by (destruct (K n a1) as [-> | ->]; [exact T|reflexivity]);
    assert (S1 : a_size (hint a1 (r_true (k n a1))) = a_size a) by (destruct (r_true (k n a1)); reflexivity);
    assert (L1 : a_level (hint a1 (r_true (k n a1))) = a_level a) by (destruct (r_true (k n a1)); reflexivity);
    set (a2 := hint a1 (r_true (k n a1))) in *.
  - rewrite retry_stop. { do 2 eexists; split; [reflexivity|]; split; [discriminate|cbn; lia]. } left. rewrite S1. destruct S as (S & S'). cbn in S'. lia.
  - destruct (Z.eq_dec (a_size a) MAX) as [M|M]. { rewrite retry_stop; [do 2 eexists; split; [reflexivity|]; split; [discriminate|cbn; lia]|]. left. congruence. }
    destruct (is e ENOSPC) eqn:N.
    + destruct (retry_nospc a2 start e) as (s' & E & G1 & G2); auto; try (rewrite S1; destruct S; lia). rewrite E. unfold maxVerifierAttempts. destruct (Nat.leb_spec 30 n); [lia|]. rewrite S1 in *.
      destruct (steps_next _ _ _ M S G1 G2) as (j' & Ej & S'). injection Ej as <-.
      destruct (IH (Datatypes.S n) fuel (Attr (a_level a2) s' 0 (a_buf a2)) (store a1 (makebuf (a_size a)) (r_data (k n a1)))) as (o & tr & E' & O & Le); cbn [a_level a_size a_true]; auto; try lia.
      rewrite E'. do 2 eexists. split; [reflexivity|]. split; [exact O|]. cbn [List.length]. lia.
    + rewrite retry_stop; [do 2 eexists; split; [reflexivity|]; split; [discriminate|cbn; lia]|]. right. split; [exact N|congruence].
Qed.
Lemma loop_silent : forall k start, no_hints k -> forall j n fuel a b, a_level a = 0 -> a_true a = 0 -> (a_size a = 0 /\ j = 14%nat \/ steps_left (a_size a) j) -> (n + j <= 15)%nat -> (30 <= fuel + n)%nat ->
  exists o tr, loop k start fuel n a b = Some (o, tr) /\ (forall e, o <> TooMany e) /\ (List.length tr + n <= 30)%nat.
Proof.
  intros k start K. induction j as [|j IH]; intros n fuel a b L T S H F; (destruct fuel as [|fuel]; [lia|]); cbn [loop]; destruct (Z.eqb_spec (a_level a) 0) as [_|]; try contradiction; cbv zeta;
    destruct (r_err (k n a)) as [e|]; try (do 2 eexists; split; [reflexivity|]; split; [discriminate|cbn; lia]);
    assert (T1 : a_true (hint a (r_true (k n a))) = 0) by (destruct (K n a) as [-> | ->]; [exact T|reflexivity]);
    assert (S1 : a_size (hint a (r_true (k n a))) = a_size a) by (destruct (r_true (k n a)); reflexivity);
    assert (L1 : a_level (hint a (r_true (k n a))) = 0) by (destruct (r_true (k n a)); exact L);
    set (a2 := hint a (r_true (k n a))) in *.
  - rewrite retry_stop. { do 2 eexists; split; [reflexivity|]; split; [discriminate|cbn; lia]. } left. rewrite S1. destruct S as [(? & ?)|(S & S')]; [discriminate|]. cbn in S'. lia.
  - destruct (Z.eq_dec (a_size a) MAX) as [M|M]. { rewrite retry_stop; [do 2 eexists; split; [reflexivity|]; split; [discriminate|cbn; lia]|]. left. congruence. }
    destruct (is e ENOSPC) eqn:N.
    + destruct (retry_nospc a2 start e) as (s' & E & G1 & G2); auto; try (rewrite S1; destruct S as [S|S]; [unfold MAX|destruct S]; lia). rewrite E. unfold maxVerifierAttempts. destruct (Nat.leb_spec 30 n); [lia|]. rewrite S1 in *.
      assert (S' : steps_left s' j). { destruct S as [(S0 & S2)|S].
        - injection S2 as ->. rewrite S0 in G2. cbn [Z.max Z.compare] in G2. unfold steps_left, MAX in *. change (2 ^ Z.of_nat 13) with 8192. destruct G2 as [-> | ->]; lia.
        - destruct (steps_next _ _ _ M S G1 G2) as (j' & Ej & S'). injection Ej as <-. exact S'. }
      destruct (IH (Datatypes.S n) fuel (Attr (a_level a2) s' 0 (a_buf a2)) (store a b (r_data (k n a)))) as (o & tr & E' & O & Le); cbn [a_level a_size a_true]; auto; try lia.
      rewrite E'. do 2 eexists. split; [reflexivity|]. split; [exact O|]. cbn [List.length]. lia.
    + rewrite retry_level by (congruence || assumption). unfold maxVerifierAttempts. destruct (Nat.leb_spec 30 n); [lia|].
      destruct (loop_level k start K 14 (Datatypes.S n) fuel (Attr 1 (Between start minVerifierLogSize maxVerifierLogSize) (a_true a2) (a_buf a2)) (store a b (r_data (k n a)))) as (o & tr & E' & O & Le); cbn [a_level a_size a_true]; auto; try lia; [apply steps_between|].
      rewrite E'. do 2 eexists. split; [reflexivity|]. split; [exact O|]. cbn [List.length]. lia.
Qed.

(** ** Kernels with a verifier *)
Definition text_free (v : verifier) : Prop := forall l, ~ In NUL (v_log v l).
Lemma cstr_text : forall t rest n, ~ In NUL t -> (List.length t < n)%nat -> cstr (firstn n (t ++ NUL :: rest)) = t.
Proof.
  induction t as [|c t IH]; intros rest n N L; (destruct n as [|n]; [cbn in L; lia|]); cbn [app firstn cstr].
  - reflexivity.
  - destruct (Ascii.eqb_spec c NUL) as [-> | D]; [exfalso; apply N; now left|]. f_equal. apply IH; [intros I; apply N; now right|cbn in L; lia].
Qed.
Definition final (v : verifier) (l : Z) (o : outcome) : Prop :=
  match v_verdict v with
  | None => o = Loaded (v_log v l)
  | Some e => exists b, o = Failed e b /\ cstr (b_data b) = v_log v l /\ 0 < b_len b
  end.
Definition plain (v : verifier) : Prop := match v_verdict v with None => True | Some e => is e ENOSPC = false /\ is e EFAULT = false end.
Definition attr1 (a : attr) : attr := Attr (a_level a) (a_size a) (a_true a) (Some (a_size a)).
Lemma loop_unfold : forall k start fuel n a b, a_level a <> 0 -> loop k start (S fuel) n a b =
  match r_err (k n (attr1 a)) with
  | None => Some (Loaded (cstr (firstn (Z.to_nat (a_size a)) (r_data (k n (attr1 a))))), [attr1 a])
  | Some e => match retryLogAttrs (hint (attr1 a) (r_true (k n (attr1 a)))) start e with
    | None => Some (Failed e (Buffer (a_size a) (firstn (Z.to_nat (a_size a)) (r_data (k n (attr1 a))))), [attr1 a])
    | Some a' => if (maxVerifierAttempts <=? n)%nat then Some (TooMany e, [attr1 a])
      else match loop k start fuel (S n) a' (Buffer (a_size a) (firstn (Z.to_nat (a_size a)) (r_data (k n (attr1 a))))) with Some (o, tr) => Some (o, attr1 a :: tr) | None => None end
    end
  end.
Proof. intros k start fuel n a b L. cbn [loop]. destruct (Z.eqb_spec (a_level a) 0); [contradiction|]. reflexivity. Qed.
Lemma valid1 : forall a, a_level a <> 0 -> 0 < a_size a <= MAX -> valid (attr1 a).
Proof. intros a L S. right. cbn. unfold MAX in S. auto. Qed.

Lemma loop_fits : forall k v start fuel n a b, verifies k v -> text_free v -> a_level a <> 0 -> 0 < a_size a <= MAX -> need v (a_level a) <= a_size a ->
  (match v_verdict v with None => True | Some e => is e ENOSPC = false end) ->
  exists o, loop k start (S fuel) n a b = Some (o, [attr1 a]) /\ final v (a_level a) o.
Proof.
  intros k v start fuel n a b K T L S F P. rewrite loop_unfold by exact L. pose proof (K n (attr1 a)) as A. unfold final.
  assert (V : valid (attr1 a)) by (now apply valid1).
  inversion A as [N|t _ L0 _|rest t _ _ _ H E|data t _ _ F' _]; [contradiction|contradiction| |cbn in F'; lia].
  cbn [r_err r_data r_true attr1 a_level]. cbn [attr1 a_level] in E.
  assert (C : cstr (firstn (Z.to_nat (a_size a)) (v_log v (a_level a) ++ NUL :: rest)) = v_log v (a_level a)). { apply cstr_text; [apply T|unfold need in F; lia]. }
  destruct (v_verdict v) as [e|].
  - rewrite retry_stop. { eexists. split; [reflexivity|]. eexists. split; [reflexivity|]. cbn [b_data b_len]. split; [exact C|lia]. }
    right. split; [exact P|]. destruct t; exact L.
  - rewrite C. eexists. split; reflexivity.
Qed.
Lemma answer_full : forall k v n a, verifies k v -> a_level a <> 0 -> 0 < a_size a <= MAX -> a_size a < need v (a_level a) ->
  exists data t, k n (attr1 a) = Reply (Some (match v_verdict v with Some (Errno e) => if e =? EFAULT then Errno EFAULT else Errno ENOSPC | _ => Errno ENOSPC end)) data t /\ hints v (a_level a) t.
Proof.
  intros k v n a K L S F. pose proof (K n (attr1 a)) as A. assert (V : valid (attr1 a)) by (now apply valid1).
  inversion A as [N|t _ L0 _|rest t _ _ F' H E|data t _ _ _ H E]; [contradiction|contradiction|cbn in F'; lia|]. eauto.
Qed.
Lemma plain_full : forall v, plain v -> match v_verdict v with Some (Errno e) => if e =? EFAULT then Errno EFAULT else Errno ENOSPC | _ => Errno ENOSPC end = Errno ENOSPC.
Proof. intros v P. unfold plain in P. destruct (v_verdict v) as [[e|]|]; [|reflexivity|reflexivity]. destruct P as (_ & P). cbn [is] in P. now rewrite P. Qed.

Lemma loop_hints : forall k v start fuel n a b, verifies k v -> text_free v -> plain v -> v_hints v = true -> a_level a <> 0 -> 0 < a_size a <= MAX -> need v (a_level a) <= MAX -> (n < 30)%nat ->
  exists o tr, loop k start (S (S fuel)) n a b = Some (o, tr) /\ final v (a_level a) o /\ (List.length tr <= 2)%nat.
Proof.
  intros k v start fuel n a b K T P Hh L S M Hn. assert (P' : match v_verdict v with None => True | Some e => is e ENOSPC = false end). { unfold plain in P. destruct (v_verdict v); tauto. }
  destruct (Z_le_gt_dec (need v (a_level a)) (a_size a)) as [F|F].
  - destruct (loop_fits k v start (Datatypes.S fuel) n a b) as (o & E & Fi); auto. exists o, [attr1 a]. auto.
  - rewrite loop_unfold by exact L. destruct (answer_full k v n a) as (data & t & E & H); auto; [lia|]. rewrite plain_full in E by exact P. rewrite E. cbn [r_err r_true]. unfold hints in H. rewrite Hh in H. rewrite H. cbn [hint attr1 a_level a_size].
    rewrite retry_hint; cbn [a_size a_true a_level a_buf]; [|unfold MAX in *; lia|unfold need; lia|reflexivity].
    unfold maxVerifierAttempts. destruct (Nat.leb_spec 30 n); [lia|].
    destruct (loop_fits k v start fuel (Datatypes.S n) (Attr (a_level a) (need v (a_level a)) (need v (a_level a)) (Some (a_size a))) (Buffer (a_size a) (firstn (Z.to_nat (a_size a)) data))) as (o & E' & Fi); cbn [a_level a_size]; auto; [unfold need in *; lia|lia|].
    cbn [r_data]. change (a_buf (attr1 a)) with (Some (a_size a)). rewrite E'. do 2 eexists. split; [reflexivity|]. split; [exact Fi|cbn; lia].
Qed.
Lemma loop_nohints : forall k v start, verifies k v -> text_free v -> plain v -> v_hints v = false -> forall j fuel n a b, a_level a <> 0 -> a_true a = 0 -> steps_left (a_size a) j -> need v (a_level a) <= MAX -> (n + j < 30)%nat -> (j < fuel)%nat ->
  exists o tr, loop k start fuel n a b = Some (o, tr) /\ final v (a_level a) o /\ (List.length tr <= S j)%nat.
Proof.
  intros k v start K T P Hh. assert (P' : match v_verdict v with None => True | Some e => is e ENOSPC = false end). { unfold plain in P. destruct (v_verdict v); tauto. }
  induction j as [|j IH]; intros fuel n a b L T0 S M Hn Hf; (destruct fuel as [|fuel]; [lia|]); (assert (S0 : 0 < a_size a <= MAX) by (destruct S; lia)).
  - destruct (loop_fits k v start fuel n a b) as (o & E & Fi); auto. { destruct S as (S & S'). cbn in S'. lia. } exists o, [attr1 a]. split; [exact E|]. split; [exact Fi|]. cbn. lia.
  - destruct (Z_le_gt_dec (need v (a_level a)) (a_size a)) as [F|F].
    + destruct (loop_fits k v start fuel n a b) as (o & E & Fi); auto. exists o, [attr1 a]. split; [exact E|]. split; [exact Fi|]. cbn. lia.
    + rewrite loop_unfold by exact L. destruct (answer_full k v n a) as (data & t & E & H); auto; [lia|]. rewrite plain_full in E by exact P. rewrite E. cbn [r_err r_true]. unfold hints in H. rewrite Hh in H. rewrite H. cbn [hint attr1 a_level a_size].
      destruct (retry_nospc (attr1 a) start (Errno ENOSPC)) as (s' & Es & G1 & G2); cbn [attr1 a_size a_true]; auto; [lia|lia|lia|]. rewrite Es.
      unfold maxVerifierAttempts. destruct (Nat.leb_spec 30 n); [lia|]. cbn [attr1 a_size] in G2. destruct (steps_next (a_size a) s' (Datatypes.S j)) as (j' & Ej & S'); auto; [lia|]. injection Ej as <-.
      destruct (IH fuel (Datatypes.S n) (Attr (a_level (attr1 a)) s' 0 (a_buf (attr1 a))) (Buffer (a_size a) (firstn (Z.to_nat (a_size a)) data))) as (o & tr & E' & Fi & Le); cbn [a_level a_size a_true]; auto; try lia.
      cbn [r_data]. rewrite E'. do 2 eexists. split; [reflexivity|]. split; [exact Fi|]. cbn [List.length]. lia.
Qed.
(** any buffer between the limits *)
Lemma loop_log : forall k v start fuel n a b, verifies k v -> text_free v -> plain v -> a_level a <> 0 -> a_true a = 0 -> 65536 <= a_size a <= MAX -> need v (a_level a) <= MAX -> (n <= 2)%nat -> (20 <= fuel)%nat ->
  exists o tr, loop k start fuel n a b = Some (o, tr) /\ final v (a_level a) o /\ (List.length tr <= if v_hints v then 2 else 15)%nat.
Proof.
  intros k v start fuel n a b K T P L T0 S M Hn Hf. destruct (v_hints v) eqn:Hh.
  - destruct fuel as [|[|fuel]]; [lia|lia|]. apply loop_hints; auto; lia.
  - apply loop_nohints; auto; [|lia|lia]. split; [exact S|]. change (2 ^ Z.of_nat 14) with 16384. unfold MAX in *. lia.
Qed.
(** the first load without a log *)
Lemma silent_first : forall k v start fuel b, verifies k v ->
  exists t, (t = None \/ t = Some 0) /\
  loop k start (S fuel) 1 (Attr 0 0 0 None) b =
  match v_verdict v with
  | None => Some (Loaded (cstr (b_data b)), [Attr 0 0 0 None])
  | Some e => match retryLogAttrs (Attr 0 0 0 None) start e with
     | None => Some (Failed e b, [Attr 0 0 0 None])
     | Some a' => match loop k start fuel 2 a' b with Some (o, tr) => Some (o, Attr 0 0 0 None :: tr) | None => None end
     end
  end.
Proof.
  intros k v start fuel b K. pose proof (K 1%nat (Attr 0 0 0 None)) as A. assert (V : valid (Attr 0 0 0 None)) by (left; auto).
  inversion A as [N|t _ L0 Ht E|rest t _ L _ _ E|data t _ L _ _ E]; [contradiction| |cbn in L; lia|cbn in L; lia]. exists t. split; [exact Ht|]. cbn [loop a_level Z.eqb]. cbv zeta. rewrite <- E. cbn [r_err r_data r_true store a_buf].
  destruct (v_verdict v) as [e|]; [|reflexivity]. replace (hint (Attr 0 0 0 None) t) with (Attr 0 0 0 None) by (destruct Ht as [-> | ->]; reflexivity). reflexivity.
Qed.
Lemma load_rejected : forall k v o e, options_ok o -> o_disabled o = false -> verifies k v -> text_free v -> plain v -> v_verdict v = Some e -> need v (level o) <= MAX ->
  exists oc tr, load k o = Some (oc, tr) /\ final v (level o) oc /\ (List.length tr <= (if (o_level o =? 0)%Z then 1 else 0) + (if v_hints v then 2 else 15))%nat.
Proof.
  intros k v o e (O1 & O2) D K T P V M. unfold load, level in *. rewrite D. destruct (between_spec (o_start o)) as (B & _). destruct (Z.eqb_spec (o_level o) 0) as [L|L].
  - destruct (silent_first k v (o_start o) 39 nilbuf K) as (t & Ht & E). rewrite E. rewrite V. unfold plain in P. rewrite V in P.
    rewrite retry_level; cbn [a_size a_level a_true a_buf]; [|unfold MAX; lia|apply P|reflexivity].
    destruct (loop_log k v (o_start o) 39 2 (Attr 1 (Between (o_start o) minVerifierLogSize maxVerifierLogSize) 0 None) nilbuf) as (oc & tr & E' & F & Le); cbn [a_level a_size a_true]; auto; try lia; [unfold plain; now rewrite V|].
    rewrite E'. do 2 eexists. split; [reflexivity|]. split; [exact F|]. cbn [List.length]. lia.
  - apply loop_log; cbn [a_level a_size a_true]; auto; lia.
Qed.
Lemma load_accepted : forall k v o, options_ok o -> o_disabled o = false -> verifies k v -> text_free v -> v_verdict v = None ->
  (o_level o = 0 -> load k o = Some (Loaded [], [Attr 0 0 0 None])) /\
  (o_level o <> 0 -> need v (o_level o) <= MAX -> exists tr, load k o = Some (Loaded (v_log v (o_level o)), tr) /\ (List.length tr <= if v_hints v then 2 else 15)%nat).
Proof.
  intros k v o (O1 & O2) D K T V. assert (P : plain v) by (unfold plain; now rewrite V). unfold load. rewrite D. split.
  - intros ->. cbn [Z.eqb]. destruct (silent_first k v (o_start o) 39 nilbuf K) as (t & Ht & E). rewrite E, V. reflexivity.
  - intros L M. destruct (Z.eqb_spec (o_level o) 0); [contradiction|]. destruct (between_spec (o_start o)) as (B & _).
    destruct (loop_log k v (o_start o) 40 1 (Attr (o_level o) (Between (o_start o) minVerifierLogSize maxVerifierLogSize) 0 None) nilbuf) as (oc & tr & E' & F & Le); cbn [a_level a_size a_true]; auto; try lia.
    unfold final in F. rewrite V in F. subst oc. eauto.
Qed.

(** ** What is reported *)
Lemma contains_spec : forall l p, contains l p = true <-> exists a b, l = a ++ p ++ b.
Proof.
  induction l as [|c l IH]; intros p.
  - cbn [contains]. rewrite orb_false_r, hasPrefix_spec. split; [intros (b & H); exists [], b; exact H|]. intros (a & b & H). destruct a; [exists b; exact H|discriminate].
  - cbn [contains]. rewrite orb_true_iff, hasPrefix_spec, IH. split.
    + intros [(b & H)|(a & b & H)]; [exists [], b; exact H|exists (c :: a), b; cbn; congruence].
    + intros (a & b & H). destruct a as [|d a]; [left; exists b; exact H|]. right. cbn in H. injection H as _ H. eauto.
Qed.
Lemma app_split : forall A (x y s b : list A), x ++ y = s ++ b -> (List.length s <= List.length x)%nat -> exists x', x = s ++ x' /\ b = x' ++ y.
Proof.
  induction x as [|c x IH]; intros y s b E L; destruct s as [|d s]; cbn in *; try lia.
  - exists []. auto.
  - exists (c :: x). auto.
  - injection E as -> E. destruct (IH y s b E) as (x' & -> & ->); [lia|]. eauto.
Qed.
Lemma near_spec : forall log s, contains (lastn 256 log) s = true <-> near_end log s.
Proof.
  intros log s. rewrite contains_spec. unfold near_end, lastn. split.
  - intros (a & b & H). exists (firstn (List.length log - 256) log ++ a), b. split; [rewrite <- app_assoc, <- H; symmetry; apply firstn_skipn|].
    apply (f_equal (@List.length _)) in H. rewrite skipn_length, !app_length in H. rewrite app_length. lia.
  - intros (a & b & E & L). pose proof (firstn_skipn (List.length log - 256) log) as X. set (p := firstn (List.length log - 256) log) in *. set (q := skipn (List.length log - 256) log) in *.
    assert (Lp : List.length p = (List.length log - 256)%nat) by (unfold p; rewrite firstn_length; lia). assert (La : List.length log = (List.length a + List.length (s ++ b))%nat) by (rewrite E, !app_length; lia).
    rewrite E in X at 1. symmetry in X. destruct (app_split _ a (s ++ b) p q) as (a' & -> & ->); [exact X|lia|]. exists a', b. reflexivity.
Qed.
Lemma cstr_lines : forall d, logLines d = logLines (cstr d).
Proof.
  intros d. unfold logLines. assert (E : cstr (cstr d) = cstr d). { induction d as [|c d IH]; cbn [cstr]; [reflexivity|]. destruct (Ascii.eqb c NUL) eqn:C; [reflexivity|]. cbn [cstr]. now rewrite C, IH. } now rewrite E.
Qed.
