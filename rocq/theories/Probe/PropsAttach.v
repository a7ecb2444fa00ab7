(** C88: attaching and closing kprobes and uprobes, whatever the kernel answers *)
From Verif Require Import Base.GoInt Probe.Event Probe.EventSpec Probe.PropsEvent Probe.Attach Probe.AttachSpec.
Open Scope Z_scope.

Lemma bind_inv {A B} (m : M A) (f : A -> M B) s s' b : bind m f s = (s', b) -> exists s1 a, m s = (s1, a) /\ f a s1 = (s', b).
Proof. unfold bind. destruct (m s) as [s1 a] eqn:E. eauto. Qed.
Ltac bi H := let s1 := fresh "s" in let r := fresh "r" in let E := fresh "E" in
  apply bind_inv in H; destruct H as (s1 & r & E & H).
Ltac bn H s1 r E := apply bind_inv in H; destruct H as (s1 & r & E & H).

Lemma str_eqb_eq a b : str_eqb a b = true <-> a = b.
Proof. unfold str_eqb. destruct (list_eq_dec Z.eq_dec a b); split; congruence. Qed.
Lemma same_eq a b : same a b = true <-> a = b.
Proof. destruct a as [a1 a2], b as [b1 b2]. unfold same. cbn. rewrite andb_true_iff, !str_eqb_eq. split; [intros (-> & ->); easy|intros E; injection E; auto]. Qed.
Lemma same_refl a : same a a = true. Proof. apply same_eq; auto. Qed.
Lemma existsb_same e l : existsb (same e) l = true <-> In e l.
Proof. rewrite existsb_exists. split; [intros (x & I & E); apply same_eq in E; subst; auto|intros I; exists e; split; auto; apply same_refl]. Qed.
Lemma filter_all {A} (f : A -> bool) l : (forall x, In x l -> f x = true) -> filter f l = l.
Proof. induction l as [|x l IH]; intros H; auto. cbn. rewrite (H x) by (left; auto). f_equal. apply IH. intros; apply H; right; auto. Qed.
Lemma drop_event e l : ~ In e l -> filter (fun x => negb (same x e)) (e :: l) = l.
Proof.
  intros N. cbn. rewrite same_refl. cbn. apply filter_all. intros x I. destruct (same x e) eqn:E; auto. apply same_eq in E. subst. tauto.
Qed.
Lemma drop_fd n l : Forall (fun m => (m < n)%nat) l -> filter (fun m => negb (Nat.eqb m n)) (n :: l) = l.
Proof.
  intros N. cbn. rewrite Nat.eqb_refl. cbn. apply filter_all. intros x I. rewrite Forall_forall in N. specialize (N x I).
  destruct (Nat.eqb_spec x n); auto; lia.
Qed.
Lemma kprobe_no_nul s : isValidKprobeSymbol s = true -> ~ In 0 s.
Proof.
  intros V I. apply C87_symbol in V. destruct V as (c & r & -> & C & F). rewrite Forall_forall in F. unfold alnum, isLetter, isNumber in *.
  destruct I as [-> | I]; [lia|]. specialize (F 0 I). cbv beta in F. lia.
Qed.

Section Kernel.
Variable k : nat -> ans.
Variable random : nat -> str.
Variable retBit : Z.
Notation nots := (Forall (fun x => ~ isTry x)).
Notation free a := (Forall (fun x => ~ stuck a x)).
Definition noKprobes (s : st) : Prop := forall n, ~ In (kprobes, n) (evs s).
Notation unknown t := (Exists refuses t).

Lemma config_reads a : 0 <= retBit < 32 -> 0 <= a_ref a < 2 ^ 32 ->
  reads retBit (pmuConfig retBit a) (a_ret a) (match a_kind a with Kprobe => 0 | Uprobe => a_ref a end).
Proof.
  intros B R. unfold reads, pmuConfig.
  assert (W1 : wrapu 64 (Z.shiftl 1 retBit) = 2 ^ retBit).
  { rewrite Z.shiftl_1_l. apply wrapu_id. unfold in_u. split; [apply Z.pow_nonneg; lia|].
    apply Z.pow_lt_mono_r; lia. }
  assert (W2 : wrapu 64 (Z.shiftl (a_ref a) 32) = Z.shiftl (a_ref a) 32).
  { apply wrapu_id. unfold in_u. rewrite Z.shiftl_mul_pow2 by lia. change (2 ^ 64) with (2 ^ 32 * 2 ^ 32). nia. }
  rewrite W1, W2.
  assert (S1 : Z.shiftr (2 ^ retBit) 32 = 0).
  { rewrite Z.shiftr_div_pow2 by lia. apply Z.div_small. split; [apply Z.pow_nonneg; lia|apply Z.pow_lt_mono_r; lia]. }
  assert (T1 : Z.testbit (2 ^ retBit) retBit = true) by (apply Z.pow2_bits_true; lia).
  assert (T2 : Z.testbit (Z.shiftl (a_ref a) 32) retBit = false) by (rewrite Z.shiftl_spec by lia; apply Z.testbit_neg_r; lia).
  assert (S2 : Z.shiftr (Z.shiftl (a_ref a) 32) 32 = a_ref a) by (rewrite Z.shiftr_shiftl_l by lia; change (32 - 32) with 0; apply Z.shiftl_0_r).
  destruct (a_kind a).
  - destruct (a_ret a); [auto|]. rewrite Z.bits_0, Z.shiftr_0_l. auto.
  - destruct (Z.eqb_spec (a_ref a) 0) as [E|E]; cbn [negb].
    + rewrite E. destruct (a_ret a); [auto|]. rewrite Z.bits_0, Z.shiftr_0_l. auto.
    + destruct (a_ret a).
      * rewrite Z.lor_spec, T1, Z.shiftr_lor, S1, S2. auto.
      * rewrite Z.lor_0_l. auto.
Qed.

Lemma ask_inv a s s' r : ask k a s = (s', r) -> r = answer k s a /\ s' = St (log s ++ [(a, r)]) (next s) (fds s) (evs s) (rnd s).
Proof. unfold ask. cbv zeta. intros H. injection H as <- <-. auto. Qed.
Ltac ak H := apply ask_inv in H; destruct H as [? ->].
Ltac nt := repeat (apply Forall_cons; [cbn; auto|]); try apply Forall_nil.

Lemma pmu_spec a s s' r : pmuProbe k retBit a s = (s', r) -> 0 <= retBit < 32 -> 0 <= a_ref a < 2 ^ 32 ->
  exists new, log s' = log s ++ (Try PMU (a_symbol a), Yes) :: new /\ nots new /\ evs s' = evs s /\ free a new /\
  match r with
  | Ok n => n = next s /\ next s' = S n /\ fds s' = n :: fds s /\ opened retBit a (a_symbol a) (PerfEvent n None) new
  | Err e => next s' = next s /\ fds s' = fds s /\
      (e = NotSupported -> In (ReadType, No ENOENT) new \/ a_maxActive a <> 0 \/ In 46 (a_symbol a) /\ exists x off config, In (PerfOpen x off config, No EINVAL) new) /\
      (e = Kern ENOENT \/ e = Kern EINVAL -> unknown new \/ In 0 (target a))
  end.
Proof.
  intros H RB RC. unfold pmuProbe in H. bn H sa ra E. injection E as <- <-. bn H sb r1 E. ak E.
  destruct r1 as [|e1].
  2:{ exists [(ReadType, No e1)]. destruct e1; injection H as <- <-; cbn; rewrite <- app_assoc; cbn; repeat split; auto; try solve [nt]; try discriminate;
      intros [X|X]; discriminate || (left; left; exact I). }
  destruct (Z.eqb_spec (a_maxActive a) 0) as [MA|MA]; cbn [negb] in H.
  2:{ injection H as <- <-. exists [(ReadType, Yes)]. cbn. rewrite <- app_assoc. cbn. repeat split; auto; try solve [nt]. intros [X|X]; discriminate. }
  bn H s0 r1 E.
  assert (exists t, nots t /\ free a t /\ log s0 = log s ++ [(Try PMU (a_symbol a), Yes)] ++ (ReadType, Yes) :: t /\ next s0 = next s /\ fds s0 = fds s /\ evs s0 = evs s
     /\ match r1 with Yes => True | No e => In (ReadRetprobe, No e) t end) as (t & T1 & T2 & T3 & T4 & T5 & T6 & T7).
  { destruct (a_ret a).
    - ak E. exists [(ReadRetprobe, r1)]. cbn. rewrite <- !app_assoc. cbn. repeat split; auto; try solve [nt]. destruct r1; auto.
    - injection E as <- <-. exists []. cbn. rewrite <- !app_assoc. cbn. repeat split; auto. }
  destruct r1 as [|e1].
  2:{ injection H as <- <-. exists ((ReadType, Yes) :: t). rewrite T3, T4, T5, T6. repeat split; auto; try solve [constructor; auto]; try discriminate.
      intros [X|X]; injection X as ->; left; apply Exists_exists; eexists; (split; [right; exact T7|exact I]). }
  destruct (existsb (Z.eqb 0) (target a)) eqn:Z0.
  { injection H as <- <-. exists ((ReadType, Yes) :: t). rewrite T3, T4, T5, T6. repeat split; auto; try solve [constructor; auto]; try discriminate.
    intros _. right. apply existsb_exists in Z0. destruct Z0 as (x & I & X). apply Z.eqb_eq in X. subst. auto. }
  clear E; bn H sc r1 E0. ak E0.
  set (po := PerfOpen (target a) (a_offset a) (pmuConfig retBit a)) in *.
  exists ((ReadType, Yes) :: t ++ [(po, r1)]).
  assert (N1 : nots ((ReadType, Yes) :: t ++ [(po, r1)])) by (constructor; [cbn; auto|]; apply Forall_app; split; auto; nt).
  assert (N2 : free a ((ReadType, Yes) :: t ++ [(po, r1)])) by (constructor; [cbn; auto|]; apply Forall_app; split; auto; nt).
  assert (L : In (po, r1) ((ReadType, Yes) :: t ++ [(po, r1)])) by (right; apply in_or_app; right; left; auto).
  destruct r1 as [|e1].
  - unfold bind, open_, ret in H. injection H as <- <-. cbn [log next fds evs]. rewrite T3, T4, T5, T6. rewrite <- app_assoc. cbn. repeat split; auto.
    exists (pmuConfig retBit a). split; [exact L|]. apply config_reads; auto.
  - assert (R : log s' = (log s ++ [(Try PMU (a_symbol a), Yes)] ++ (ReadType, Yes) :: t) ++ [(po, No e1)] /\ next s' = next s /\ fds s' = fds s /\ evs s' = evs s).
    { rewrite <- T3, <- T4, <- T5, <- T6. destruct e1; injection H as <- _; auto. }
    destruct R as (R1 & R2 & R3 & R4). rewrite R1, R2, R3, R4, <- app_assoc. cbn [app] in *.
    assert (U : forall e, (e1 = ENOENT \/ e1 = EINVAL \/ e1 = EILSEQ \/ e1 = ERANGE) -> (e = Kern ENOENT \/ e = Kern EINVAL -> unknown ((ReadType, Yes) :: t ++ [(po, No e1)]) \/ In 0 (target a))).
    { intros e F _. left. apply Exists_exists. exists (po, No e1). split; [exact L|]. decompose [or] F; subst; exact I. }
    split; [auto|]. split; [auto|]. split; [auto|]. split; [auto|]. destruct e1; injection H as _ <-; repeat split; auto; try discriminate; try (apply U; tauto); try (intros [X|X]; discriminate).
    + intros X. right. right. destruct (existsb (Z.eqb 46) (a_symbol a)) eqn:D; [|discriminate]. split.
      * apply existsb_exists in D. destruct D as (x & I & X1). apply Z.eqb_eq in X1. subst. auto.
      * exists (target a), (a_offset a), (pmuConfig retBit a). exact L.
Qed.

Lemma remove_spec g n s s' r : removeEvent k g n s = (s', r) ->
  exists new, log s' = log s ++ new /\ nots new /\ next s' = next s /\ fds s' = fds s /\
  match r with
  | None => evs s' = filter (fun x => negb (same x (g, n))) (evs s)
  | Some _ => evs s' = evs s /\ forall a, Exists (stuck a) new
  end.
Proof.
  intros H. unfold removeEvent in H. bi H. ak E. destruct r0 as [|e].
  - bi H. ak E. destruct r0 as [|e].
    + bi H. injection E as <- <-. injection H as <- <-. exists [(OpenEvents ToRemove, Yes); (RemoveEvent g n, Yes)]. cbn. rewrite <- app_assoc. repeat split; auto; nt.
    + injection H as <- <-. exists [(OpenEvents ToRemove, Yes); (RemoveEvent g n, No e)]. cbn. rewrite <- app_assoc. repeat split; auto; try solve [nt].
      intros a. right. left. exact I.
  - injection H as <- <-. exists [(OpenEvents ToRemove, No e)]. cbn. repeat split; auto; try solve [nt]. intros a. left. exact I.
Qed.

Lemma not_free a new : free a new -> ~ Exists (stuck a) new.
Proof. intros F E. rewrite Forall_forall in F. apply Exists_exists in E. destruct E as (x & I & S). exact (F x I S). Qed.

Lemma new_spec a s s' r : newEvent k a s = (s', r) ->
  exists new, log s' = log s ++ new /\ nots new /\ next s' = next s /\ fds s' = fds s /\
  match r with
  | Ok e => e = (a_group a, sanitizeIdentifier (a_symbol a)) /\ evs s' = e :: evs s /\ ~ In e (evs s) /\ In (WriteEvent a, Yes) new /\ free a new
  | Err e => (noKprobes s -> free a new -> evs s' = evs s) /\ (e = Kern ENOENT \/ e = Kern EINVAL -> unknown new)
  end.
Proof.
  intros H. unfold newEvent in H. set (name := sanitizeIdentifier (a_symbol a)) in *.
  destruct (_ || _).
  { injection H as <- <-. exists []. rewrite app_nil_r. repeat split; auto. intros [X|X]; discriminate. }
  bi H. ak E.
  destruct r0 as [|e1]; [|destruct e1].
  1: injection H as <- <-; exists [(ReadId (a_group a) name, Yes)]; cbn; repeat split; auto; try solve [nt]; intros [X|X]; discriminate.
  2,3,4,5: injection H as <- <-; eexists [(ReadId (a_group a) name, No _)]; cbn; repeat split; try reflexivity; auto; try solve [nt]; intros [X|X]; discriminate || (left; exact I).
  assert (F : ~ In (a_group a, name) (evs s)).
  { intros I. apply existsb_same in I. unfold answer in H0. destruct (k _) as [|[]] in H0; try rewrite I in H0; discriminate. }
  bi H. ak E. cbn [log next fds evs rnd] in *.
  destruct r0 as [|e1].
  2:{ injection H as <- <-. exists [(ReadId (a_group a) name, No ENOENT); (OpenEvents ToCreate, No e1)]. cbn. rewrite <- !app_assoc. repeat split; auto; try solve [nt].
      intros [X|X]; injection X as ->; right; left; exact I. }
  destruct (eventLine a).
  2:{ injection H as <- <-. exists [(ReadId (a_group a) name, No ENOENT); (OpenEvents ToCreate, Yes)]. cbn. rewrite <- !app_assoc. repeat split; auto; try solve [nt].
      intros [X|X]; discriminate. }
  bi H. ak E. cbn [log next fds evs rnd] in *.
  destruct r0 as [|e1].
  2:{ exists [(ReadId (a_group a) name, No ENOENT); (OpenEvents ToCreate, Yes); (WriteEvent a, No e1)]. 
      assert (s' = St (((log s ++ [(ReadId (a_group a) name, No ENOENT)]) ++ [(OpenEvents ToCreate, Yes)]) ++ [(WriteEvent a, No e1)]) (next s) (fds s) (evs s) (rnd s) /\ exists e, r = Err e /\ (e1 = EOTHER -> e = Kern EOTHER)) as (-> & e & -> & EO) by (destruct e1; injection H as <- <-; (split; [reflexivity|]); eexists; (split; [reflexivity|]); congruence).
      cbn. rewrite <- !app_assoc. repeat split; auto; try solve [nt]. intros X. right. right. left. destruct e1; try exact I. rewrite EO in X by auto. destruct X; discriminate. }
  bi H. ak E. cbn [log next fds evs rnd] in *.
  destruct r0 as [|e1].
  { bi H. injection E as <- <-. injection H as <- <-. 
    exists [(ReadId (a_group a) name, No ENOENT); (OpenEvents ToCreate, Yes); (WriteEvent a, Yes); (ReadNewId (a_group a) name, Yes)]. cbn. rewrite <- !app_assoc.
    repeat split; auto; try nt. }
  destruct (match e1 with ENOENT => negb (a_maxActive a =? 0) | _ => false end) eqn:SP.
  - destruct e1; try discriminate. rewrite SP in H. bn H sa ra E. injection E as <- <-. bn H s2 r1 E. cbn [log next fds evs rnd] in *.
    destruct (remove_spec _ _ _ _ _ E) as (new & N1 & N2 & N3 & N4 & N5). cbn [log next fds evs rnd] in *.
    assert (s' = s2 /\ r = Err (match r1 with Some _ => Other | None => NotSupported end)) as (-> & ->) by (destruct r1; injection H as <- <-; auto).
    exists ([(ReadId (a_group a) name, No ENOENT); (OpenEvents ToCreate, Yes); (WriteEvent a, Yes); (ReadNewId (a_group a) name, No ENOENT)] ++ new).
    cbn [app] in *. rewrite N1, N3, N4, <- !app_assoc. cbn [app]. repeat split; auto.
    + nt. auto.
    + intros NK FR. destruct r1.
      * destruct N5 as (_ & N5). exfalso. apply (not_free a new); auto. do 4 apply Forall_inv_tail in FR. auto.
      * rewrite N5. apply drop_event. apply NK.
    + intros _. do 3 right. left. exact I.
  - assert (s' = St ((((log s ++ [(ReadId (a_group a) name, No ENOENT)]) ++ [(OpenEvents ToCreate, Yes)]) ++ [(WriteEvent a, Yes)]) ++ [(ReadNewId (a_group a) name, No e1)]) (next s) (fds s) ((a_group a, name) :: evs s) (rnd s) /\ r = Err (Kern e1)) as (-> & ->).
    { destruct e1; try rewrite SP in H; bi H; injection E as <- <-; injection H as <- <-; eauto. }
    exists ([(ReadId (a_group a) name, No ENOENT); (OpenEvents ToCreate, Yes); (WriteEvent a, Yes); (ReadNewId (a_group a) name, No e1)] ++ []).
    cbn [app log next fds evs]. rewrite <- !app_assoc. cbn [app]. repeat split; auto.
    + nt.
    + intros _ FR. exfalso. do 3 apply Forall_inv_tail in FR. apply Forall_inv in FR. apply FR. destruct e1; cbn; auto.
      destruct (Z.eqb_spec (a_maxActive a) 0); auto; discriminate.
    + intros [X|X]; injection X as ->; do 3 right; left; exact I.
Qed.

Lemma named_stuck a y g x : stuck (named a y g) x <-> stuck a x.
Proof. destruct a; reflexivity. Qed.
Lemma named_free a y g t : free (named a y g) t <-> free a t.
Proof. split; apply Forall_impl; intros x; rewrite named_stuck; auto. Qed.

Lemma tracefs_spec a s s' r : tracefsProbe k random a s = (s', r) ->
  exists new, log s' = log s ++ (Try Tracefs (a_symbol a), Yes) :: new /\ nots new /\
  match r with
  | Ok pe => pe_fd pe = next s /\ next s' = S (next s) /\ fds s' = next s :: fds s /\ free a new /\
      exists e, pe_event pe = Some e /\ evs s' = e :: evs s /\ ~ In e (evs s) /\ opened retBit a (a_symbol a) pe new
  | Err e => next s' = next s /\ fds s' = fds s /\ (noKprobes s -> free a new -> evs s' = evs s) /\
      (e = Kern ENOENT \/ e = Kern EINVAL -> unknown new)
  end.
Proof.
  intros H. unfold tracefsProbe in H. bn H sa ra E. injection E as <- <-. bn H sb b E. injection E as <- <-.
  destruct (RandomGroup _ _) as [g|?].
  2:{ injection H as <- <-. exists []. cbn. repeat split; auto. intros [X|X]; discriminate. }
  bn H s1 r1 E. change (Args (a_kind a) (a_symbol a) g (a_path a) (a_offset a) (a_ref a) (a_maxActive a) (a_ret a)) with (named a (a_symbol a) g) in E.
  destruct (new_spec _ _ _ _ E) as (new & N1 & N2 & N3 & N4 & N5). cbn [log next fds evs rnd] in *. rewrite <- app_assoc in N1.
  destruct r1 as [e|e].
  2:{ injection H as <- <-. exists new. cbn [app] in N1. rewrite N1, N3, N4. destruct N5 as (N5 & N6). split; [auto|]. split; [auto|]. split; [auto|]. split; [auto|]. split; [|auto].
      intros K F. apply N5; [exact K|exact F]. }
  destruct N5 as (-> & N5 & N6 & N7 & N8). change (free a new) in N8. cbn [a_group a_symbol named] in *.
  bn H s2 r2 E2. ak E2. set (n := sanitizeIdentifier (a_symbol a)) in *.
  destruct r2 as [|e].
  - unfold bind, open_, ret in H. injection H as <- <-. cbn [log next fds evs]. exists (new ++ [(OpenTracepoint g n, Yes)]).
    rewrite N1, N3, N4, N5, <- app_assoc. cbn [app pe_fd pe_event].
    split; [auto|]. split; [apply Forall_app; split; auto; nt|]. split; [auto|]. split; [auto|]. split; [auto|]. split; [apply Forall_app; split; auto; nt|].
    exists (g, n). split; [auto|]. split; [auto|]. split; [auto|]. unfold opened. cbn. split; [auto|]. split; apply in_or_app; [auto|right; left; auto].
  - bn H s3 r3 E2. injection H as <- <-. destruct (remove_spec _ _ _ _ _ E2) as (new' & R1 & R2 & R3 & R4 & R5). cbn [log next fds evs rnd] in *.
    exists (new ++ (OpenTracepoint g n, No e) :: new'). rewrite R1, R3, R4, N1, N3, N4, <- !app_assoc. cbn [app].
    split; [auto|]. split; [apply Forall_app; split; auto; constructor; cbn; auto|]. split; [auto|]. split; [auto|]. split.
    + intros K F. apply Forall_app in F. destruct F as (_ & F). apply Forall_inv_tail in F. destruct r3.
      * destruct R5 as (_ & R5). exfalso. exact (not_free _ _ F (R5 a)).
      * rewrite R5, N5. apply drop_event; auto.
    + intros X. apply Exists_app. right. left. destruct X as [X|X]; injection X as ->; exact I.
Qed.

Lemma orPrefix_inv {A} prefix sym (probe : str -> M (res err A)) s s' r : orPrefix prefix sym probe s = (s', r) ->
  probe sym s = (s', r) \/
  prefix <> [] /\ exists s1 e, probe sym s = (s1, Err e) /\ (e = Kern ENOENT \/ e = Kern EINVAL) /\ probe (prefix ++ sym) s1 = (s', r).
Proof.
  unfold orPrefix. intros H. bn H s1 r1 E. destruct r1 as [x|[[]| |]]; destruct prefix as [|c p]; try (left; injection H as <- <-; auto; fail); right; (split; [discriminate|]); eauto 8.
Qed.

(** Splitting at an attempt *)
Lemma split_at_try t v y b t1 v' y' t2 : nots b -> t ++ (Try v y, Yes) :: b = t1 ++ (Try v' y', Yes) :: t2 ->
  (t1 = t /\ v' = v /\ y' = y) \/ exists t3, t = t1 ++ (Try v' y', Yes) :: t3.
Proof.
  intros N. revert t1. induction t as [|x t IH]; intros t1 E.
  - destruct t1 as [|z t1]; cbn in E; injection E.
    + intros. left. auto.
    + intros E1 <-. exfalso. rewrite E1 in N. rewrite Forall_app in N. destruct N as (_ & N). apply Forall_inv in N. apply N. exact I.
  - destruct t1 as [|z t1]; cbn in E.
    + injection E as -> E. right. exists t. auto.
    + injection E as <- E. destruct (IH _ E) as [(-> & X)|(t3 & ->)]; [left; auto|right; exists t3; auto].
Qed.
Lemma orderly_nil a prefix : orderly a prefix [].
Proof. intros t1 v y t2 E. destruct t1; discriminate. Qed.
Lemma orderly_snoc a prefix t v y b : orderly a prefix t -> nots b ->
  (y = a_symbol a \/ prefix <> [] /\ y = prefix ++ a_symbol a /\
     exists u1 u2, t = u1 ++ (Try v (a_symbol a), Yes) :: u2 /\ nots u2 /\ unknown u2) ->
  ~ In (Try v y, Yes) t -> match v with PMU => forall z, ~ In (Try Tracefs z, Yes) t | Tracefs => noPMU a t end ->
  orderly a prefix (t ++ (Try v y, Yes) :: b).
Proof.
  intros O N Y F V t1 v' y' t2 E. destruct (split_at_try _ _ _ _ _ _ _ _ N E) as [(-> & -> & ->)|(t3 & T)]; [auto|]. exact (O _ _ _ _ T).
Qed.
Lemma not_try_in v y t : nots t -> ~ In (Try v y, Yes) t.
Proof. intros N I. rewrite Forall_forall in N. exact (N _ I Logic.I). Qed.
Lemma prefix_ne prefix (sym : str) : prefix <> [] -> prefix ++ sym <> sym.
Proof. intros P E. apply P. apply length_zero_iff_nil. apply (f_equal (@length Z)) in E. rewrite app_length in E. lia. Qed.

(** What is known after some attempts *)
Definition tried prefix a (s s' : st) (t : trace) : Prop :=
  log s' = log s ++ t /\ orderly a prefix t /\ next s' = next s /\ fds s' = fds s /\ (noKprobes s -> free a t -> evs s' = evs s).
Definition done prefix a (s s' : st) (t : trace) (pe : perfEvent) : Prop :=
  log s' = log s ++ t /\ orderly a prefix t /\ next s' = S (next s) /\ fds s' = next s :: fds s /\ pe_fd pe = next s /\
  (exists y, (y = a_symbol a \/ prefix <> [] /\ y = prefix ++ a_symbol a) /\ opened retBit a y pe t) /\
  (noKprobes s -> free a t -> evs s' = match pe_event pe with Some e => [e] | None => [] end ++ evs s /\ forall e, pe_event pe = Some e -> ~ In e (evs s)).
Definition probed prefix a (s s' : st) (t : trace) (r : res err perfEvent) : Prop :=
  match r with Ok pe => done prefix a s s' t pe | Err _ => tried prefix a s s' t end.
Lemma tried_nil prefix a s : tried prefix a s s [].
Proof. split; [rewrite app_nil_r; auto|]. split; [apply orderly_nil|]. auto. Qed.
Lemma opened_more a y pe t u : opened retBit a y pe u -> opened retBit a y pe (t ++ u).
Proof.
  unfold opened. destruct (pe_event pe) as [[g n]|].
  - intros (A & B & C). repeat split; auto; apply in_or_app; auto.
  - intros (A & c & B & C). split; auto. exists c. split; auto. apply in_or_app; auto.
Qed.
Lemma withSymbol_named a y : withSymbol a y = named a y (a_group a). Proof. destruct a; auto. Qed.
Definition asked (a : args) (prefix : str) (v : via) (y : str) (t : trace) : Prop :=
  (y = a_symbol a \/ prefix <> [] /\ y = prefix ++ a_symbol a /\
     exists u1 u2, t = u1 ++ (Try v (a_symbol a), Yes) :: u2 /\ nots u2 /\ unknown u2) /\
  ~ In (Try v y, Yes) t /\ match v with PMU => forall z, ~ In (Try Tracefs z, Yes) t | Tracefs => noPMU a t end.
Lemma asked_sym a prefix v y t : asked a prefix v y t -> y = a_symbol a \/ prefix <> [] /\ y = prefix ++ a_symbol a.
Proof. intros ([?|(?&?&?)] & _); auto. Qed.

Lemma pmu_step a prefix s s1 s2 t y r : 0 <= retBit < 32 -> 0 <= a_ref a < 2 ^ 32 -> tried prefix a s s1 t -> asked a prefix PMU y t ->
  pmuProbe k retBit (withSymbol a y) s1 = (s2, r) ->
  exists new, nots new /\
  match r with
  | Ok n => done prefix a s s2 (t ++ (Try PMU y, Yes) :: new) (PerfEvent n None)
  | Err e => tried prefix a s s2 (t ++ (Try PMU y, Yes) :: new) /\
     (e = NotSupported -> noPMU a (t ++ (Try PMU y, Yes) :: new)) /\
     (e = Kern ENOENT \/ e = Kern EINVAL -> unknown new \/ In 0 (target (withSymbol a y)))
  end.
Proof.
  intros RB RC (T1 & T2 & T3 & T4 & T5) (A1 & A2 & A3) H.
  destruct (pmu_spec _ _ _ _ H RB RC) as (new & N1 & N2 & N3 & N4 & N5).
  assert (S : a_symbol (withSymbol a y) = y) by auto. rewrite S in *.
  exists new. split; auto.
  assert (O : orderly a prefix (t ++ (Try PMU y, Yes) :: new)) by (apply orderly_snoc; auto).
  assert (L : log s2 = log s ++ t ++ (Try PMU y, Yes) :: new) by (rewrite N1, T1, <- app_assoc; auto).
  destruct r as [n|e].
  - destruct N5 as (-> & N5 & N6 & N7). rewrite T3 in *. split; [auto|]. split; [auto|]. split; [auto|]. split; [congruence|]. split; [auto|]. split.
    + exists y. split; [apply (asked_sym a prefix PMU y t); repeat split; auto|]. apply opened_more. apply (opened_more a y _ [(Try PMU y, Yes)] new). 
      rewrite withSymbol_named in N7. exact N7.
    + intros K F. apply Forall_app in F. destruct F as (F & _). cbn. rewrite N3, T5; auto. split; auto. discriminate.
  - destruct N5 as (N5 & N6 & N7 & N8). split; [|split; auto].
    + split; [auto|]. split; [auto|]. split; [congruence|]. split; [congruence|]. intros K F. apply Forall_app in F. destruct F as (F & _). rewrite N3. auto.
    + intros E. destruct (N7 E) as [X|[X|(X & x & off & c & Y)]].
      * left. apply in_or_app. right. right. auto.
      * right. left. exact X.
      * right. right. split; [exists y; split; auto; apply in_or_app; right; left; auto|]. exists x, off, c. apply in_or_app. right. right. auto.
Qed.
Lemma tracefs_step a prefix s s1 s2 t y r : tried prefix a s s1 t -> asked a prefix Tracefs y t ->
  tracefsProbe k random (withSymbol a y) s1 = (s2, r) ->
  exists new, nots new /\
  match r with
  | Ok pe => done prefix a s s2 (t ++ (Try Tracefs y, Yes) :: new) pe
  | Err e => tried prefix a s s2 (t ++ (Try Tracefs y, Yes) :: new) /\ (e = Kern ENOENT \/ e = Kern EINVAL -> unknown new)
  end.
Proof.
  intros (T1 & T2 & T3 & T4 & T5) (A1 & A2 & A3) H.
  destruct (tracefs_spec _ _ _ _ H) as (new & N1 & N2 & N5).
  assert (S : a_symbol (withSymbol a y) = y) by auto. rewrite S in *.
  exists new. split; auto.
  assert (O : orderly a prefix (t ++ (Try Tracefs y, Yes) :: new)) by (apply orderly_snoc; auto).
  assert (L : log s2 = log s ++ t ++ (Try Tracefs y, Yes) :: new) by (rewrite N1, T1, <- app_assoc; auto).
  assert (FR : forall u, free a u -> free (withSymbol a y) u) by (intros u; rewrite withSymbol_named; apply named_free).
  destruct r as [pe|e].
  - destruct N5 as (N5 & N6 & N7 & N8 & e & N9 & N10 & N11 & N12). split; [auto|]. split; [auto|]. split; [congruence|]. split; [congruence|]. split; [congruence|]. split.
    + exists y. split; [apply (asked_sym a prefix Tracefs y t); repeat split; auto|]. apply opened_more. apply (opened_more a y _ [(Try Tracefs y, Yes)] new).
      unfold opened in *. rewrite N9 in *. destruct e. exact N12.
    + intros K F. apply Forall_app in F. destruct F as (F & _). rewrite N9, N10. rewrite T5 in * by auto. split; auto. intros e' X. injection X as <-. auto.
  - destruct N5 as (N5 & N6 & N7 & N8). split; [|auto].
    split; [auto|]. split; [auto|]. split; [congruence|]. split; [congruence|]. intros K F. apply Forall_app in F. destruct F as (F & F'). apply Forall_inv_tail in F'.
    rewrite <- (T5 K F). apply N7; auto. unfold noKprobes. rewrite T5; auto.
Qed.

Lemma kprobe_spec prefix a s s' r : a_kind a = Kprobe -> 0 <= retBit < 32 -> 0 <= a_ref a < 2 ^ 32 ->
  kprobe k random retBit prefix a s = (s', r) -> exists t, probed prefix a s s' t r.
Proof.
  intros K RB RC H. unfold kprobe in H. destruct (isValidKprobeSymbol (a_symbol a)) eqn:V; cbn [negb] in H.
  2:{ injection H as <- <-. exists []. apply tried_nil. }
  bn H s1 r1 E.
  assert (A0 : asked a prefix PMU (a_symbol a) []) by (split; [auto|split; [intros []|intros z []]]).
  (* the PMU *)
  assert (exists t, match r1 with
    | Ok n => done prefix a s s1 t (PerfEvent n None)
    | Err e => tried prefix a s s1 t /\ (e = NotSupported -> noPMU a t) /\ (forall z, ~ In (Try Tracefs z, Yes) t)
    end) as (t & T).
  { apply orPrefix_inv in E. destruct E as [E|(P & s0 & e & E1 & EE & E)].
    - destruct (pmu_step _ _ _ _ _ _ _ _ RB RC (tried_nil prefix a s) A0 E) as (new & N1 & N2). exists ([] ++ (Try PMU (a_symbol a), Yes) :: new).
      destruct r1; auto. destruct N2 as (N2 & N3 & _). repeat (split; auto). intros z [X|X]; [discriminate|]. exact (not_try_in _ _ _ N1 X).
    - destruct (pmu_step _ _ _ _ _ _ _ _ RB RC (tried_nil prefix a s) A0 E1) as (new & N1 & N2 & _ & N3). cbn [app] in N2.
      assert (U : unknown new). { destruct (N3 EE) as [?|Z]; auto. exfalso. unfold target in Z. cbn in Z. rewrite K in Z. exact (kprobe_no_nul _ V Z). }
      assert (A1 : asked a prefix PMU (prefix ++ a_symbol a) ((Try PMU (a_symbol a), Yes) :: new)).
      { split; [right; split; auto; split; auto; exists [], new; auto|]. split.
        - intros [X|X]; [injection X as X; symmetry in X; revert X; apply prefix_ne; auto|exact (not_try_in _ _ _ N1 X)].
        - intros z [X|X]; [discriminate|exact (not_try_in _ _ _ N1 X)]. }
      destruct (pmu_step _ _ _ _ _ _ _ _ RB RC N2 A1 E) as (new2 & M1 & M2).
      eexists. destruct r1; [exact M2|]. destruct M2 as (M2 & M3 & _). split; [exact M2|]. split; [exact M3|].
      intros z X. apply in_app_or in X. destruct X as [[X|X]|[X|X]]; try discriminate; [exact (not_try_in _ _ _ N1 X)|exact (not_try_in _ _ _ M1 X)]. }
  destruct r1 as [n|e].
  { injection H as <- <-. exists t. exact T. }
  destruct T as (T1 & T2 & T3).
  destruct e as [e| |]; [injection H as <- <-; exists t; exact T1| |injection H as <- <-; exists t; exact T1].
  specialize (T2 eq_refl).
  assert (A1 : asked a prefix Tracefs (a_symbol a) t) by (split; auto).
  apply orPrefix_inv in H. destruct H as [H|(P & s0 & e & E1 & EE & H)].
  - destruct (tracefs_step _ _ _ _ _ _ _ _ T1 A1 H) as (new & N1 & N2). eexists. destruct r; [exact N2|exact (proj1 N2)].
  - destruct (tracefs_step _ _ _ _ _ _ _ _ T1 A1 E1) as (new & N1 & N2 & N3). specialize (N3 EE).
    assert (A2 : asked a prefix Tracefs (prefix ++ a_symbol a) (t ++ (Try Tracefs (a_symbol a), Yes) :: new)).
    { split; [right; split; auto; split; auto; exists t, new; auto|]. split.
      - intros X. apply in_app_or in X. destruct X as [X|[X|X]]; [exact (T3 _ X)| |exact (not_try_in _ _ _ N1 X)]. injection X as X. symmetry in X. revert X. apply prefix_ne; auto.
      - destruct T2 as [X|[X|((x & X & Y) & x1 & o1 & c1 & Z)]]; [left; apply in_or_app; auto|right; left; auto|]. right. right. split; [exists x; split; auto; apply in_or_app; auto|].
        exists x1, o1, c1. apply in_or_app; auto. }
    destruct (tracefs_step _ _ _ _ _ _ _ _ N2 A2 H) as (new2 & M1 & M2). eexists. destruct r; [exact M2|exact (proj1 M2)].
Qed.
Lemma withSymbol_self a : withSymbol a (a_symbol a) = a. Proof. destruct a; auto. Qed.
Lemma uprobe_spec a s s' r : 0 <= retBit < 32 -> 0 <= a_ref a < 2 ^ 32 -> uprobe k random retBit a s = (s', r) -> exists t, probed [] a s s' t r.
Proof.
  intros RB RC H. unfold uprobe in H. bn H s1 r1 E. rewrite <- (withSymbol_self a) in E.
  assert (A0 : asked a [] PMU (a_symbol a) []) by (split; [auto|split; [intros []|intros z []]]).
  destruct (pmu_step _ _ _ _ _ _ _ _ RB RC (tried_nil [] a s) A0 E) as (new & N1 & N2).
  destruct r1 as [n|e].
  { injection H as <- <-. eexists. exact N2. }
  destruct N2 as (N2 & N3 & _).
  destruct e as [e| |]; [injection H as <- <-; eexists; exact N2| |injection H as <- <-; eexists; exact N2].
  rewrite <- (withSymbol_self a) in H.
  assert (A1 : asked a [] Tracefs (a_symbol a) ([] ++ (Try PMU (a_symbol a), Yes) :: new)).
  { split; [auto|]. split; [|auto]. intros [X|X]; [discriminate|exact (not_try_in _ _ _ N1 X)]. }
  destruct (tracefs_step _ _ _ _ _ _ _ _ N2 A1 H) as (new2 & M1 & M2). eexists. destruct r; [exact M2|exact (proj1 M2)].
Qed.

(** Attaching: [done] with the link *)
Definition wf (s : st) : Prop := Forall (fun n => (n < next s)%nat) (fds s).
Lemma not_free_app a t u : free a (t ++ u) -> free a t /\ free a u. Proof. apply Forall_app. Qed.
Lemma orderly_tail a prefix t u : nots u -> orderly a prefix t -> orderly a prefix (t ++ u).
Proof.
  intros N O t1 v y t2 E.
  assert (exists t3, t = t1 ++ (Try v y, Yes) :: t3) as (t3 & T).
  { revert t1 E. clear O. induction t as [|x t IH]; intros t1 E.
    - exfalso. cbn in E. subst. apply Forall_app in N. destruct N as (_ & N). apply Forall_inv in N. apply N. exact I.
    - destruct t1 as [|z t1]; cbn in E; injection E; intros E1 ->; [exists t; auto|]. destruct (IH _ E1) as (t3 & ->). exists t3. auto. }
  exact (O _ _ _ _ T).
Qed.
Lemma opened_tail a y pe t u : opened retBit a y pe t -> opened retBit a y pe (t ++ u).
Proof.
  unfold opened. destruct (pe_event pe) as [[g n]|].
  - intros (A & B & C). repeat split; auto; apply in_or_app; auto.
  - intros (A & c & B & C). split; auto. exists c. split; auto. apply in_or_app; auto.
Qed.
Lemma attach_spec prefix a probe cookie s s' r : (forall s s' r, probe s = (s', r) -> exists t, probed prefix a s s' t r) -> wf s ->
  attach k probe cookie s = (s', r) ->
  exists t, log s' = log s ++ t /\ orderly a prefix t /\
  match r with
  | Ok l => (exists y, (y = a_symbol a \/ prefix <> [] /\ y = prefix ++ a_symbol a) /\ opened retBit a y (perf l) t) /\ attached l cookie t /\
      fds s' = held l ++ fds s /\ NoDup (held l) /\ (forall n, In n (held l) -> ~ In n (fds s)) /\
      (noKprobes s -> free a t -> evs s' = event l ++ evs s /\ forall e, In e (event l) -> ~ In e (evs s))
  | Err _ => fds s' = fds s /\ (noKprobes s -> free a t -> evs s' = evs s)
  end.
Proof.
  intros P W H. unfold attach in H. bn H s1 r1 E. destruct (P _ _ _ E) as (t & T).
  destruct r1 as [pe|e].
  2:{ injection H as <- <-. destruct T as (T1 & T2 & T3 & T4 & T5). exists t. auto. }
  destruct T as (D1 & D2 & D3 & D4 & D5 & (y & D6 & D7) & D8). bn H s2 r2 E2.
  (* attachPerfEvent *)
  assert (exists u, nots u /\ free a u /\ log s2 = log s1 ++ u /\ evs s2 = evs s1 /\
    match r2 with
    | Ok l => perf l = pe /\ attached l cookie u /\ fds s2 = match l with PerfLink n _ => [next s1] | Ioctl _ => [] end ++ fds s1 /\ (forall n p, l = PerfLink n p -> n = next s1)
    | Err _ => fds s2 = fds s1
    end) as (u & U1 & U2 & U3 & U4 & U5).
  { unfold attachPerfEvent in E2. bn E2 sa ra EE. ak EE. destruct ra as [|ea].
    - bn E2 sb rb EE. ak EE. destruct rb as [|eb].
      + unfold bind, open_, ret in E2. injection E2 as <- <-. exists [(HaveLink, Yes); (CreateLink (pe_fd pe) cookie, Yes)]. cbn. rewrite <- app_assoc.
        repeat split; auto; try solve [nt]. intros n p X. injection X as <- _. auto.
      + injection E2 as <- <-. exists [(HaveLink, Yes); (CreateLink (pe_fd pe) cookie, No eb)]. cbn. rewrite <- app_assoc. repeat split; auto; try solve [nt].
    - destruct (Z.eqb_spec cookie 0) as [C|C]; cbn [negb] in E2.
      2:{ injection E2 as <- <-. exists [(HaveLink, No ea)]. cbn. repeat split; auto; try solve [nt]. }
      bn E2 sb rb EE. ak EE. destruct rb as [|eb].
      2:{ injection E2 as <- <-. exists [(HaveLink, No ea); (SetBPF (pe_fd pe), No eb)]. cbn. rewrite <- app_assoc. repeat split; auto; try solve [nt]. }
      bn E2 sc rc EE. ak EE. destruct rc as [|ec].
      2:{ injection E2 as <- <-. exists [(HaveLink, No ea); (SetBPF (pe_fd pe), Yes); (Enable (pe_fd pe), No ec)]. cbn. rewrite <- !app_assoc. repeat split; auto; try solve [nt]. }
      injection E2 as <- <-. exists [(HaveLink, No ea); (SetBPF (pe_fd pe), Yes); (Enable (pe_fd pe), Yes)]. cbn. rewrite <- !app_assoc. repeat split; auto; try solve [nt]. discriminate. }
  destruct r2 as [l|e].
  - injection H as <- <-. destruct U5 as (U5 & U6 & U7 & U8). exists (t ++ u). rewrite U3, D1, <- app_assoc.
    split; [auto|]. split; [apply orderly_tail; auto|]. split; [exists y; split; auto; rewrite U5; apply opened_tail; auto|].
    split; [unfold attached in *; destruct l; intuition auto using in_or_app|].
    split. { rewrite U7, D4. destruct l as [n p|p]; cbn in *; subst p; rewrite D5; auto. rewrite (U8 _ _ eq_refl). auto. }
    assert (HN : forall n, In n (held l) -> n = S (next s) \/ n = next s).
    { intros n. destruct l as [m p|p]; cbn in *; subst p; rewrite D5; [rewrite (U8 _ _ eq_refl), D3|]; intuition. }
    split. { destruct l as [m p|p]; cbn in *; subst p; rewrite D5; [rewrite (U8 _ _ eq_refl), D3|]; repeat constructor; cbn; intuition lia. }
    split. { intros n I J. unfold wf in W. rewrite Forall_forall in W. specialize (W _ J). destruct (HN _ I); lia. }
    intros K F. apply not_free_app in F. destruct (D8 K (proj1 F)) as (X & Y). rewrite U4, X. unfold event. rewrite U5. split; auto.
    destruct (pe_event pe); intros e []; subst; auto; easy.
  - bn H s3 r3 E3. injection H as <- <-. unfold closeEvent in E3. bn E3 s4 r4 E4. injection E4 as <- <-. cbn [log next fds evs rnd] in *.
    assert (FD : filter (fun m => negb (Nat.eqb m (pe_fd pe))) (fds s2) = fds s) by (rewrite U5, D4, D5; apply drop_fd; exact W).
    rewrite FD in E3.
    destruct (pe_event pe) as [[g n]|].
    + destruct (remove_spec _ _ _ _ _ E3) as (w & R1 & R2 & R3 & R4 & R5). cbn [log next fds evs rnd] in *. exists (t ++ u ++ w).
      rewrite R1, R4, U3, D1, <- !app_assoc. split; [auto|]. split; [rewrite app_assoc; apply orderly_tail, orderly_tail; auto|]. split; [auto|].
      intros K F. apply Forall_app in F. destruct F as (F & F'). apply Forall_app in F'. destruct F' as (_ & F').
      destruct (D8 K F) as (X & Y). destruct r3.
      * exfalso. exact (not_free _ _ F' (proj2 R5 a)).
      * rewrite R5, U4, X. apply drop_event. auto.
    + injection E3 as <- <-. exists (t ++ u). cbn. rewrite U3, U4, D1, <- app_assoc. split; [auto|]. split; [apply orderly_tail; auto|]. split; [auto|].
      intros K F. apply Forall_app in F. destruct (D8 K (proj1 F)) as (X & Y). auto.
Qed.
End Kernel.

Lemma attaching_spec k random retBit prefix a cookie s s' r : sane retBit prefix a s -> attaching k random retBit prefix a cookie s = (s', r) ->
  exists t, log s' = log s ++ t /\ orderly a prefix t /\
  match r with
  | Ok l => (exists y, (y = a_symbol a \/ prefix <> [] /\ y = prefix ++ a_symbol a) /\ opened retBit a y (perf l) t) /\ attached l cookie t /\
      fds s' = held l ++ fds s /\ NoDup (held l) /\ (forall n, In n (held l) -> ~ In n (fds s)) /\
      (noGenerated s -> nothingStuck a t -> evs s' = event l ++ evs s /\ forall e, In e (event l) -> ~ In e (evs s))
  | Err _ => fds s' = fds s /\ (noGenerated s -> nothingStuck a t -> evs s' = evs s)
  end.
Proof.
  intros (RB & RC & P & W) H. unfold attaching in H. destruct (a_kind a) eqn:K.
  - apply (attach_spec k random retBit prefix a _ cookie s s' r) in H; auto. intros. eapply kprobe_spec; eauto.
  - rewrite (P eq_refl) in *. apply (attach_spec k random retBit [] a _ cookie s s' r) in H; auto. intros. eapply uprobe_spec; eauto.
Qed.

(** A link is the probe that was asked for, with the program and cookie attached; it holds new
    descriptors, and an event if it is not on the PMU. *)
Theorem C88_success : forall k random retBit prefix a cookie s s' l, sane retBit prefix a s ->
  attaching k random retBit prefix a cookie s = (s', Ok l) ->
  exists t, log s' = log s ++ t /\
    (exists y, (y = a_symbol a \/ prefix <> [] /\ y = prefix ++ a_symbol a) /\ opened retBit a y (perf l) t) /\ attached l cookie t /\
    fds s' = held l ++ fds s /\ NoDup (held l) /\ (forall n, In n (held l) -> ~ In n (fds s)) /\
    (noGenerated s -> nothingStuck a t -> evs s' = event l ++ evs s /\ forall e, In e (event l) -> ~ In e (evs s)).
Proof. intros * S H. destruct (attaching_spec _ _ _ _ _ _ _ _ _ S H) as (t & L & _ & R). exists t. auto. Qed.
(** A failure leaves nothing behind. *)
Theorem C88_clean : forall k random retBit prefix a cookie s s' e, sane retBit prefix a s ->
  attaching k random retBit prefix a cookie s = (s', Err e) ->
  fds s' = fds s /\ forall t, log s' = log s ++ t -> noGenerated s -> nothingStuck a t -> evs s' = evs s.
Proof.
  intros * S H. destruct (attaching_spec _ _ _ _ _ _ _ _ _ S H) as (t & L & _ & R1 & R2). split; auto.
  intros u U. rewrite L in U. apply app_inv_head in U. subst u. auto.
Qed.
(** The attempts come in order, the next only if the one before was refused. *)
Theorem C88_order : forall k random retBit prefix a cookie s s' r, sane retBit prefix a s ->
  attaching k random retBit prefix a cookie s = (s', r) -> exists t, log s' = log s ++ t /\ orderly a prefix t.
Proof. intros * S H. destruct (attaching_spec _ _ _ _ _ _ _ _ _ S H) as (t & L & O & _). eauto. Qed.

Lemma without_filter_fd n l : without [n] l (filter (fun m => negb (Nat.eqb m n)) l).
Proof. intros x. rewrite filter_In. cbn. destruct (Nat.eqb_spec x n); cbn; intuition (subst; congruence || auto). Qed.
Lemma without_filter_ev e l : without [e] l (filter (fun m => negb (same m e)) l).
Proof.
  intros x. rewrite filter_In. cbn. destruct (same x e) eqn:S; [apply same_eq in S; subst|]; cbn.
  - intuition congruence.
  - assert (x <> e) by (intros ->; rewrite same_refl in S; discriminate). intuition (subst; congruence || auto).
Qed.
Lemma closeEvent_spec k pe s s' r : closeEvent k pe false s = (s', r) ->
  without [pe_fd pe] (fds s) (fds s') /\
  match r with
  | None => without (match pe_event pe with Some e => [e] | None => [] end) (evs s) (evs s')
  | Some _ => evs s' = evs s /\ pe_event pe <> None
  end.
Proof.
  unfold closeEvent. intros H. bn H s1 r1 E. injection E as <- <-. destruct (pe_event pe) as [[g n]|].
  - destruct (remove_spec _ _ _ _ _ _ H) as (w & R1 & R2 & R3 & R4 & R5). cbn [fds evs] in *. rewrite R4. split; [apply without_filter_fd|].
    destruct r; [split; [tauto|discriminate]|]. rewrite R5. apply without_filter_ev.
  - injection H as <- <-. cbn. split; [apply without_filter_fd|]. intros x. cbn. tauto.
Qed.
(** Closing a link gives back what it holds and nothing else, at any later time. *)
Theorem C88_close : forall k l s s' r, closeLink k l false s = (s', r) ->
  without (held l) (fds s) (fds s') /\
  match r with
  | None => without (event l) (evs s) (evs s')
  | Some _ => evs s' = evs s /\ event l <> []
  end.
Proof.
  intros k [n pe|pe] s s' r H; unfold closeLink in H.
  - bn H s1 r1 E. injection E as <- <-. destruct (closeEvent_spec _ _ _ _ _ H) as (A & B). cbn [fds evs] in *. unfold event. cbn [perf held].
    split.
    + intros x. rewrite (A x). rewrite (without_filter_fd n (fds s) x). cbn. tauto.
    + destruct r; auto. destruct B as (B & C). split; auto. destruct (pe_event pe); congruence.
  - destruct (closeEvent_spec _ _ _ _ _ H) as (A & B). unfold event. cbn [perf held]. split; auto. destruct r; auto. destruct B as (B & C). split; auto. destruct (pe_event pe); congruence.
Qed.
(** Attaching and closing again changes nothing. *)
Theorem C88_restore : forall k random retBit prefix a cookie s s1 l k' s2, sane retBit prefix a s -> noGenerated s ->
  attaching k random retBit prefix a cookie s = (s1, Ok l) -> (forall t, log s1 = log s ++ t -> nothingStuck a t) ->
  closeLink k' l false s1 = (s2, None) ->
  (forall n, In n (fds s2) <-> In n (fds s)) /\ (forall e, In e (evs s2) <-> In e (evs s)).
Proof.
  intros * S G H N C. destruct (C88_success _ _ _ _ _ _ _ _ _ S H) as (t & L & _ & _ & F & _ & D & E).
  destruct (E G (N _ L)) as (E1 & E2). destruct (C88_close _ _ _ _ _ C) as (C1 & C2). split.
  - intros n. rewrite (C1 n), F, in_app_iff. specialize (D n). tauto.
  - intros e. rewrite (C2 e), E1, in_app_iff. specialize (E2 e). tauto.
Qed.
(** Closing again: nothing happens; without an event there is no error. *)
Theorem C88_close_again : forall k l s s' r, closeLink k l true s = (s', r) -> s' = s /\ (event l = [] -> r = None).
Proof.
  intros k [n pe|pe] s s' r H; unfold closeLink, closeEvent, bind, ret, event in *; cbn in *; destruct (pe_event pe) as [[g m]|]; injection H as <- <-; split; auto; discriminate.
Qed.
(** But there is one with an event: closing twice is not always harmless to the caller. *)
Theorem C88_close_again_refuted : forall k l s, event l <> [] -> closeLink k l true s = (s, Some Other).
Proof.
  intros k [n pe|pe] s N; unfold closeLink, closeEvent, bind, ret, event in *; cbn in *; destruct (pe_event pe) as [[g m]|]; congruence.
Qed.

(** What isn't found is tried with the prefix. *)
Section Retry.
Variable k : nat -> ans.
Variable random : nat -> str.
Variable retBit : Z.
Definition retryable {A} (r : res err A) : Prop := r = Err (Kern ENOENT) \/ r = Err (Kern EINVAL).
Definition silent (t : trace) : Prop := forall x y v, In x t -> ~ notFound y v x.
Ltac ak H := apply ask_inv in H; destruct H as [? ->].
Ltac sil := intros [xa xr] y0 v0 IN0 NF0; cbn in IN0; repeat destruct IN0 as [IN0|IN0]; try injection IN0 as <- <-; try destruct IN0; destruct v0; cbn in NF0; tauto.
Lemma silent_app t u : silent t -> silent u -> silent (t ++ u).
Proof. intros A B x y v I. apply in_app_or in I. destruct I; eauto. Qed.
Lemma pmu_found a s s' r : a_kind a = Kprobe -> pmuProbe k retBit a s = (s', r) ->
  exists new, log s' = log s ++ (Try PMU (a_symbol a), Yes) :: new /\ forall x y v, In x new -> notFound y v x -> y = a_symbol a /\ v = PMU /\ retryable r.
Proof.
  intros K H. unfold pmuProbe in H. bn H sa ra E. injection E as <- <-. bn H sb r1 E. ak E.
  destruct r1 as [|e1].
  2:{ exists [(ReadType, No e1)]. assert (log s' = (log s ++ [(Try PMU (a_symbol a), Yes)]) ++ [(ReadType, No e1)]) as -> by (destruct e1; injection H as <- _; auto).
      rewrite <- app_assoc. split; auto. intros x y v I F. exfalso. destruct I as [<- | []]. destruct v; cbn in F; tauto. }
  destruct (a_maxActive a =? 0); cbn [negb] in H.
  2:{ injection H as <- <-. exists [(ReadType, Yes)]. cbn. rewrite <- app_assoc. split; auto. intros x y v I F. exfalso. destruct I as [<- | []]. destruct v; cbn in F; tauto. }
  bn H s0 r1 E.
  assert (exists t, silent t /\ log s0 = log s ++ [(Try PMU (a_symbol a), Yes)] ++ t) as (t & T1 & T2).
  { destruct (a_ret a).
    - ak E. exists [(ReadType, Yes); (ReadRetprobe, r1)]. cbn. rewrite <- !app_assoc. split; auto. sil.
    - injection E as <- <-. exists [(ReadType, Yes)]. cbn. rewrite <- !app_assoc. split; auto. sil. }
  destruct r1 as [|e1].
  2:{ injection H as <- <-. exists t. split; auto. intros x y v I F. destruct (T1 x y v I F). }
  destruct (existsb (Z.eqb 0) (target a)).
  { injection H as <- <-. exists t. split; auto. intros x y v I F. destruct (T1 x y v I F). }
  clear E. bn H sc r1 E. ak E. set (po := PerfOpen (target a) (a_offset a) (pmuConfig retBit a)) in *.
  exists (t ++ [(po, r1)]).
  assert (L : log s' = log s ++ (Try PMU (a_symbol a), Yes) :: t ++ [(po, r1)]).
  { replace (log s ++ (Try PMU (a_symbol a), Yes) :: t ++ [(po, r1)]) with (log s0 ++ [(po, r1)]) by (rewrite T2, <- !app_assoc; auto).
    destruct r1 as [|[]]; injection H as <- _; auto. }
  split; auto. intros x y v I F. apply in_app_or in I. destruct I as [I|[<- | []]]; [destruct (T1 x y v I F)|].
  destruct v; cbn in F; [|tauto]. destruct r1 as [|e1]; [tauto|]. destruct F as (F1 & F2). assert (y = a_symbol a) by (rewrite <- F1; unfold target; rewrite K; auto). subst y.
  split; [congruence|]. split; [auto|]. unfold retryable. destruct F2 as [-> | [-> | (-> & D)]]; injection H as _ <-; auto.
  destruct (existsb (Z.eqb 46) (a_symbol a)) eqn:X; auto. exfalso. apply D. apply existsb_exists in X. destruct X as (z & I & X). apply Z.eqb_eq in X. subst z. rewrite H2. exact I.
Qed.
Lemma remove_silent g n s s' r : removeEvent k g n s = (s', r) -> exists new, log s' = log s ++ new /\ silent new.
Proof.
  intros H. unfold removeEvent in H. bn H sa r1 E. ak E. destruct r1 as [|e].
  - bn H sb r1 E. ak E. exists [(OpenEvents ToRemove, Yes); (RemoveEvent g n, r1)].
    assert (log s' = (log s ++ [(OpenEvents ToRemove, Yes)]) ++ [(RemoveEvent g n, r1)]) as -> by (destruct r1; injection H as <- _; auto).
    rewrite <- app_assoc. split; auto. sil.
  - injection H as <- <-. exists [(OpenEvents ToRemove, No e)]. cbn. split; auto. sil.
Qed.
Lemma new_found a s s' r : newEvent k a s = (s', r) ->
  exists new, log s' = log s ++ new /\ forall x y v, In x new -> notFound y v x -> y = a_symbol a /\ v = Tracefs /\ retryable r.
Proof.
  intros H. unfold newEvent in H. set (name := sanitizeIdentifier (a_symbol a)) in *.
  destruct (_ || _).
  { injection H as <- <-. exists []. rewrite app_nil_r. split; auto. intros x y v []. }
  bn H sa r1 E. ak E.
  assert (S1 : silent [(ReadId (a_group a) name, r1)]) by sil.
  destruct (match r1 with No ENOENT => true | _ => false end) eqn:R1.
  2:{ exists [(ReadId (a_group a) name, r1)]. assert (log s' = log s ++ [(ReadId (a_group a) name, r1)]) as -> by (destruct r1 as [|[]]; try discriminate; injection H as <- _; auto).
      split; auto. intros x y v I F. destruct (S1 x y v I F). }
  destruct r1 as [|[]]; try discriminate.
  bn H sb r1 E. ak E. cbn [log next fds evs rnd] in *.
  assert (S2 : silent [(ReadId (a_group a) name, No ENOENT); (OpenEvents ToCreate, r1)]) by sil.
  destruct r1 as [|e1].
  2:{ injection H as <- <-. eexists. split; [cbn; rewrite <- app_assoc; reflexivity|]. intros x y v I F. destruct (S2 x y v I F). }
  destruct (eventLine a).
  2:{ injection H as <- <-. eexists. split; [cbn; rewrite <- app_assoc; reflexivity|]. intros x y v I F. destruct (S2 x y v I F). }
  bn H sc r1 E. ak E. cbn [log next fds evs rnd] in *.
  destruct r1 as [|e1].
  2:{ exists ([(ReadId (a_group a) name, No ENOENT); (OpenEvents ToCreate, Yes)] ++ [(WriteEvent a, No e1)]).
      assert (log s' = ((log s ++ [(ReadId (a_group a) name, No ENOENT)]) ++ [(OpenEvents ToCreate, Yes)]) ++ [(WriteEvent a, No e1)]) as -> by (destruct e1; injection H as <- _; auto).
      split; [rewrite <- !app_assoc; auto|]. intros x y v I F. apply in_app_or in I. destruct I as [I|[<- | []]]; [destruct (S2 x y v I F)|].
      destruct v; cbn in F; [tauto|]. destruct F as (F1 & F2). split; [auto|]. split; [auto|]. unfold retryable. decompose [or] F2; subst e1; injection H as _ <-; auto. }
  bn H sd r1 E. ak E. cbn [log next fds evs rnd] in *.
  assert (exists new, log s' = log s ++ [(ReadId (a_group a) name, No ENOENT); (OpenEvents ToCreate, Yes); (WriteEvent a, Yes); (ReadNewId (a_group a) name, r1)] ++ new /\ silent new) as (new & L & S).
  { destruct (match r1 with No ENOENT => negb (a_maxActive a =? 0) | _ => false end) eqn:SP.
    - destruct r1 as [|[]]; try discriminate. rewrite SP in H. bn H se re E. injection E as <- <-. bn H sf rf E. destruct (remove_silent _ _ _ _ _ E) as (new & L & S). cbn [log] in L.
      exists new. assert (s' = sf) as -> by (destruct rf; injection H as <- _; auto). rewrite L, <- !app_assoc. auto.
    - exists []. split; [|intros x y v []]. destruct r1 as [|[]]; try rewrite SP in H; injection H as <- _; cbn; rewrite <- !app_assoc; auto. }
  eexists. split; [exact L|]. intros x y v I F. exfalso. revert F. apply silent_app with (3 := I); auto. sil.
Qed.
Lemma tracefs_found a s s' r : tracefsProbe k random a s = (s', r) ->
  exists new, log s' = log s ++ (Try Tracefs (a_symbol a), Yes) :: new /\ forall x y v, In x new -> notFound y v x -> y = a_symbol a /\ v = Tracefs /\ retryable r.
Proof.
  intros H. unfold tracefsProbe in H. bn H sa ra E. injection E as <- <-. bn H sb b E. injection E as <- <-.
  destruct (RandomGroup _ _) as [g|?].
  2:{ injection H as <- <-. exists []. cbn. split; auto. intros x y v []. }
  bn H s1 r1 E. destruct (new_found _ _ _ _ E) as (new & L & F). cbn [log a_symbol] in *. rewrite <- app_assoc in L.
  destruct r1 as [[g1 n1]|e].
  2:{ injection H as <- <-. exists new. split; auto. intros x y v I N. destruct (F x y v I N) as (A & B & C). split; auto. split; auto. destruct C as [C|C]; injection C as ->; [left|right]; auto. }
  assert (S : silent new). { intros x y v I N. destruct (F x y v I N) as (_ & _ & [C|C]); discriminate. }
  bn H s2 r2 E2. ak E2.
  assert (exists u, log s' = log s1 ++ (OpenTracepoint g1 n1, r2) :: u /\ silent u) as (u & L2 & S2).
  { destruct r2 as [|e2].
    - injection H as <- _. exists []. split; [auto|intros x y v []].
    - bn H s3 r3 E3. injection H as <- _. destruct (remove_silent _ _ _ _ _ E3) as (u & L2 & S2). exists u. cbn [log] in L2. rewrite L2, <- app_assoc. auto. }
  exists (new ++ (OpenTracepoint g1 n1, r2) :: u). split; [rewrite L2, L, <- app_assoc; auto|]. intros x y v I N. exfalso. revert N. apply silent_app with (3 := I); auto.
  intros x1 y1 v1 [<- | J]; [|apply S2; auto]. destruct v1; cbn; tauto.
Qed.
Definition retried prefix sym (t : trace) : Prop := forall x v, In x t -> notFound sym v x -> In (Try v (prefix ++ sym), Yes) t.
Lemma orPrefix_found {A} v0 prefix sym (probe : str -> M (res err A)) s s' r : prefix <> [] ->
  (forall y s s' r, probe y s = (s', r) -> exists new, log s' = log s ++ (Try v0 y, Yes) :: new /\ forall x z v, In x new -> notFound z v x -> z = y /\ v = v0 /\ retryable r) ->
  orPrefix prefix sym probe s = (s', r) -> exists t, log s' = log s ++ t /\ retried prefix sym t.
Proof.
  intros P F H. unfold orPrefix in H. bn H s1 r1 E. destruct (F _ _ _ _ E) as (new & L & N).
  assert (retryable r1 \/ s' = s1 /\ ~ retryable r1) as [R|(-> & R)].
  { destruct prefix; [easy|]. destruct r1 as [r0|[[]| |]]; try (left; left; reflexivity); try (left; right; reflexivity); right; (split; [injection H as <- _; auto|]); intros [X|X]; discriminate. }
  - assert (probe (prefix ++ sym) s1 = (s', r)) as E2 by (destruct prefix; [easy|]; destruct R as [-> | ->]; auto).
    destruct (F _ _ _ _ E2) as (new2 & L2 & N2). exists ((Try v0 sym, Yes) :: new ++ (Try v0 (prefix ++ sym), Yes) :: new2).
    split; [rewrite L2, L, <- app_assoc; auto|]. intros x v [<- | I] NF; [destruct v; cbn in NF; tauto|].
    right. apply in_or_app. right. left. apply in_app_or in I. destruct I as [I|[<- | I]].
    + destruct (N _ _ _ I NF) as (_ & -> & _). auto.
    + destruct v; cbn in NF; tauto.
    + destruct (N2 _ _ _ I NF) as (X & _ & _). symmetry in X. apply prefix_ne in X; [easy|auto].
  - exists ((Try v0 sym, Yes) :: new). split; auto. intros x v [<- | I] NF; [destruct v; cbn in NF; tauto|]. destruct (N _ _ _ I NF) as (_ & _ & X). tauto.
Qed.
Lemma retried_app prefix sym t u : retried prefix sym t -> retried prefix sym u -> retried prefix sym (t ++ u).
Proof. intros A B x v I N. apply in_app_or in I. apply in_or_app. destruct I as [I|I]; [left|right]; eauto. Qed.
Lemma silent_retried prefix sym t : silent t -> retried prefix sym t.
Proof. intros S x v I N. destruct (S _ _ _ I N). Qed.
Lemma kprobe_retried prefix a cookie s s' r : prefix <> [] -> a_kind a = Kprobe -> Kprobe_ k random retBit prefix a cookie s = (s', r) ->
  exists t, log s' = log s ++ t /\ retried prefix (a_symbol a) t.
Proof.
  intros P K H. unfold Kprobe_, attach in H. bn H s1 r1 E.
  assert (exists t, log s1 = log s ++ t /\ retried prefix (a_symbol a) t) as (t & L & R).
  { unfold kprobe in E. destruct (isValidKprobeSymbol (a_symbol a)); cbn [negb] in E.
    2:{ injection E as <- _. exists []. rewrite app_nil_r. split; auto. intros x v []. }
    bn E s2 r2 E2.
    destruct (orPrefix_found PMU _ _ _ _ _ _ P (fun y s s' r X => pmu_found (withSymbol a y) s s' r K X) E2) as (t & L & R).
    destruct r2 as [n|[e| |]]; try (injection E as <- _; exists t; auto; fail).
    destruct (orPrefix_found Tracefs _ _ _ _ _ _ P (fun y s s' r X => tracefs_found (withSymbol a y) s s' r X) E) as (u & L2 & R2).
    exists (t ++ u). rewrite L2, L, app_assoc. split; auto. apply retried_app; auto. }
  destruct r1 as [pe|e].
  2:{ injection H as <- _. exists t. auto. }
  bn H s2 r2 E2.
  assert (exists u, log s2 = log s1 ++ u /\ silent u) as (u & L2 & S2).
  { unfold attachPerfEvent in E2. bn E2 sa ra EE. ak EE. destruct ra as [|ea].
    - bn E2 sb rb EE. ak EE. exists [(HaveLink, Yes); (CreateLink (pe_fd pe) cookie, rb)]. split; [destruct rb; injection E2 as <- _; cbn; rewrite <- app_assoc; auto|sil].
    - destruct (Z.eqb_spec cookie 0) as [C|C]; cbn [negb] in E2.
      2:{ injection E2 as <- _. exists [(HaveLink, No ea)]. split; auto. sil. }
      bn E2 sb rb EE. ak EE. destruct rb as [|eb].
      2:{ injection E2 as <- _. exists [(HaveLink, No ea); (SetBPF (pe_fd pe), No eb)]. cbn. rewrite <- app_assoc. split; auto. sil. }
      bn E2 sc rc EE. ak EE. exists [(HaveLink, No ea); (SetBPF (pe_fd pe), Yes); (Enable (pe_fd pe), rc)]. split; [destruct rc; injection E2 as <- _; cbn; rewrite <- !app_assoc; auto|sil]. }
  destruct r2 as [l|e].
  - injection H as <- _. exists (t ++ u). rewrite L2, L, app_assoc. split; auto. apply retried_app; auto. apply silent_retried; auto.
  - bn H s3 r3 E3. injection H as <- _. unfold closeEvent in E3. bn E3 s4 r4 E4. injection E4 as <- <-.
    assert (exists w, log s3 = log s2 ++ w /\ silent w) as (w & L3 & S3).
    { destruct (pe_event pe) as [[g n]|]; [exact (remove_silent _ _ _ _ _ E3)|]. injection E3 as <- _. exists []. cbn. rewrite app_nil_r. split; auto. intros x y v []. }
    exists (t ++ u ++ w). rewrite L3, L2, L, <- !app_assoc. split; auto. apply retried_app; auto. apply silent_retried, silent_app; auto.
Qed.
End Retry.
(** If the kernel doesn't find the symbol, the one with the prefix is tried in the same way. *)
Theorem C88_retry : forall k random retBit prefix a cookie s s' r, a_kind a = Kprobe -> prefix <> [] ->
  attaching k random retBit prefix a cookie s = (s', r) ->
  exists t, log s' = log s ++ t /\ forall x v, In x t -> notFound (a_symbol a) v x -> In (Try v (prefix ++ a_symbol a), Yes) t.
Proof. intros * K P H. unfold attaching in H. rewrite K in H. exact (kprobe_retried _ _ _ _ _ _ _ _ _ P K H). Qed.

(** A kernel that agrees to all *)
Theorem C88_works : forall random retBit prefix a cookie s, sane retBit prefix a s -> a_maxActive a = 0 ->
  (a_kind a = Kprobe -> isValidKprobeSymbol (a_symbol a) = true) -> (a_kind a = Uprobe -> ~ In 0 (a_path a)) ->
  exists s' n, attaching (fun _ => Yes) random retBit prefix a cookie s = (s', Ok (PerfLink (S n) (PerfEvent n None))).
Proof.
  intros * S MA K U.
  assert (NN : existsb (Z.eqb 0) (target a) = false).
  { apply Bool.not_true_iff_false. intros X. apply existsb_exists in X. destruct X as (x & I & X). apply Z.eqb_eq in X. subst x. unfold target in I.
    destruct (a_kind a); [exact (kprobe_no_nul _ (K eq_refl) I)|exact (U eq_refl I)]. }
  assert (P : forall s, exists s', pmuProbe (fun _ => Yes) retBit a s = (s', Ok (next s)) /\ next s' = Datatypes.S (next s)).
  { intros s0. unfold pmuProbe, bind, note, ask, answer, open_, ret. cbn. rewrite MA, NN. cbn. destruct (a_ret a); cbn; eauto. }
  destruct (P s) as (s1 & P1 & P2). exists (fst (attaching (fun _ => Yes) random retBit prefix a cookie s)), (next s).
  unfold attaching. destruct (a_kind a) eqn:KD.
  - unfold Kprobe_, attach, kprobe. rewrite (K eq_refl). cbn [negb]. unfold orPrefix. rewrite withSymbol_self. unfold bind at 1 2 3.
    unfold bind. rewrite P1. cbn. rewrite P2. reflexivity.
  - unfold Uprobe_, attach, uprobe. unfold bind. rewrite P1. cbn. rewrite P2. reflexivity.
Qed.

(** Examples *)
Definition sys_open : str := [115; 121; 115; 95; 111; 112; 101; 110].
Definition x64 : str := [95; 95; 120; 54; 52; 95].
Definition eg (maxActive : Z) : args := Args Kprobe sys_open [] [] 0 0 maxActive true.
Definition s0 := St [] 7 [3; 4]%nat [([103], [101])] 0.
Definition rand8 (n : nat) : str := [1; 2; 3; 4; 5; 6; 7; 255].
Definition answers (l : list ans) (n : nat) : ans := nth n l Yes.
Lemma sane_eg m : sane 0 x64 (eg m) s0.
Proof. unfold sane. cbn. repeat split; try lia; try discriminate. repeat constructor. Qed.
(** The PMU knows the symbol with the prefix only; links are supported. Entries 0 and 4 note attempts. *)
Example C88_prefix_example : exists s', attaching (answers [Yes; Yes; Yes; No ENOENT]) rand8 0 x64 (eg 0) 5 s0 = (s', Ok (PerfLink 8 (PerfEvent 7 None))) /\
  map fst (log s') = [Try PMU sys_open; ReadType; ReadRetprobe; PerfOpen sys_open 0 1; Try PMU (x64 ++ sys_open); ReadType; ReadRetprobe; PerfOpen (x64 ++ sys_open) 0 1; HaveLink; CreateLink 7 5].
Proof. eexists. split; vm_compute; reflexivity. Qed.
(** An old kernel: no PMU, the symbol found with the prefix, no links *)
Definition old := answers [Yes; No ENOENT; Yes; No ENOENT; Yes; No EINVAL; Yes; No ENOENT; Yes; Yes; Yes; Yes; No EOTHER].
Example C88_tracefs_example : exists s' l, attaching old rand8 0 x64 (eg 0) 0 s0 = (s', Ok l) /\
  held l = [7%nat] /\ map snd (event l) = [sanitizeIdentifier (x64 ++ sys_open)] /\ length (evs s') = 2%nat /\ length (fds s') = 3%nat /\
  exists s2, closeLink (answers []) l false s' = (s2, None) /\ fds s2 = fds s0 /\ evs s2 = evs s0.
Proof. do 2 eexists. split; [vm_compute; reflexivity|]. repeat (split; [vm_compute; reflexivity|]). eexists. vm_compute. auto. Qed.
(** A kernel that ignores the names if there is a maxactive *)
Example C88_maxactive_example : exists s', attaching (answers [Yes; Yes; Yes; No ENOENT; Yes; Yes; No ENOENT]) rand8 0 x64 (eg 4) 0 s0 = (s', Err NotSupported) /\ evs s' = evs s0 /\
  In (RemoveEvent kprobes ([114; 95] ++ sys_open ++ [95; 48]), Yes) (log s').
Proof. eexists. split; [vm_compute; reflexivity|]. split; [vm_compute; reflexivity|]. vm_compute. tauto. Qed.
Example C88_clean_example : exists s', attaching (answers [Yes; No ENOENT; Yes; No ENOENT; Yes; Yes; Yes; No EOTHER]) rand8 0 x64 (eg 0) 0 s0 = (s', Err (Kern EOTHER)) /\
  fds s' = fds s0 /\ evs s' = evs s0 /\ nothingStuck (eg 0) (log s') /\ noGenerated s0.
Proof.
  eexists. split; [vm_compute; reflexivity|]. split; [vm_compute; reflexivity|]. split; [vm_compute; reflexivity|]. split.
  - unfold nothingStuck. cbn [log]. repeat (apply Forall_cons; [cbn; tauto|]). apply Forall_nil.
  - intros n [X|[]]. discriminate.
Qed.
(** If the id of an event can't be read, the event stays: nothing refers to it anymore. *)
Theorem C88_leak_refuted : exists k s' e, attaching k rand8 0 x64 (eg 0) 0 s0 = (s', Err (Kern EOTHER)) /\ evs s' = e :: evs s0 /\ ~ In e (evs s0) /\
  forall x, In x (log s') -> snd x = No EOTHER -> exists g n, fst x = ReadNewId g n.
Proof.
  exists (answers [Yes; No ENOENT; Yes; No ENOENT; Yes; Yes; No EOTHER]). do 2 eexists. split; [vm_compute; reflexivity|]. split; [vm_compute; reflexivity|].
  split; [intros [X|[]]; discriminate|]. cbn [log]. intros x I E. repeat (destruct I as [<- | I]; [cbn in *; try discriminate; eauto|]). destruct I.
Qed.
(** The offset of the counter is cut to 32 bits: the kernel uses another. *)
Theorem C88_ref_refuted : forall s, exists s' l config, attaching (fun _ => Yes) rand8 0 [] (Args Uprobe [] [] [47] 16 (2 ^ 32 + 8) 0 false) 0 s = (s', Ok l) /\
  In (PerfOpen [47] 16 config, Yes) (log s') /\ Z.shiftr config 32 = 8.
Proof.
  intros s. eexists. eexists. exists (Z.shiftl 8 32). split; [vm_compute; reflexivity|]. cbn [log]. split; [|reflexivity].
  rewrite !in_app_iff. cbn. tauto.
Qed.
Print Assumptions C88_success.
Print Assumptions C88_clean.
Print Assumptions C88_order.
Print Assumptions C88_close.
Print Assumptions C88_restore.
Print Assumptions C88_close_again.
Print Assumptions C88_close_again_refuted.
Print Assumptions C88_retry.
Print Assumptions C88_works.
Print Assumptions C88_leak_refuted.
Print Assumptions C88_ref_refuted.
