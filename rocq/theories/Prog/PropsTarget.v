(** C95: what programs attach to *)
From Coq Require Import Sorting.Sorted.
From Verif Require Import Base.GoInt Prog.Target Prog.TargetSpec.
Open Scope Z_scope.

Lemma name_eqb_eq a b : name_eqb a b = true <-> a = b.
Proof. unfold name_eqb. destruct (list_eq_dec Z.eq_dec a b); split; congruence. Qed.
Lemma kind_eqb_eq a b : kind_eqb a b = true <-> a = b.
Proof. destruct a, b; cbn; split; congruence. Qed.
Lemma hit n k t : name_eqb (t_name t) n && kind_eqb (t_kind t) k = true <-> t_name t = n /\ t_kind t = k.
Proof. rewrite andb_true_iff, name_eqb_eq, kind_eqb_eq. tauto. Qed.
Lemma filter_two {A} (f : A -> bool) l a b r : filter f l = a :: b :: r -> exists i j, i <> j /\ nth_error l i = Some a /\ nth_error l j = Some b /\ f a = true /\ f b = true.
Proof.
  assert (I : forall l a r, filter f l = a :: r -> exists i, nth_error l i = Some a /\ f a = true).
  { clear. induction l as [|x l IH]; cbn; intros a r H; [discriminate|]. destruct (f x) eqn:F; [injection H as <- _; exists 0%nat; auto|]. destruct (IH _ _ H) as (i & X). exists (S i). auto. }
  induction l as [|x l IH]; cbn; intros H; [discriminate|]. destruct (f x) eqn:F.
  - injection H as <- H. destruct (I _ _ _ H) as (i & N & Fb). exists 0%nat, (S i). repeat split; auto.
  - destruct (IH H) as (i & j & N & X1 & X2 & X3 & X4). exists (S i), (S j). repeat split; auto.
Qed.
Lemma typeByName_ok ts n k : match typeByName ts n k with
  | Ok id => isTarget ts n k id
  | Err NotFound => lacks ts n k
  | Err Multiple => ambiguous ts n k
  | Err _ => False
  end.
Proof.
  unfold typeByName. destruct (filter _ ts) as [|t [|u r]] eqn:F.
  - intros t I X. apply hit in X. assert (In t (filter (fun t => name_eqb (t_name t) n && kind_eqb (t_kind t) k) ts)) by (apply filter_In; auto). rewrite F in H. easy.
  - assert (X : forall u, In u ts -> t_name u = n -> t_kind u = k -> u = t).
    { intros u I N K. assert (In u (filter (fun t => name_eqb (t_name t) n && kind_eqb (t_kind t) k) ts)) by (apply filter_In; split; auto; apply hit; auto). rewrite F in H. destruct H as [H|[]]; auto. }
    assert (I : In t (filter (fun t => name_eqb (t_name t) n && kind_eqb (t_kind t) k) ts)) by (rewrite F; cbn; auto). apply filter_In in I. destruct I as (I & H). apply hit in H. destruct H as (<- & <-). destruct t as [id kd nm]; cbn in *. split; auto.
  - destruct (filter_two _ _ _ _ _ F) as (i & j & N & X1 & X2 & X3 & X4). apply hit in X3, X4. exists i, j, t, u. tauto.
Qed.
Lemma typeByName_err ts n k e : typeByName ts n k = Err e -> e = NotFound \/ e = Multiple.
Proof. unfold typeByName. destruct (filter _ ts) as [|t [|u r]]; intros [= <-]; auto. Qed.

(** ** Handles *)
Lemma close_none h l : ~ In (fst h) (map fst l) -> close (Some h) l = l.
Proof.
  cbn. induction l as [|x l IH]; cbn; intros N; auto. destruct (Nat.eqb_spec (fst x) (fst h)) as [E|E]; cbn; [rewrite E in N; tauto|]. f_equal. apply IH. tauto.
Qed.
Lemma close_head h l : ~ In (fst h) (map fst l) -> close (Some h) (h :: l) = l.
Proof. intros N. cbn. rewrite Nat.eqb_refl. cbn. apply (close_none h l N). Qed.
Lemma close_second h g l : fst g <> fst h -> ~ In (fst h) (map fst l) -> close (Some h) (g :: h :: l) = g :: l.
Proof. intros NE N. cbn. rewrite Nat.eqb_refl. destruct (Nat.eqb_spec (fst g) (fst h)); [easy|]. cbn. f_equal. apply (close_none h l N). Qed.
Lemma fresh_not h w : Forall (fun x => (fst x < fresh w)%nat) (opened w) -> (fresh w <= h)%nat -> ~ In h (map fst (opened w)).
Proof. intros F L I. apply in_map_iff in I. destruct I as (x & <- & I). rewrite Forall_forall in F. specialize (F x I). lia. Qed.

Section Env.
Variable env : nat -> kernel.
Variable fails : nat -> option err.
Variable V : name -> types.
Hypothesis OR : ordered env.
Hypothesis PE : plainErrors fails.
Hypothesis ST : steady env V.
Notation present := (present env).
Lemma nextObj_ok t id : match nextObj (env t) id with
  | Some o => In o (objs (env t)) /\ id < o_id o /\ forall o', In o' (objs (env t)) -> id < o_id o' -> o_id o <= o_id o'
  | None => forall o', In o' (objs (env t)) -> o_id o' <= id
  end.
Proof.
  unfold nextObj. destruct (OR t) as (S & _). induction S as [|o l S IH F]; cbn; [easy|]. destruct (Z.ltb_spec id (o_id o)) as [L|L].
  - split; auto. split; auto. intros o' [<- | I] _; [lia|]. rewrite Forall_forall in F. specialize (F _ I). lia.
  - destruct (find (fun o0 => id <? o_id o0) l) as [x|].
    + destruct IH as (I1 & I2 & I3). split; auto. split; auto. intros o' [<- | I] H; [lia|auto].
    + intros o' [<- | I]; auto.
Qed.
Lemma objById_ok t id : match objById (env t) id with
  | Some o => In o (objs (env t)) /\ o_id o = id
  | None => forall o', In o' (objs (env t)) -> o_id o' <> id
  end.
Proof.
  unfold objById. induction (objs (env t)) as [|o l IH]; cbn; [easy|]. destruct (Z.eqb_spec (o_id o) id) as [E|E]; [auto|]. destruct (find (fun o0 => o_id o0 =? id) l) as [x|]; [tauto|]. intros o' [<- | I]; auto.
Qed.
(** Between the two, nothing was opened or closed. *)
Definition quiet (w w' : world) : Prop := opened w' = opened w /\ fresh w' = fresh w /\ (now w <= now w')%nat.
Definition failed (e : err) (w w' : world) : Prop := exists t, (now w <= t < now w')%nat /\ fails t = Some e.
Lemma info_ok w h r w' : info fails w h = (r, w') -> quiet w w' /\ (now w < now w')%nat /\ cache_ w' = cache_ w /\
  match r with Ok i => i = (o_name (snd h), o_kernel (snd h)) | Err e => failed e w w' end.
Proof.
  unfold info, quiet, failed. destruct (fails (now w)) eqn:F.
  - intros [= <- <-]. cbn. repeat split; auto. exists (now w). split; auto; lia.
  - destruct (fails (S (now w))) eqn:G; intros [= <- <-]; cbn; repeat split; auto. exists (S (now w)). split; auto; lia.
Qed.
Lemma loadFile_ok w n r w' : loadFile env fails w n = (r, w') -> quiet w w' /\ (now w < now w')%nat /\ cache_ w' = cache_ w /\
  match r with Ok ts => files (env (now w)) n = Some ts | Err e => failed e w w' \/ e = OtherErr /\ files (env (now w)) n = None end.
Proof.
  unfold loadFile, quiet, failed. destruct (fails (now w)) eqn:F.
  - intros [= <- <-]. cbn. repeat split; auto. left. exists (now w). split; auto; lia.
  - destruct (files (env (now w)) n) eqn:G; intros [= <- <-]; cbn; auto 10.
Qed.
Lemma cacheKernel_ok w r w' : goodCache V (cache_ w) -> cacheKernel env fails w = (r, w') -> quiet w w' /\ goodCache V (cache_ w') /\
  match r with Ok ts => ts = V vmlinux | Err e => c_kernel (cache_ w) = None /\ (failed e w w' \/ e = OtherErr /\ files (env (now w)) vmlinux = None) end.
Proof.
  unfold cacheKernel. intros GC. destruct (c_kernel (cache_ w)) as [ts|] eqn:C.
  - intros [= <- <-]. split; [unfold quiet; auto|]. split; auto. apply (proj1 GC); auto.
  - destruct (loadFile env fails w vmlinux) as (r0 & w0) eqn:L. apply loadFile_ok in L. destruct L as (Q & L & CE & X). destruct r0 as [ts|e]; intros [= <- <-].
    + apply (proj2 ST) in X. split; [exact Q|]. split; auto. rewrite CE. split; cbn; [congruence|apply GC].
    + split; auto. split; [rewrite CE; auto|]. auto.
Qed.
Lemma quiet_trans a b c : quiet a b -> quiet b c -> quiet a c.
Proof. unfold quiet. intros (A & B & C) (D & E & F). repeat split; try congruence; lia. Qed.
Lemma failed_mono e a b c d : (now a <= now b)%nat -> (now c <= now d)%nat -> failed e b c -> failed e a d.
Proof. intros A B (t & T & F). exists t. split; auto. lia. Qed.
Lemma cacheModule_ok w n r w' : goodCache V (cache_ w) -> cacheModule env fails w n = (r, w') -> quiet w w' /\ goodCache V (cache_ w') /\
  match r with Ok ts => ts = V n | Err e => failed e w w' \/ e = OtherErr end.
Proof.
  unfold cacheModule. intros C. destruct (c_modules (cache_ w) n) as [ts|] eqn:CM.
  - intros [= <- <-]. split; [unfold quiet; auto|]. split; auto. apply (proj2 C); auto.
  - destruct (cacheKernel env fails w) as (r0 & w0) eqn:K. destruct (cacheKernel_ok _ _ _ C K) as (Q & C' & X). destruct r0 as [ts|e].
    + destruct (validModule n); cbn [negb]; [|intros [= <- <-]; auto].
      destruct (loadFile env fails w0 n) as (r1 & w1) eqn:L. apply loadFile_ok in L. destruct L as (Q2 & L & CE & Y). destruct r1 as [ts'|e]; intros [= <- <-].
      * apply (proj2 ST) in Y. split; [exact (quiet_trans _ _ _ Q Q2)|]. split; auto. rewrite CE. split; cbn; [apply C'|]. intros m t. destruct (name_eqb m n) eqn:E; [apply name_eqb_eq in E; congruence|apply C'].
      * split; [exact (quiet_trans _ _ _ Q Q2)|]. rewrite CE. split; auto. destruct Y as [Y|(Y & _)]; auto. left. destruct Q as (_ & _ & Q). apply (failed_mono e w w0 w1 w1); auto.
    + intros [= <- <-]. split; auto. split; auto. tauto.
Qed.
(** What is open: [base], and the iterator's handle *)
Definition iopen (w : world) (it : iter) (base : list handle) : Prop :=
  opened w = match i_handle it with Some h => [h] | None => [] end ++ base /\ goodHandles w.
Lemma iopen_close w it base : iopen w it base -> close (i_handle it) (opened w) = base.
Proof.
  intros (O & N & _). rewrite O in *. destruct (i_handle it) as [h|]; auto. apply close_head. cbn in N. inversion N; auto.
Qed.
Lemma newHandle_ok w id r w' : goodHandles w -> newHandleFromID env fails w id = (r, w') ->
  (now w < now w')%nat /\ (fresh w <= fresh w')%nat /\ cache_ w' = cache_ w /\ goodHandles w' /\
  match r with
  | Ok (Some h) => opened w' = h :: opened w /\ fst h = fresh w /\ o_id (snd h) = id /\ In (snd h) (objs (env (now w)))
  | Ok None => opened w' = opened w /\ forall o, In o (objs (env (now w))) -> o_id o <> id
  | Err e => opened w' = opened w /\ failed e w w'
  end.
Proof.
  unfold newHandleFromID. intros (N & F). destruct (fails (now w)) as [e|] eqn:FA.
  - intros [= <- <-]. cbn. split; [lia|]. split; auto. split; auto. split; [split; auto|]. split; auto. exists (now w). cbn. split; auto; lia.
  - pose proof (objById_ok (now w) id) as OB. destruct (objById (env (now w)) id) as [o|]; [|intros [= <- <-]; cbn; repeat split; auto].
    set (w1 := World (S (now w)) ((fresh w, o) :: opened w) (S (fresh w)) (cache_ w)). assert (G1 : goodHandles w1).
    { split; cbn; [constructor; auto; apply fresh_not; auto|]. constructor; cbn; [lia|]. eapply Forall_impl; [|exact F]. cbn. intros. lia. }
    destruct (info fails w1 (fresh w, o)) as (r0 & w2) eqn:I. apply info_ok in I. destruct I as ((Q1 & Q2 & Q3) & L & CE & X). cbn in Q3, L. destruct r0 as [i|e]; intros [= <- <-].
    + split; [lia|]. split; [rewrite Q2; cbn; lia|]. split; [rewrite CE; auto|]. split; [unfold goodHandles; rewrite Q1, Q2; exact G1|]. rewrite Q1. cbn. tauto.
    + cbn [withOpened now fresh cache_ opened]. rewrite Q1, Q2. cbn [opened fresh w1]. split; [lia|]. split; [lia|]. split; [rewrite CE; auto|].
      assert (CL : close (Some (fresh w, o)) ((fresh w, o) :: opened w) = opened w) by (apply close_head; apply fresh_not; auto). cbn in CL |- *. rewrite CL.
      split; [split; cbn; auto; eapply Forall_impl; [|exact F]; cbn; intros; rewrite Q2; cbn; lia|]. split; auto. destruct X as (t & T & X). exists t. cbn in *. split; auto. lia.
Qed.
Definition stays (w w' : world) : Prop := (now w < now w')%nat /\ (fresh w <= fresh w')%nat /\ cache_ w' = cache_ w.
Lemma next_ok fuel : forall w it id b w' it' base, iopen w it base -> next_ env fails fuel w it id = Some (b, w', it') ->
  stays w w' /\ iopen w' it' base /\
  if b : bool then exists h, i_handle it' = Some h /\ i_id it' = o_id (snd h) /\ id < i_id it' /\ i_err it' = i_err it /\ (exists t, (now w <= t < now w')%nat /\ In (snd h) (objs (env t))) /\
    forall o, present o (now w) (now w') -> id < o_id o -> o_id (snd h) <= o_id o
  else i_handle it' = None /\ ((exists e, i_err it' = Some e /\ failed e w w') \/ i_err it' = i_err it /\ forall o, present o (now w) (now w') -> o_id o <= id).
Proof.
  induction fuel as [|fuel IH]; cbn; intros w it id b w' it' base IO H; [discriminate|].
  pose proof (iopen_close _ _ _ IO) as CL. assert (GB : forall w0, fresh w0 = fresh w -> NoDup (map fst base) /\ Forall (fun h => (fst h < fresh w0)%nat) base).
  { intros w0 E. destruct IO as (O & N & F). rewrite O in N, F. rewrite E. destruct (i_handle it) as [h|]; cbn in N, F; [inversion N; inversion F; subst; auto|auto]. }
  destruct (fails (now w)) as [e|] eqn:FA.
  - injection H as <- <- <-. cbn. rewrite CL. split; [unfold stays; cbn; auto|]. split; [split; cbn; auto; apply GB; auto|]. split; auto. left. exists e. split; auto. exists (now w). cbn. split; auto; lia.
  - pose proof (nextObj_ok (now w) id) as NO. destruct (nextObj (env (now w)) id) as [o|].
    + destruct NO as (NO1 & NO2 & NO3). destruct (newHandleFromID env fails (tick w) (o_id o)) as (r & w1) eqn:NH.
      assert (GW : goodHandles (tick w)) by exact (proj2 IO). destruct (newHandle_ok _ _ _ _ GW NH) as (L & LF & CE & G1 & X). cbn in L, LF, CE. destruct r as [[h|]|e].
      * injection H as <- <- <-. destruct X as (X1 & X2 & X3 & X4). cbn in X1, X2, X4. cbn [withOpened now fresh cache_ opened i_handle i_id i_err].
        assert (CL2 : close (i_handle it) (opened w1) = h :: base).
        { rewrite X1. destruct IO as (O & N & F). rewrite O. rewrite O in N, F. destruct (i_handle it) as [g|]; [|reflexivity]. cbn in N, F. apply close_second; [|inversion N; auto]. inversion F; subst. rewrite X2. lia. }
        rewrite CL2. split; [unfold stays; cbn; auto with arith|]. split.
        { split; cbn; auto. destruct G1 as (N1 & F1). rewrite X1 in N1, F1. destruct IO as (O & N & F). rewrite O in *. split; cbn.
          - destruct (i_handle it); cbn in N1; [|exact N1]. inversion N1 as [|? ? A B]; subst. inversion B; subst. constructor; auto. cbn in A. tauto.
          - destruct (i_handle it); cbn in F1; [|exact F1]. inversion F1 as [|? ? A B]; subst. inversion B; subst. constructor; auto. }
        exists h. split; auto. split; auto. split; [auto|]. split; auto. split; [exists (S (now w)); split; auto; lia|].
        intros o' P I. rewrite X3. apply NO3; auto. apply P. lia.
      * destruct X as (X1 & X2). cbn in X1, X2. assert (IO1 : iopen w1 it base) by (split; auto; rewrite X1; apply IO). destruct (IH _ _ _ _ _ _ _ IO1 H) as ((S1 & S2 & S3) & I1 & Y). split; [unfold stays; split; [lia|]; split; [lia|congruence]|]. split; auto.
        assert (PR : forall o', present o' (now w) (now w') -> id < o_id o' -> present o' (now w1) (now w') /\ o_id o < o_id o').
        { intros o' P I. split; [intros t T; apply P; lia|]. assert (o_id o <= o_id o') by (apply NO3; auto; apply P; lia). assert (o_id o' <> o_id o) by (apply X2; apply P; lia). lia. }
        destruct b.
        -- destruct Y as (h & Y1 & Y2 & Y3 & Y4 & (t & T & Y5) & Y6). exists h. split; auto. split; auto. split; [lia|]. split; auto. split; [exists t; split; auto; lia|]. intros o' P I. destruct (PR o' P I). auto.
        -- destruct Y as (Y1 & Y2). split; auto. destruct Y2 as [(e & Y2 & Y3)|(Y2 & Y3)]; [left; exists e; split; auto; apply (failed_mono e w w1 w' w'); auto; lia|]. right. split; auto. intros o' P. destruct (Z_lt_le_dec id (o_id o')) as [I|I]; auto. destruct (PR o' P I) as (P1 & P2). specialize (Y3 o' P1). lia.
      * injection H as <- <- <-. destruct X as (X1 & X2). cbn in X1. cbn [withOpened now fresh cache_ opened i_handle i_id i_err]. rewrite X1, CL. split; [unfold stays; cbn; auto with arith|]. split; [split; cbn; auto; split; cbn; [apply (GB w eq_refl)|eapply Forall_impl; [|apply (GB w eq_refl)]; cbn; intros; lia]|]. split; auto. left. exists e. split; auto. apply (failed_mono e w (tick w) w1); cbn; auto.
    + injection H as <- <- <-. cbn. rewrite CL. split; [unfold stays; cbn; auto|]. split; [split; cbn; [auto|split; apply (GB w eq_refl)]|]. split; auto; right; split; auto; intros o P; apply NO; apply P; cbn; lia.
Qed.
(** All modules up to [id] that are there all the time lack it. *)
Definition searched (n : name) (k : kind) (id : Z) (a b : nat) : Prop := forall o, 0 < o_id o -> present o a b -> moduleObj o -> o_id o <= id -> lacks (o_types o) n k.
Lemma isModule_ok o : isModule (o_name o, o_kernel o) = true <-> moduleObj o.
Proof. unfold isModule, moduleObj. cbn. rewrite andb_true_iff, negb_true_iff, <- not_true_iff_false, name_eqb_eq. tauto. Qed.
Lemma inModule_ok fuel n k : forall w it r w' base a, goodCache V (cache_ w) -> iopen w it base -> i_err it = None -> (a <= now w)%nat -> searched n k (i_id it) a (now w) ->
  inModule env fails fuel w it n k = Some (r, w') ->
  goodCache V (cache_ w') /\ goodHandles w' /\ (now w < now w')%nat /\ (exists l, opened w' = l ++ base /\ (length l <= 1)%nat) /\
  match r with
  | Ok (h, id) => opened w' = h :: base /\ moduleObj (snd h) /\ isTarget (o_types (snd h)) n k id /\ (exists t, (now w <= t < now w')%nat /\ In (snd h) (objs (env t))) /\ searched n k (o_id (snd h) - 1) a (now w')
  | Err NotFound => opened w' = base /\ forall id, searched n k id a (now w')
  | Err Multiple => exists t o, In o (objs (env t)) /\ moduleObj o /\ ambiguous (o_types o) n k
  | Err e => failed e w w' \/ e = OtherErr
  end.
Proof.
  induction fuel as [|fuel IH]; cbn [inModule]; intros w it r w' base a GC IO IE LA SE H; [discriminate|].
  unfold next in H. destruct (next_ env fails (S fuel) w it (i_id it)) as [[[b w1] it1]|] eqn:N; [|discriminate].
  destruct (next_ok _ _ _ _ _ _ _ _ IO N) as ((S1 & S2 & S3) & IO1 & Y). destruct b.
  2:{ destruct Y as (Y1 & Y2). injection H as <- <-. rewrite S3. split; auto. split; [apply IO1|]. split; [lia|]. destruct IO1 as (IO1 & _). rewrite Y1 in IO1. cbn in IO1. split; [exists []; split; auto; cbn; lia|].
      destruct Y2 as [(e & -> & Y3)|(-> & Y3)].
      - destruct (Y3) as (t & T & F). destruct (PE _ _ F) as [-> | ->]; auto.
      - rewrite IE. split; auto. intros id o PO P M _. apply (SE o); auto; [intros t T; apply P; lia|]. apply Y3. intros t T. apply P. lia. }
  destruct Y as (h & Y1 & Y2 & Y3 & Y4 & Y5 & Y6). rewrite Y1 in H. destruct (info fails w1 h) as (r0 & w2) eqn:I. apply info_ok in I. destruct I as (Q & L & CE & X). pose proof Q as (Q1 & Q2 & Q3). pose proof IO1 as (O1 & G1). rewrite Y1 in O1. cbn in O1.
  assert (G2 : forall w3, opened w3 = opened w1 -> fresh w3 = fresh w1 -> goodHandles w3) by (intros w3 E1 E2; unfold goodHandles; rewrite E1, E2; exact G1).
  assert (ONE : exists l, opened w1 = l ++ base /\ (length l <= 1)%nat) by (exists [h]; auto).
  destruct r0 as [i|e].
  2:{ injection H as <- <-. rewrite CE, S3. split; auto. split; auto. split; [lia|]. split; [rewrite Q1; auto|]. pose proof X as (t & T & F). destruct (PE _ _ F) as [-> | ->]; auto. left. apply (failed_mono Perm w w1 w2 w2); auto; lia. }
  subst i. assert (TS : moduleObj (snd h) -> o_types (snd h) = V (o_name (snd h))) by (intros (M & _); destruct Y5 as (t & _ & Y5); apply (proj1 ST t); auto).
  assert (SR : forall w3, (now w1 <= now w3)%nat -> searched n k (o_id (snd h) - 1) a (now w3)).
  { intros w3 L3 o PO P M LE. destruct (Z_le_gt_dec (o_id o) (i_id it)) as [LI|LI]; [apply (SE o); auto; intros t T; apply P; lia|]. assert (o_id (snd h) <= o_id o); [|lia]. apply Y6; [intros t T; apply P; lia|lia]. }
  assert (UNI : forall o, present o a (now w1) -> o_id o = o_id (snd h) -> o = snd h).
  { intros o P E. destruct Y5 as (t & T & Y5). specialize (P t ltac:(lia)). destruct (OR t) as (SS & _). clear - P E Y5 SS. induction SS as [|x l SS IH F]; [easy|]. rewrite Forall_forall in F. destruct P as [-> | P], Y5 as [-> | Y5]; auto; [specialize (F _ Y5); lia|specialize (F _ P); lia]. }
  assert (GO : forall w3, goodCache V (cache_ w3) -> quiet w1 w3 -> (moduleObj (snd h) -> lacks (o_types (snd h)) n k) -> inModule env fails fuel w3 it1 n k = Some (r, w') ->
    goodCache V (cache_ w') /\ goodHandles w' /\ (now w < now w')%nat /\ (exists l, opened w' = l ++ base /\ (length l <= 1)%nat) /\
    match r with
    | Ok (h, id) => opened w' = h :: base /\ moduleObj (snd h) /\ isTarget (o_types (snd h)) n k id /\ (exists t, (now w <= t < now w')%nat /\ In (snd h) (objs (env t))) /\ searched n k (o_id (snd h) - 1) a (now w')
    | Err NotFound => opened w' = base /\ forall id, searched n k id a (now w')
    | Err Multiple => exists t o, In o (objs (env t)) /\ moduleObj o /\ ambiguous (o_types o) n k
    | Err e => failed e w w' \/ e = OtherErr
    end).
  { intros w3 GC3 (R1 & R2 & R3) LK H3. assert (IO3 : iopen w3 it1 base) by (split; [rewrite R1; apply IO1|apply G2; auto]).
    assert (SE3 : searched n k (i_id it1) a (now w3)).
    { rewrite Y2. intros o PO P M LE. destruct (Z.eq_dec (o_id o) (o_id (snd h))) as [E|E]; [|apply (SR w3 R3 o); auto; lia]. assert (o = snd h) as -> by (apply UNI; auto; intros t T; apply P; lia). auto. }
    destruct (IH w3 it1 r w' base a GC3 IO3 ltac:(congruence) ltac:(lia) SE3 H3) as (Z1 & Z2 & Z3 & Z4 & Z5). split; auto. split; auto. split; [lia|]. split; auto.
    destruct r as [[h' id']|e].
    - destruct Z5 as (A1 & A2 & A3 & (t & T & A4) & A5). split; auto. split; auto. split; auto. split; auto. exists t. split; auto. lia.
    - destruct e; auto; destruct Z5 as [Z5|Z5]; auto; left; (eapply failed_mono; [| |exact Z5]; lia). }
  destruct (isModule (o_name (snd h), o_kernel (snd h))) eqn:IM; cbn [negb fst] in H.
  2:{ apply (GO w2); auto; [rewrite CE, S3; auto|]. intros M. apply isModule_ok in M. congruence. }
  apply isModule_ok in IM. specialize (TS IM). assert (GC2 : goodCache V (cache_ w2)) by (rewrite CE, S3; auto).
  destruct (cacheModule env fails w2 (o_name (snd h))) as (r0 & w3) eqn:CM. destruct (cacheModule_ok _ _ _ _ GC2 CM) as (Q' & GC3 & X). pose proof (quiet_trans _ _ _ Q Q') as QQ. pose proof QQ as (R1 & R2 & R3). destruct r0 as [ts|e].
  2:{ injection H as <- <-. split; auto. split; auto. split; [lia|]. split; [rewrite R1; auto|]. destruct X as [X| ->]; auto. pose proof X as (t & T & F). destruct (PE _ _ F) as [-> | ->]; auto. left. apply (failed_mono Perm w w2 w3 w3); auto; lia. }
  subst ts. rewrite <- TS in H. pose proof (typeByName_ok (o_types (snd h)) n k) as TB. destruct (typeByName (o_types (snd h)) n k) as [id|e] eqn:T.
  - injection H as <- <-. split; auto. split; auto. split; [lia|]. split; [rewrite R1; auto|]. split; [rewrite R1; auto|]. split; auto. split; auto. split; auto. destruct Y5 as (t & T' & Y5). exists t. split; auto. lia.
  - destruct e; try easy.
    + apply (GO w3); auto.
    + injection H as <- <-. split; auto. split; auto. split; [lia|]. split; [rewrite R1; auto|]. destruct Y5 as (t & T' & Y5). exists t, (snd h). auto.
Qed.
Lemma inKernel_ok fuel n k w r w' : goodCache V (cache_ w) -> goodHandles w -> inKernel env fails fuel w n k = Some (r, w') ->
  goodCache V (cache_ w') /\ goodHandles w' /\ (exists l, opened w' = l ++ opened w /\ (length l <= 1)%nat) /\
  match r with
  | Ok (None, id) => opened w' = opened w /\ isTarget (V vmlinux) n k id
  | Ok (Some h, id) => opened w' = h :: opened w /\ moduleObj (snd h) /\ lacks (V vmlinux) n k /\ isTarget (o_types (snd h)) n k id /\
      (exists t, (now w <= t < now w')%nat /\ In (snd h) (objs (env t))) /\ (forall o, present o (now w) (now w') -> moduleObj o -> o_id o < o_id (snd h) -> lacks (o_types o) n k)
  | Err NoBTF => opened w' = opened w /\ c_kernel (cache_ w) = None /\ ((exists e, failed e w w') \/ files (env (now w)) vmlinux = None)
  | Err PermNotFound => failed Perm w w'
  | Err NotFound => opened w' = opened w /\ lacks (V vmlinux) n k /\ forall o, present o (now w) (now w') -> moduleObj o -> lacks (o_types o) n k
  | Err Multiple => ambiguous (V vmlinux) n k \/ exists t o, In o (objs (env t)) /\ moduleObj o /\ ambiguous (o_types o) n k
  | Err OtherErr => True
  | Err Perm => False
  end.
Proof.
  unfold inKernel. intros GC GH H. destruct (cacheKernel env fails w) as (r0 & w1) eqn:CK. destruct (cacheKernel_ok _ _ _ GC CK) as (Q & GC1 & X). pose proof Q as (Q1 & Q2 & Q3). assert (GH1 : goodHandles w1) by (unfold goodHandles; rewrite Q1, Q2; exact GH).
  assert (NIL : exists l, opened w1 = l ++ opened w /\ (length l <= 1)%nat) by (exists []; cbn; auto).
  destruct r0 as [ts|e].
  2:{ injection H as <- <-. split; auto. split; auto. split; auto. split; auto. destruct X as (X1 & [X|(_ & X)]); split; auto; left; eauto. }
  subst ts. pose proof (typeByName_ok (V vmlinux) n k) as TB. destruct (typeByName (V vmlinux) n k) as [id|e].
  { injection H as <- <-. auto 10. }
  destruct e; try easy; [|injection H as <- <-; auto 10].
  destruct (inModule env fails fuel w1 (Iter 0 None None) n k) as [[r0 w2]|] eqn:I; [|discriminate].
  assert (SE : searched n k (i_id (Iter 0 None None)) (now w1) (now w1)) by (intros o PO P M L; cbn in L; lia).
  assert (IO : iopen w1 (Iter 0 None None) (opened w1)) by (split; auto).
  destruct (inModule_ok fuel n k w1 (Iter 0 None None) r0 w2 (opened w1) (now w1) GC1 IO eq_refl (Nat.le_refl _) SE I) as (A1 & A2 & A3 & (l & A4 & A5) & A6).
  assert (POS : forall o, present o (now w) (now w2) -> 0 < o_id o /\ present o (now w1) (now w2)).
  { intros o P. split; [|intros t T; apply P; lia]. destruct (OR (now w)) as (_ & F). rewrite Forall_forall in F. apply F. apply P. lia. }
  assert (L' : exists l, opened w2 = l ++ opened w /\ (length l <= 1)%nat) by (exists l; rewrite A4, Q1; auto).
  destruct r0 as [[h id]|e]; injection H as <- <-.
  - split; auto. split; auto. split; auto. destruct A6 as (B1 & B2 & B3 & (t & T & B4) & B5). split; [congruence|]. split; auto. split; auto. split; auto. split; [exists t; split; auto; lia|].
    intros o P M LT. destruct (POS o P) as (P1 & P2). apply (B5 o); auto. lia.
  - split; auto. split; auto. split; auto. destruct e; cbn [isPerm]; auto.
    + destruct A6 as (B1 & B2). split; [congruence|]. split; auto. intros o P M. destruct (POS o P) as (P1 & P2). apply (B2 (o_id o) o); auto. lia.
    + destruct A6 as [(t & T & A6)|A6]; [|discriminate]. destruct (PE _ _ A6); discriminate.
    + destruct A6 as [A6|A6]; [|discriminate]. apply (failed_mono Perm w w1 w2 w2); auto.
    + destruct A6 as [(t & T & A6)|A6]; [|discriminate]. destruct (PE _ _ A6); discriminate.
Qed.
End Env.

Lemma target_ok n p a : match target n p a with Some (n', k) => attachesTo n p a n' k | None => forall n' k, ~ attachesTo n p a n' k end.
Proof. destruct p, a; cbn; try constructor; intros n' k H; inversion H. Qed.
(** What is found is the only type of this name and kind: in vmlinux if there is one; otherwise in a module whose handle is given, the first one that has it. *)
Theorem C95_target : forall env fails V w fuel n p a h id w', ordered env -> plainErrors fails -> steady env V -> goodCache V (cache_ w) -> goodHandles w ->
  programTarget env fails fuel w n p a = Some (inl (h, id), w') ->
  exists n' k, attachesTo n p a n' k /\
  match h with
  | None => isTarget (V vmlinux) n' k id /\ opened w' = opened w
  | Some (i, o) => lacks (V vmlinux) n' k /\ moduleObj o /\ isTarget (o_types o) n' k id /\ opened w' = (i, o) :: opened w /\
      (exists t, (now w <= t < now w')%nat /\ In o (objs (env t))) /\
      (forall o', present env o' (now w) (now w') -> moduleObj o' -> o_id o' < o_id o -> lacks (o_types o') n' k)
  end.
Proof.
  intros env fails V w fuel n p a h id w' OR PE ST GC GH H. unfold programTarget in H. pose proof (target_ok n p a) as T. destruct (target n p a) as [(n' & k)|]; [|discriminate]. exists n', k. split; auto.
  destruct (inKernel env fails fuel w n' k) as [[[r|e] w1]|] eqn:K; [|discriminate|discriminate]. injection H as -> ->. destruct (inKernel_ok env fails V OR PE ST _ _ _ _ _ _ GC GH K) as (_ & _ & _ & X). destruct h as [(i & o)|]; [|tauto]. cbn in X. tauto.
Qed.
(** Unsupported: there is no such type in vmlinux, nor in any module that was there all the time; or there is no BTF for the kernel; or permissions are missing. *)
Theorem C95_unsupported : forall env fails V w fuel n p a w', ordered env -> plainErrors fails -> steady env V -> goodCache V (cache_ w) -> goodHandles w ->
  programTarget env fails fuel w n p a = Some (inr Unsupported, w') ->
  (exists n' k, attachesTo n p a n' k /\ lacks (V vmlinux) n' k /\ (forall o, present env o (now w) (now w') -> moduleObj o -> lacks (o_types o) n' k) /\ opened w' = opened w) \/
  files (env (now w)) vmlinux = None \/ (exists t e, (now w <= t < now w')%nat /\ fails t = Some e).
Proof.
  intros env fails V w fuel n p a w' OR PE ST GC GH H. unfold programTarget in H. pose proof (target_ok n p a) as T. destruct (target n p a) as [(n' & k)|]; [|discriminate].
  destruct (inKernel env fails fuel w n' k) as [[[r|e] w1]|] eqn:K; [discriminate| |discriminate]. injection H as E ->. destruct (inKernel_ok env fails V OR PE ST _ _ _ _ _ _ GC GH K) as (_ & _ & _ & X). destruct e; try discriminate.
  - left. exists n', k. tauto.
  - destruct X as (_ & _ & [(e & t & X)|X]); eauto 10.
  - destruct X as (t & X). eauto 10.
Qed.
(** Ambiguous: two types of vmlinux, or two of one module *)
Theorem C95_ambiguous : forall env fails V w fuel n p a w', ordered env -> plainErrors fails -> steady env V -> goodCache V (cache_ w) -> goodHandles w ->
  programTarget env fails fuel w n p a = Some (inr Ambiguous, w') ->
  exists n' k, attachesTo n p a n' k /\ (ambiguous (V vmlinux) n' k \/ exists t o, In o (objs (env t)) /\ moduleObj o /\ ambiguous (o_types o) n' k).
Proof.
  intros env fails V w fuel n p a w' OR PE ST GC GH H. unfold programTarget in H. pose proof (target_ok n p a) as T. destruct (target n p a) as [(n' & k)|]; [|discriminate].
  destruct (inKernel env fails fuel w n' k) as [[[r|e] w1]|] eqn:K; [discriminate| |discriminate]. injection H as E ->. destruct (inKernel_ok env fails V OR PE ST _ _ _ _ _ _ GC GH K) as (_ & _ & _ & X). exists n', k. destruct e; try discriminate; auto.
Qed.
(** Programs that attach to nothing are not refused. *)
Theorem C95_unrecognized : forall env fails w fuel n p a, (forall n' k, ~ attachesTo n p a n' k) <-> programTarget env fails fuel w n p a = Some (inr Unrecognized, w).
Proof.
  intros. unfold programTarget. pose proof (target_ok n p a) as T. destruct (target n p a) as [(n' & k)|]; split; auto.
  - intros H. elim (H _ _ T).
  - destruct (inKernel env fails fuel w n' k) as [[[r|e] w1]|]; try discriminate. destruct (isNotFound e); [discriminate|]. destruct e; discriminate.
Qed.
(** At most one handle more than before is open in any case. *)
Theorem C95_handles : forall env fails V w fuel n p a r w', ordered env -> plainErrors fails -> steady env V -> goodCache V (cache_ w) -> goodHandles w ->
  programTarget env fails fuel w n p a = Some (r, w') -> exists l, opened w' = l ++ opened w /\ (length l <= 1)%nat.
Proof.
  intros env fails V w fuel n p a r w' OR PE ST GC GH H. unfold programTarget in H. destruct (target n p a) as [(n' & k)|]; [|injection H as <- <-; exists []; cbn; auto].
  destruct (inKernel env fails fuel w n' k) as [[[x|e] w1]|] eqn:K; [| |discriminate]; destruct (inKernel_ok env fails V OR PE ST _ _ _ _ _ _ GC GH K) as (_ & _ & X & _); [injection H as <- <-|injection H as <- <-]; auto.
Qed.
(** The kernel is given a handle that is open, and that is closed afterwards. *)
Theorem C95_attach : forall env fails V w fuel n p a id h during after, ordered env -> plainErrors fails -> steady env V -> goodCache V (cache_ w) -> goodHandles w ->
  attach env fails fuel w n p a = Some (Load id h during after) ->
  during = match h with Some h => [h] | None => [] end ++ opened w /\ after = opened w.
Proof.
  intros env fails V w fuel n p a id h during after OR PE ST GC GH H. unfold attach, programTarget in H. destruct (target n p a) as [(n' & k)|]; [|injection H as <- <- <- <-; auto].
  destruct (inKernel env fails fuel w n' k) as [[[(x & id')|e] w1]|] eqn:K; [| |discriminate].
  - injection H as <- <- <- <-. destruct (inKernel_ok env fails V OR PE ST _ _ _ _ _ _ GC GH K) as (_ & GH' & _ & X). destruct x as [h'|]; cbn [app].
    + destruct X as (O & _). split; auto. rewrite O. apply close_head. destruct GH' as (N & _). rewrite O in N. inversion N; auto.
    + destruct X as (O & _). auto.
  - destruct (isNotFound e); [discriminate|]. destruct e; discriminate.
Qed.
(** ** A kernel that doesn't change *)
Section Static.
Variable k0 : kernel.
Notation env := (fun _ : nat => k0). Notation fails := (fun _ : nat => @None err).
Hypothesis FV : files k0 vmlinux <> None.
Hypothesis FM : forall o, In o (objs k0) -> moduleObj o -> files k0 (o_name o) <> None /\ validModule (o_name o) = true.
Lemma static_next fuel : forall w it id b w' it', next_ env fails fuel w it id = Some (b, w', it') -> i_err it' = i_err it /\ (b = true -> exists h, i_handle it' = Some h /\ In (snd h) (objs k0)).
Proof.
  induction fuel as [|fuel IH]; cbn; intros w it id b w' it' H; [discriminate|]. destruct (nextObj k0 id) as [o|]; [|injection H as <- <- <-; cbn; split; auto; discriminate].
  unfold newHandleFromID in H. cbn in H. unfold objById in H. destruct (find _ (objs k0)) as [o'|] eqn:F; [|apply IH in H; auto]. apply find_some in F. cbn in H. injection H as <- <- <-. cbn. split; auto. intros _. eexists. split; [reflexivity|]. cbn. tauto.
Qed.
Lemma static_kernel w r w' : cacheKernel env fails w = (r, w') -> exists ts, r = Ok ts.
Proof. unfold cacheKernel, loadFile. cbn. destruct (c_kernel (cache_ w)); [intros [= <- <-]; eauto|]. destruct (files k0 vmlinux); [intros [= <- <-]; eauto|easy]. Qed.
Lemma static_module w n r w' : files k0 n <> None -> validModule n = true -> cacheModule env fails w n = (r, w') -> exists ts, r = Ok ts.
Proof.
  intros F VM. unfold cacheModule. destruct (c_modules (cache_ w) n); [intros [= <- <-]; eauto|]. destruct (cacheKernel _ _ w) as (r0 & w0) eqn:K. destruct (static_kernel _ _ _ K) as (ts & ->). rewrite VM. cbn [negb]. unfold loadFile. cbn. destruct (files k0 n); [intros [= <- <-]; eauto|easy].
Qed.
Lemma static_inModule fuel n k : forall w it r w', i_err it = None -> inModule env fails fuel w it n k = Some (r, w') -> match r with Ok _ | Err NotFound | Err Multiple => True | Err _ => False end.
Proof.
  induction fuel as [|fuel IH]; cbn [inModule]; intros w it r w' IE H; [discriminate|]. destruct (next _ _ _ _ it) as [[[b w1] it1]|] eqn:N; [|discriminate]. destruct (static_next _ _ _ _ _ _ _ N) as (E & X). destruct b.
  - destruct (X eq_refl) as (h & HH & I). rewrite HH in H. unfold info in H. cbn in H. destruct (isModule (o_name (snd h), o_kernel (snd h))) eqn:M; cbn [negb fst] in H; [|apply IH in H; auto; congruence].
    apply isModule_ok in M. destruct (FM _ I M) as (F1 & F2). destruct (cacheModule _ _ _ _) as (r0 & w2) eqn:C. destruct (static_module _ _ _ _ F1 F2 C) as (ts & ->). pose proof (typeByName_err ts n k) as TE. destruct (typeByName ts n k) as [id|e]; [injection H as <- <-; auto|]. destruct (TE e eq_refl) as [-> | ->]; [apply IH in H; auto; congruence|injection H as <- <-; auto].
  - injection H as <- <-. rewrite E, IE. auto.
Qed.
End Static.
(** Nothing else goes wrong if the kernel has BTF and stays as it is. *)
Theorem C95_complete : forall k0 w fuel n p a r w', files k0 vmlinux <> None -> (forall o, In o (objs k0) -> moduleObj o -> files k0 (o_name o) <> None /\ validModule (o_name o) = true) ->
  programTarget (fun _ => k0) (fun _ => None) fuel w n p a = Some (r, w') -> match r with inr (Failed _) => False | _ => True end.
Proof.
  intros k0 w fuel n p a r w' FV FM H. unfold programTarget in H. destruct (target n p a) as [(n' & k)|]; [|injection H as <- <-; auto]. unfold inKernel in H. destruct (cacheKernel _ _ w) as (r0 & w0) eqn:K. destruct (static_kernel k0 FV _ _ _ K) as (ts & ->).
  pose proof (typeByName_err ts n' k) as TE. destruct (typeByName ts n' k) as [id|e]; [injection H as <- <-; auto|]. destruct (TE e eq_refl) as [-> | ->]; [|injection H as <- <-; cbn; auto].
  destruct (inModule _ _ _ _ _ _ _) as [[x w1]|] eqn:I; [|discriminate]. pose proof (static_inModule k0 FV FM _ _ _ _ (Iter 0 None None) _ _ eq_refl I) as X. destruct x as [(h & id)|e]; injection H as <- <-; auto. destruct e; try easy; cbn; auto.
Qed.
(** ** Termination: IDs are bounded *)
Section Bounded.
Variable env : nat -> kernel. Variable fails : nat -> option err. Variable B : Z.
Hypothesis BD : forall t o, In o (objs (env t)) -> o_id o < B.
Lemma next_ends fuel : forall w it id, (Z.to_nat (B - id) < fuel)%nat -> exists b w' it', next_ env fails fuel w it id = Some (b, w', it') /\ (b = true -> id < i_id it' < B).
Proof.
  induction fuel as [|fuel IH]; intros w it id L; [lia|]. cbn. destruct (fails (now w)); [do 3 eexists; split; [reflexivity|discriminate]|]. destruct (nextObj (env (now w)) id) as [o|] eqn:N; [|do 3 eexists; split; [reflexivity|discriminate]].
  apply find_some in N. destruct N as (I & N). apply BD in I. destruct (newHandleFromID env fails (tick w) (o_id o)) as ([[h|]|e] & w1); try (do 3 eexists; split; [reflexivity|cbn; intros; first [discriminate|lia]]).
  destruct (IH w1 it (o_id o) ltac:(lia)) as (b & w' & it' & E & X). rewrite E. do 3 eexists. split; [reflexivity|]. intros Y. specialize (X Y). lia.
Qed.
Lemma inModule_ends n k fuel : forall w it, (Z.to_nat (B - i_id it) < fuel)%nat -> inModule env fails fuel w it n k <> None.
Proof.
  induction fuel as [|fuel IH]; intros w it L; [lia|]. cbn [inModule]. unfold next. destruct (next_ends (S fuel) w it (i_id it) L) as (b & w1 & it1 & E & X). rewrite E. destruct b; [|discriminate]. specialize (X eq_refl).
  assert (G : forall w', inModule env fails fuel w' it1 n k <> None) by (intros w'; apply IH; lia).
  destruct (i_handle it1) as [h|]; [|discriminate]. destruct (info fails w1 h) as ([i|e] & w2); [|discriminate]. destruct (isModule i); cbn [negb]; [|apply G]. destruct (cacheModule env fails w2 (fst i)) as ([ts|e] & w3); [|discriminate]. destruct (typeByName ts n k) as [id|[]]; try discriminate. apply G.
Qed.
End Bounded.
(** The search ends, as IDs are 32 bit numbers, whatever happens in the kernel meanwhile. *)
Theorem C95_ends : forall env fails w n p a, (forall t o, In o (objs (env t)) -> o_id o < 2 ^ 32) -> exists fuel, forall fuel', (fuel <= fuel')%nat -> programTarget env fails fuel' w n p a <> None.
Proof.
  intros env fails w n p a BD. exists (S (Z.to_nat (2 ^ 32))). intros fuel L. unfold programTarget. destruct (target n p a) as [(n' & k)|]; [|discriminate]. unfold inKernel. destruct (cacheKernel env fails w) as ([ts|e] & w1); [|discriminate].
  destruct (typeByName ts n' k) as [id|[]]; try discriminate. pose proof (inModule_ends env fails (2 ^ 32) BD n' k fuel w1 (Iter 0 None None)) as E. destruct (inModule _ _ _ _ _ _ _) as [[[(h & id)|e] w2]|]; try discriminate. elim E; auto; cbn [i_id]; lia.
Qed.

(** ** Examples *)
Definition nA : name := [97]. Definition nB : name := [98]. Definition m1 : name := [109]. Definition m2 : name := [110].
Definition vtypes : types := [Ty 1 Func nA; Ty 2 Struct nA; Ty 3 Func (bpf_lsm_ ++ nA); Ty 4 Func nB; Ty 5 Func nB].
Definition m1types : types := [Ty 101 Typedef (btf_trace_ ++ nB); Ty 102 Func m1].
Definition m2types : types := [Ty 101 Func m1; Ty 102 Func nA; Ty 103 Struct m2; Ty 104 Func m2; Ty 105 Func m2].
Definition vm : obj := Obj 1 vmlinux true vtypes.
Definition user : obj := Obj 3 m1 false [Ty 1 Func m2].
Definition om1 : obj := Obj 4 m1 true m1types.
Definition om2 : obj := Obj 9 m2 true m2types.
Definition ex_files (n : name) : option types := if name_eqb n vmlinux then Some vtypes else if name_eqb n m1 then Some m1types else if name_eqb n m2 then Some m2types else None.
Definition k1 : kernel := Kernel [vm; user; om1; om2] ex_files.
Definition w0 : world := World 0 [] 0 (Cache None (fun _ => None)).
Definition noFail : nat -> option err := fun _ => None.
Definition V1 (n : name) : types := match ex_files n with Some t => t | None => [] end.
Definition run (n : name) (p : ptype) (a : atype) := match programTarget (fun _ => k1) noFail 20 w0 n p a with Some (r, w) => Some (r, opened w) | None => None end.
Theorem C95_example :
  run nA PTracing AFEntry = Some (inl (None, 1), []) /\ run nA PStructOps AStructOps = Some (inl (None, 2), []) /\ run nA PLSM ALSMMac = Some (inl (None, 3), []) /\
  run m1 PTracing AFExit = Some (inl (Some (2%nat, om1), 102), [(2%nat, om1)]) /\ run nB PTracing ARawTp = Some (inl (Some (2%nat, om1), 101), [(2%nat, om1)]) /\
  run m2 PStructOps AStructOps = Some (inl (Some (3%nat, om2), 103), [(3%nat, om2)]) /\
  run nB PLSM ALSMMac = Some (inr Unsupported, []) /\ run nB PTracing AFEntry = Some (inr Ambiguous, []) /\ run nA POther AOther = Some (inr Unrecognized, []).
Proof. repeat split; vm_compute; reflexivity. Qed.
Theorem C95_example_hyps : ordered (fun _ => k1) /\ plainErrors noFail /\ steady (fun _ => k1) V1 /\ goodCache V1 (cache_ w0) /\ goodHandles w0.
Proof.
  split; [|split; [|split; [|split]]].
  - intros _. split; cbn; repeat (constructor; cbn; try lia).
  - intros t e [=].
  - split.
    + intros _ o [<- | [<- | [<- | [<- | []]]]] K; try discriminate; vm_compute; reflexivity.
    + intros _ n ts. unfold V1. cbn. intros ->. auto.
  - split; cbn; intros; discriminate.
  - split; cbn; constructor.
Qed.
(** A name that vmlinux and a module have, or two modules, is not ambiguous: the first is taken, although the comment in findProgramTargetInKernel says
    that equally named symbols are refused. *)
Theorem C95_ambiguous_refuted : exists id h o, fst (match run m1 PTracing AFEntry with Some x => x | None => (inr Unrecognized, []) end) = inl (Some (h, om1), id) /\
  In o (objs k1) /\ moduleObj o /\ o <> om1 /\ isTarget (o_types o) m1 Func 101 /\ isTarget m1types m1 Func 102.
Proof.
  exists 102, 2%nat, om2. split; [vm_compute; reflexivity|]. split; [cbn; auto|]. split; [split; [reflexivity|discriminate]|]. split; [discriminate|].
  split; (split; [cbn; auto|]); intros t; cbn; intuition (subst; try discriminate; auto).
Qed.
(** If the lookup in a module fails, its handle stays open. *)
Theorem C95_leak_refuted : run m2 PTracing AFEntry = Some (inr Ambiguous, [(3%nat, om2)]).
Proof. vm_compute. reflexivity. Qed.
(** struct_ops of a module: the handle of the first lookup stays open, and if the struct lacks the member, both do. *)
Theorem C95_struct_ops_refuted :
  attachStructOps (fun _ => k1) noFail 20 true w0 m2 AStructOps = Some (Load 103 (Some (7%nat, om2)) [(7%nat, om2); (3%nat, om2)] [(3%nat, om2)]) /\
  attachStructOps (fun _ => k1) noFail 20 false w0 m2 AStructOps = Some (Refused (Failed OtherErr) [(7%nat, om2); (3%nat, om2)]).
Proof. split; vm_compute; reflexivity. Qed.
(** A module that is unloaded while it is looked at makes the search fail, although what is looked for is elsewhere, and leaves a handle open. *)
Definition k2 : kernel := Kernel [vm; user; om2] (fun n => if name_eqb n m1 then None else ex_files n).
Definition unloading (t : nat) : kernel := if (t <=? 18)%nat then k1 else k2.
Theorem C95_unload_refuted : (exists w, programTarget unloading noFail 20 w0 nB PTracing AIter = Some (inr (Failed OtherErr), w) /\ opened w = [(2%nat, om1)]) /\
  (exists w, programTarget unloading noFail 20 w0 m2 PStructOps AStructOps = Some (inr (Failed OtherErr), w)) /\ forall t, present unloading om2 0 t.
Proof.
  split; [eexists; split; [vm_compute; reflexivity|reflexivity]|]. split; [eexists; vm_compute; reflexivity|]. intros t u _. unfold unloading. destruct (u <=? 18)%nat; cbn; auto.
Qed.
(** The Cache keeps the types of a module that was replaced since: the program gets the ID of a different type. *)
Definition om1' : obj := Obj 12 m1 true [Ty 101 Func nB; Ty 102 Func nA; Ty 103 Func m1].
Definition k3 : kernel := Kernel [vm; om1'] (fun n => if name_eqb n m1 then Some (o_types om1') else ex_files n).
Definition reloading (t : nat) : kernel := if (t <=? 40)%nat then k1 else k3.
Theorem C95_reload_refuted : exists h w1 w2 h' , programTarget reloading noFail 20 w0 m1 PTracing AFEntry = Some (inl (Some h, 102), w1) /\
  programTarget reloading noFail 20 (World 41 [] (fresh w1) (cache_ w1)) m1 PTracing AFEntry = Some (inl (Some (h', om1'), 102), w2) /\
  ~ isTarget (o_types om1') m1 Func 102 /\ isTarget (o_types om1') m1 Func 103.
Proof.
  do 4 eexists. split; [vm_compute; reflexivity|]. split; [vm_compute; reflexivity|]. split.
  - intros ([X|[X|[X|[]]]] & _); discriminate.
  - split; [cbn; auto|]. intros t; cbn; intuition (subst; try discriminate; auto).
Qed.

Print Assumptions C95_target.
Print Assumptions C95_unsupported.
Print Assumptions C95_ambiguous.
Print Assumptions C95_unrecognized.
Print Assumptions C95_handles.
Print Assumptions C95_attach.
Print Assumptions C95_complete.
Print Assumptions C95_ends.
Print Assumptions C95_example.
Print Assumptions C95_reload_refuted.
