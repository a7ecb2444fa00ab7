(** C102: system calls for BPF: tokens, interrupted verification, signals of the profiler. *)
From Coq Require Import List Bool Arith NArith ZArith Lia.
From Verif Require Import Sys.Token Sys.TokenSpec.
Import ListNotations.
Open Scope N_scope.

Lemma one_shl_testbit n k : N.testbit (one_shl n) k = (n <? 64) && (n =? k).
Proof.
  unfold one_shl. destruct (n <? 64) eqn:E; cbn [andb]; [|apply N.bits_0]. rewrite N.shiftl_1_l. destruct (N.eqb_spec n k) as [->|N]; [apply N.pow2_bits_true|now apply N.pow2_bits_false].
Qed.
Lemma has_testbit set n : set < 2^64 -> has set n = N.testbit set n.
Proof.
  intros B. unfold has. destruct (N.testbit set n) eqn:T.
  - apply negb_true_iff, N.eqb_neq. intros Z. assert (Q : N.testbit (N.land set (one_shl n)) n = true).
    { rewrite N.land_spec, T, one_shl_testbit, N.eqb_refl, andb_true_r. cbn. apply N.ltb_lt. destruct (N.ltb_spec n 64) as [|G]; auto. exfalso.
      destruct (N.eq_dec set 0) as [->|NZ]; [now rewrite N.bits_0 in T|]. rewrite N.bits_above_log2 in T; [easy|]. apply N.log2_lt_pow2; [lia|]. eapply N.lt_le_trans; [exact B|]. apply N.pow_le_mono_r; lia. }
    rewrite Z, N.bits_0 in Q. easy.
  - apply negb_false_iff, N.eqb_eq. apply N.bits_inj. intros k. rewrite N.land_spec, one_shl_testbit, N.bits_0. destruct (N.eqb_spec n k) as [<-|]; [now rewrite T|]. now rewrite !andb_false_r.
Qed.
Definition wfTok (t : option tok) : Prop := match t with Some (Tok _ (Some i)) => wfInfo i | _ => True end.
Lemma capable_allows t i cmd a : t_info t = Some i -> wfInfo i -> (capable t cmd a = true <-> allows i cmd a).
Proof.
  intros E (B1 & B2 & B3 & B4). unfold capable, allows. rewrite E, !has_testbit by assumption. destruct (N.testbit (i_cmds i) cmd); cbn [negb]; [|split; [discriminate|easy]].
  destruct (N.eqb_spec cmd MAP_CREATE) as [->|N1]; [|destruct (N.eqb_spec cmd PROG_LOAD) as [->|N2]].
  - split; [intros; repeat split; auto; discriminate|intros (_ & Q & _); auto].
  - destruct (N.testbit (i_progs i) (a_type a)); cbn [negb].
    + split; [intros; repeat split; auto; discriminate|intros (_ & _ & Q); now apply Q].
    + split; [discriminate|intros (_ & _ & Q); now destruct (Q eq_refl)].
  - split; auto. intros _. repeat split; auto; congruence.
Qed.

Section K.
Variable K : kernel.
(** The kernel's info has 64 bits. *)
Definition wfK : Prop := forall h c v i, K h c = Ret v i -> wfInfo i.
Definition ext (s s' : st) (h : history) : Prop := hist s' = hist s ++ h /\ tokenOnce s' = tokenOnce s.
Lemma loop_tries fuel t cmd a s r s' : wfTok t -> loop K fuel t cmd a s = Some (r, s') -> exists h, ext s s' h /\ tries t cmd a h r.
Proof.
  intros W. revert s. induction fuel as [|fuel IH]; intros s E; [discriminate|]. cbn [loop] in E. unfold bind, do in E. cbn [hist tokenOnce] in E.
  destruct (K (hist s) (CBpf cmd a)) as [v i|e] eqn:A.
  - inversion E; subst. exists [(CBpf cmd a, Ret v i)]. split; [split; auto|]. exists O, (Ret v i). repeat split; auto; [easy|]. intros [_ Q]; discriminate.
  - destruct ((e =? EAGAIN) && (cmd =? PROG_LOAD)) eqn:R.
    + apply andb_true_iff in R. destruct R as [R1 R2]. apply N.eqb_eq in R1, R2. subst. apply IH in E. destruct E as (h & (E1 & E2) & n & ans & -> & E3 & E4 & E5). cbn [hist tokenOnce] in *.
      exists ((CBpf PROG_LOAD a, Fail EAGAIN) :: repeat (CBpf PROG_LOAD a, Fail EAGAIN) n ++ [(CBpf PROG_LOAD a, ans)]). split.
      * split; auto. now rewrite E1, <- app_assoc.
      * exists (S n), ans. repeat split; auto.
    + assert (NR : ~ (cmd = PROG_LOAD /\ Fail e = Fail EAGAIN)) by (intros [-> Q]; inversion Q; subst; discriminate).
      assert (G : forall x, Some (Err (A := N * tokinfo) x, {| hist := hist s ++ [(CBpf cmd a, Fail e)]; tokenOnce := tokenOnce s |}) = Some (r, s') -> (forall y, isErrno x y = true <-> y = e) -> (isCaps x = true <-> e = EPERM /\ suspect t cmd a) -> exists h, ext s s' h /\ tries t cmd a h r).
      { intros x Q X1 X2. inversion Q; subst. exists [(CBpf cmd a, Fail e)]. split; [split; auto|]. exists O, (Fail e). repeat split; auto; [easy|]. exists x. auto. }
      assert (I1 : forall y, isErrno (EErrno e) y = true <-> y = e) by (intros; cbn; rewrite N.eqb_eq; easy).
      assert (I2 : forall y, isErrno (ECaps e) y = true <-> y = e) by (intros; cbn; rewrite N.eqb_eq; easy).
      destruct t as [t|]; [|apply (G _ E); auto; cbn; easy].
      destruct (N.eqb_spec e EPERM) as [->|NP]; [|apply (G _ E); auto; cbn; easy].
      destruct t as [fd [i|]]; cbn [t_info] in E.
      * pose proof (capable_allows (Tok fd (Some i)) i cmd a eq_refl W) as CA. destruct (capable _ cmd a); apply (G _ E); auto; cbn; intuition.
      * apply (G _ E); auto. cbn. easy.
Qed.
Definition answered (a : answer) : res (N * tokinfo) := match a with Ret v i => Ok (v, i) | Fail e => Err (EErrno e) end.
Lemma plain g fuel cmd a s : cmd = TOKEN_CREATE \/ cmd = OBJ_GET_INFO_BY_FD ->
  BPF_ K g (S fuel) cmd a s = Some (answered (K (hist s) (CBpf cmd a)), St (hist s ++ [(CBpf cmd a, K (hist s) (CBpf cmd a))]) (tokenOnce s)).
Proof.
  intros [-> | ->]; unfold BPF_, tokenAttr, bind, ret, do; cbn [masks hasTokenAttr N.eqb Pos.eqb TOKEN_CREATE OBJ_GET_INFO_BY_FD PROG_LOAD PROG_RUN MAP_CREATE BTF_LOAD orb loop];
  unfold bind, do, ret; destruct (K (hist s) _) as [v i|e]; cbn [answered]; try reflexivity; now rewrite andb_false_r.
Qed.
Lemma NewFD_created fs s v i r s' : K (hist s) (bpf_ TOKEN_CREATE fs) = Ret v i -> NewFD K v (St (hist s ++ [(bpf_ TOKEN_CREATE fs, Ret v i)]) (tokenOnce s)) = Some (r, s') ->
  exists h, ext s s' h /\ created fs h r.
Proof.
  intros A E. unfold NewFD in E. destruct (N.eqb_spec v 0) as [->|NZ].
  - unfold bind, do, ret in E. cbn [hist tokenOnce] in E. destruct (K _ (CDup 0)) as [d j|e] eqn:D; inversion E; subst; clear E; eexists; (split; [split; [cbn [hist]; rewrite <- !app_assoc; reflexivity|reflexivity]|]); cbn [app]; econstructor.
  - inversion E; subst. eexists. split; [split; reflexivity|]. now constructor.
Qed.
Lemma newToken_attempt fuel m s r s' : wfK -> newToken K fuel m s = Some (r, s') -> exists h, ext s s' h /\ attempt m h r /\ match r with Ok t => wfTok (Some t) | Err e => exists e', e = EErrno e' \/ e = EOther end.
Proof.
  intros W E. unfold newToken in E. unfold bind at 1, do at 1 in E. destruct (K (hist s) (COpen m)) as [fs i|e] eqn:O.
  2:{ inversion E; subst. eexists. split; [split; reflexivity|]. split; [constructor|]. exists e. auto. }
  unfold bind at 1 in E. destruct fuel as [|fuel]; [discriminate|]. rewrite plain in E by auto. cbn [hist tokenOnce] in E.
  set (s1 := St (hist s ++ [(COpen m, Ret fs i)]) (tokenOnce s)) in *. change (hist s ++ [(COpen m, Ret fs i)]) with (hist s1) in E. change (tokenOnce s) with (tokenOnce s1) in E.
  assert (EX : forall s2 h, ext s1 s2 h -> ext s s2 ((COpen m, Ret fs i) :: h)) by (intros s2 h (A & B); split; [rewrite A; unfold s1; cbn [hist]; now rewrite <- app_assoc|exact B]).
  destruct (K (hist s1) (CBpf TOKEN_CREATE _)) as [v j|e] eqn:C; cbn [answered] in E.
  2:{ unfold bind, ret, do in E. inversion E; subst; clear E. eexists. split; [apply EX; split; [cbn [hist]; rewrite <- app_assoc; reflexivity|reflexivity]|]. cbn [app]. split; [|exists e; auto].
      apply (at_nocreate m fs i [(bpf_ TOKEN_CREATE fs, Fail e)] (EErrno e)). constructor. }
  unfold bind at 1 in E. destruct (NewFD K v _) as [[f s2]|] eqn:NF; [|discriminate]. apply (NewFD_created fs) in NF; [|exact C]. destruct NF as (h & X2 & CR).
  destruct f as [fd|e].
  2:{ unfold bind, ret, do in E. inversion E; subst; clear E. eexists. split; [apply EX; split; [cbn [hist]; rewrite (proj1 X2), <- app_assoc; reflexivity|cbn [tokenOnce]; apply X2]|]. split; [now apply at_nocreate|].
      inversion CR; subst; [exists e0|exists 0]; auto. }
  unfold bind at 1 in E. unfold bind at 1 in E. rewrite plain in E by auto. unfold bind, ret, do in E. cbn [hist tokenOnce] in E.
  destruct (K (hist s2) (CBpf OBJ_GET_INFO_BY_FD _)) as [w k|e] eqn:I; cbn [answered] in E.
  - inversion E; subst; clear E. eexists. split; [apply EX; split; [cbn [hist]; rewrite (proj1 X2), <- !app_assoc; reflexivity|cbn [tokenOnce]; apply X2]|]. split; [|cbn; eapply W; exact I].
    apply (at_create m fs i h fd [(bpf_ OBJ_GET_INFO_BY_FD fd, Ret w k)]); auto. constructor.
  - cbn [isErrno] in E. destruct (N.eqb_spec e EINVAL) as [->|NE].
    + inversion E; subst; clear E. eexists. split; [apply EX; split; [cbn [hist]; rewrite (proj1 X2), <- !app_assoc; reflexivity|cbn [tokenOnce]; apply X2]|]. split; [|exact Logic.I].
      apply (at_create m fs i h fd [(bpf_ OBJ_GET_INFO_BY_FD fd, Fail EINVAL)]); auto. constructor.
    + inversion E; subst; clear E. eexists. split; [apply EX; split; [cbn [hist]; rewrite (proj1 X2), <- !app_assoc; reflexivity|cbn [tokenOnce]; apply X2]|]. split; [|exists e; auto].
      eapply (at_create m fs i h fd [(bpf_ OBJ_GET_INFO_BY_FD fd, Fail e); (CClose fd, _)]); auto. now constructor.
Qed.
Lemma skips_refusal e : (exists e', e = EErrno e' \/ e = EOther) -> skips e = true <-> refusal e.
Proof.
  intros (e' & [-> | ->]); unfold skips, refusal; cbn [isErrno]; [|split; [discriminate|intuition discriminate]]. rewrite !orb_true_iff, !N.eqb_eq. split.
  - intros [[[[-> | ->] | ->] | ->] | ->]; tauto.
  - intros [Q|[Q|[Q|[Q|Q]]]]; inversion Q; tauto.
Qed.
Lemma tryMounts_searched fuel l : wfK -> forall s r s', tryMounts K fuel l s = Some (r, s') -> exists h, ext s s' h /\ searched l h r /\ match r with Ok t => wfTok t | Err _ => True end.
Proof.
  intros W. induction l as [|m l IH]; intros s r s' E; cbn [tryMounts] in E.
  - inversion E; subst. exists []. split; [split; [now rewrite app_nil_r|auto]|]. split; [constructor|exact Logic.I].
  - unfold bind in E. destruct (newToken K fuel m s) as [[x s1]|] eqn:T; [|discriminate]. apply newToken_attempt in T; [|exact W]. destruct T as (h & X & A & G). destruct x as [t|e].
    + inversion E; subst. exists h. split; auto. split; [now constructor|exact G].
    + pose proof (skips_refusal e G) as SR. destruct (skips e) eqn:SK.
      * apply IH in E. destruct E as (h' & X' & S' & G'). exists (h ++ h'). split; [split; [rewrite (proj1 X'), (proj1 X); apply app_assoc_reverse|rewrite (proj2 X'); apply X]|]. split; auto. eapply se_next; eauto. now apply SR.
      * inversion E; subst. exists h. split; auto. split; [|exact Logic.I]. apply se_fails; auto. intros Q. apply SR in Q. discriminate.
Qed.
Lemma getToken_search mounts fuel s r s' : wfK -> getToken K mounts fuel s = Some (r, s') ->
  (tokenOnce s = Done r /\ s' = s) \/ (tokenOnce s = NotYet /\ exists h, hist s' = hist s ++ h /\ tokenOnce s' = Done r /\ search mounts h r /\ match r with Ok t => wfTok t | Err _ => True end).
Proof.
  intros W E. unfold getToken in E. destruct (tokenOnce s) as [| |r0] eqn:O; [|discriminate|].
  - right. split; auto. destruct mounts as [l|]; cbn [findToken] in E.
    + destruct (tryMounts K fuel l _) as [[x s1]|] eqn:T; [|discriminate]. inversion E; subst. apply tryMounts_searched in T; [|exact W]. destruct T as (h & X & A & G). exists h. cbn. split; [apply X|]. auto.
    + inversion E; subst. exists []. cbn. rewrite app_nil_r. auto.
  - left. inversion E; subst. auto.
Qed.

(** ** What a call does *)
Definition wf (s : st) : Prop := match tokenOnce s with NotYet => True | Running => False | Done (Ok t) => wfTok t | Done (Err _) => True end.
Definition signals (h : history) : Prop := Forall isSignal h.
Definition before (cmd : N) (h : history) : Prop := if masks cmd then exists x y, h = [(CLock, x); (CBlock, y)] else h = [].
Definition after (cmd : N) (h : history) : Prop := if masks cmd then exists x y, h = [(CUnblock, x); (CUnlock, y)] else h = [].
Lemma call_shape : forall mounts fuel cmd a s r s', wfK -> wf s -> BPF K mounts fuel cmd a s = Some (r, s') ->
  exists pre found t tr post, hist s' = hist s ++ pre ++ found ++ tr ++ post /\ before cmd pre /\ after cmd post /\
    (if hasTokenAttr cmd then tokenOnce s' = Done t /\ (tokenOnce s = NotYet /\ search mounts found t \/ tokenOnce s = Done t /\ found = [])
     else tokenOnce s' = tokenOnce s /\ found = [] /\ t = Ok None) /\
    match t with
    | Ok t => tries t cmd (withToken t a) tr r
    | Err e => tr = [] /\ r = Err e
    end.
Proof.
  intros mounts fuel cmd a s r s' W WS E. unfold BPF, BPF_ in E. unfold bind at 1 in E.
  set (pre := if masks cmd then [(CLock, K (hist s) CLock); (CBlock, K (hist s ++ [(CLock, K (hist s) CLock)]) CBlock)] else []).
  assert (P : (if masks cmd then maskProfilerSignal K else ret tt) s = Some (tt, St (hist s ++ pre) (tokenOnce s)) /\ before cmd pre).
  { unfold pre, before. destruct (masks cmd); [|unfold ret; rewrite app_nil_r; split; [now destruct s|reflexivity]]. unfold maskProfilerSignal, bind, do, ret. cbn [hist tokenOnce]. rewrite <- app_assoc. split; [reflexivity|]. eauto. }
  destruct P as [P SP]. rewrite P in E. clear P. set (s1 := St (hist s ++ pre) (tokenOnce s)) in *.
  assert (PO : forall s2 r2, bind (if masks cmd then unmaskProfilerSignal K else ret tt) (fun _ => ret r2) s2 = Some (r, s') -> exists post, ext s2 s' post /\ after cmd post /\ r = r2).
  { intros s2 r2 Q. unfold bind, ret in Q. unfold after. destruct (masks cmd).
    - unfold unmaskProfilerSignal, bind, do, ret in Q. inversion Q; subst. eexists. split; [split; [cbn [hist]; rewrite <- app_assoc; reflexivity|reflexivity]|]. split; [do 2 eexists; reflexivity|auto].
    - inversion Q; subst. exists []. split; [split; [now rewrite app_nil_r|auto]|]. split; [reflexivity|auto]. }
  unfold bind at 1 in E. unfold tokenAttr in E. destruct (hasTokenAttr cmd) eqn:HT.
  - unfold bind at 1 in E. destruct (getToken K mounts fuel s1) as [[t s2]|] eqn:GT; [|discriminate].
    assert (GS : exists found, hist s2 = hist s1 ++ found /\ tokenOnce s2 = Done t /\ (tokenOnce s = NotYet /\ search mounts found t \/ tokenOnce s = Done t /\ found = []) /\ match t with Ok t => wfTok t | Err _ => True end).
    { apply getToken_search in GT; [|exact W]. destruct GT as [(O & ->)|(O & h & X & Y & Z & V)]; cbn [tokenOnce s1] in O.
      - exists []. rewrite app_nil_r. split; [auto|]. split; [exact O|]. split; [auto|]. unfold wf in WS. now rewrite O in WS.
      - exists h. split; [exact X|]. split; [exact Y|]. split; [left; split; [exact O|exact Z]|exact V]. }
    destruct GS as (found & X1 & X2 & X3 & X4). cbn [hist s1] in X1. destruct t as [t|e].
    + assert (G : exists s3 r3 tr, ext s2 s3 tr /\ tries t cmd (withToken t a) tr r3 /\ bind (if masks cmd then unmaskProfilerSignal K else ret tt) (fun _ => ret r3) s3 = Some (r, s')).
      { destruct t as [t|]; unfold ret at 1 in E; unfold bind at 1 in E; (destruct (loop K fuel _ cmd _ s2) as [[r3 s3]|] eqn:L; [|discriminate]); exists s3, r3; apply loop_tries in L; auto; destruct L as (h & L1 & L2); exists h; auto. }
      destruct G as (s3 & r3 & tr & G1 & G2 & G3). apply PO in G3. destruct G3 as (post & Q1 & Q2 & ->). exists pre, found, (Ok t), tr, post.
      split; [rewrite (proj1 Q1), (proj1 G1), X1, <- !app_assoc; reflexivity|]. split; auto. split; auto. split; [split; [rewrite (proj2 Q1), (proj2 G1); exact X2|exact X3]|exact G2].
    + unfold ret at 1 in E. unfold bind at 1, ret at 1 in E. apply PO in E. destruct E as (post & Q1 & Q2 & ->). exists pre, found, (Err e), [], post.
      split; [rewrite (proj1 Q1), X1, <- !app_assoc; reflexivity|]. split; auto. split; auto. split; [split; [rewrite (proj2 Q1); exact X2|exact X3]|auto].
  - unfold ret at 1 in E. unfold bind at 1 in E. destruct (loop K fuel None cmd a s1) as [[r3 s3]|] eqn:L; [|discriminate]. apply loop_tries in L; [|exact Logic.I]. destruct L as (tr & G1 & G2). apply PO in E. destruct E as (post & Q1 & Q2 & ->).
    exists pre, [], (Ok None), tr, post. split; [rewrite (proj1 Q1), (proj1 G1); cbn [s1 hist app]; rewrite <- !app_assoc; reflexivity|]. split; auto. split; auto. split; [split; [rewrite (proj2 Q1), (proj2 G1); reflexivity|auto]|exact G2].
Qed.
(** The token is looked for once, if the command takes one; then the command is passed on, with the token; and the caller gets what the kernel answers. If looking for the token fails, the command isn't passed on. *)
Theorem C102_call : forall mounts fuel cmd a s r s', wfK -> wf s -> BPF K mounts fuel cmd a s = Some (r, s') ->
  exists pre found t tr post, hist s' = hist s ++ pre ++ found ++ tr ++ post /\ signals pre /\ signals post /\
    (if hasTokenAttr cmd then tokenOnce s' = Done t /\ (tokenOnce s = NotYet /\ search mounts found t \/ tokenOnce s = Done t /\ found = [])
     else tokenOnce s' = tokenOnce s /\ found = [] /\ t = Ok None) /\
    match t with
    | Ok t => tries t cmd (withToken t a) tr r
    | Err e => tr = [] /\ r = Err e
    end.
Proof.
  intros mounts fuel cmd a s r s' W WS E. destruct (call_shape _ _ _ _ _ _ _ W WS E) as (pre & found & t & tr & post & A & B & C & D). exists pre, found, t, tr, post. split; auto.
  unfold before, after in *. destruct (masks cmd).
  - destruct B as (? & ? & ->). destruct C as (? & ? & ->). split; [repeat constructor|]. split; [repeat constructor|]. exact D.
  - subst. split; [constructor|]. split; [constructor|]. exact D.
Qed.

(** ** Looking for a token *)
Lemma opened_app fd h1 h2 : opened fd (h1 ++ h2) = (opened fd h1 + opened fd h2)%Z.
Proof.
  induction h1 as [|[c x] h1 IH]; [reflexivity|]. cbn [app]. unfold opened in *. cbn [fold_right]. rewrite IH. generalize (fold_right (fun (e : event) z => match e with
    | (COpen _, Ret v _) | (CDup _, Ret v _) => if (v =? fd)%N then z + 1 else z
    | (CBpf c _, Ret v _) => if ((c =? TOKEN_CREATE) || (c =? MAP_CREATE) || (c =? PROG_LOAD) || (c =? BTF_LOAD))%N then if (v =? fd)%N then z + 1 else z else z
    | (CClose v, _) => if (v =? fd)%N then z - 1 else z
    | _ => z end)%Z 0%Z). intros g. destruct c, x; repeat match goal with |- context[if ?b then _ else _] => destruct b end; lia.
Qed.
Lemma mountsOf_app h1 h2 : mountsOf (h1 ++ h2) = mountsOf h1 ++ mountsOf h2.
Proof. unfold mountsOf. apply flat_map_app. Qed.
Lemma attempt_facts m h r : attempt m h r -> mountsOf h = [m] /\ forall fd, opened fd h = match r with Ok t => if t_fd t =? fd then 1%Z else 0%Z | Err _ => 0%Z end.
Proof.
  intros A. split.
  - destruct A as [e|fs i h e x C|fs i h fd h' r x C D]; [reflexivity|inversion C; reflexivity|inversion C; inversion D; reflexivity].
  - intros f. destruct A as [e|fs i h e x C|fs i h fd h' r x C D]; [reflexivity| |].
    + inversion C; subst; cbn; repeat match goal with |- context[if ?b then _ else _] => destruct b end; lia.
    + inversion C; subst; inversion D; subst; cbn [app opened fold_right bpf_ t_fd]; cbn [TOKEN_CREATE OBJ_GET_INFO_BY_FD MAP_CREATE PROG_LOAD BTF_LOAD N.eqb Pos.eqb orb]; repeat match goal with |- context[if ?b then _ else _] => destruct b end; lia.
Qed.
(** The mounts are tried in order, each once; no descriptor stays open except that of the token. *)
Theorem C102_search : forall mounts h r, search mounts h r ->
  (exists n, mountsOf h = firstn n (match mounts with Some l => l | None => [] end)) /\
  forall fd, opened fd h = match r with Ok (Some t) => if t_fd t =? fd then 1%Z else 0%Z | _ => 0%Z end.
Proof.
  intros [l|] h r; cbn [search]; [|intros [-> ->]; split; [now exists O|reflexivity]]. induction 1 as [|m l h t A|m l h e A N|m l h e h' r A N S' [(n & IH1) IH2]].
  - split; [now exists O|reflexivity].
  - apply attempt_facts in A. destruct A as [A B]. split; [now exists 1%nat|exact B].
  - apply attempt_facts in A. destruct A as [A B]. split; [now exists 1%nat|exact B].
  - apply attempt_facts in A. destruct A as [A B]. split; [exists (S n); rewrite mountsOf_app, A, IH1; reflexivity|]. intros fd. now rewrite opened_app, B, IH2.
Qed.
(** A token is not 0, so that the kernel can tell it from none. *)
Theorem C102_nonzero : forall l h t, searched l h (Ok (Some t)) -> (forall e, In e h -> match e with (CDup _, Ret v _) => 0 < v | _ => True end) -> t_fd t <> 0.
Proof.
  intros l h t S'. remember (Ok (Some t)) as r eqn:R. induction S' as [|m l h t' A|m l h e A N|m l h e h' r A N S' IH]; try discriminate.
  - injection R as ->. intros F. inversion A as [| |fs i hc fd h' r x C D]; subst. inversion C; subst; inversion D; subst; cbn [t_fd]; auto; intros ->; specialize (F (CDup 0, Ret 0 j)); cbn in F; intuition lia.
  - intros F. apply IH; auto. intros y I. apply F. apply in_or_app. auto.
Qed.

(** ** Signals *)
Definition quiet (P : N -> Prop) (h : history) : Prop := Forall (fun e : event => ~ isSignal e /\ match fst e with CBpf c _ => P c | _ => True end) h.
Lemma quiet_search (P : N -> Prop) mounts h r : P TOKEN_CREATE -> P OBJ_GET_INFO_BY_FD -> search mounts h r -> quiet P h.
Proof.
  intros P1 P2. destruct mounts as [l|]; cbn [search]; [|intros [-> _]; constructor]. assert (A : forall m h r, attempt m h r -> quiet P h).
  { clear h r. intros m h r A. destruct A as [e|fs i h e x C|fs i h fd h' r x C D]; [|inversion C; subst|inversion C; subst; inversion D; subst]; repeat constructor; cbn; auto. }
  induction 1; try constructor; eauto. apply Forall_app. split; [eapply A; eauto|auto].
Qed.
Lemma quiet_tries t cmd a h r : tries t cmd a h r -> quiet (eq cmd) h.
Proof. intros (n & ans & -> & _). apply Forall_app. split; [|repeat constructor; cbn; auto]. apply Forall_forall. intros e I. apply repeat_spec in I. subst e. cbn. auto. Qed.
Lemma quiet_blocked P h b : quiet P h -> blocked b h = b.
Proof. revert b. induction h as [|[c x] h IH]; intros b F; [reflexivity|]. inversion F as [|? ? [Q _] F']; subst. unfold blocked in *. cbn [fold_left fst]. destruct c; cbn in Q; try tauto; apply IH; auto. Qed.
Lemma quiet_locked P h : quiet P h -> locked h = 0%Z.
Proof. induction h as [|[c x] h IH]; intros F; [reflexivity|]. inversion F as [|? ? [Q _] F']; subst. unfold locked in *. cbn [fold_right fst]. destruct c; cbn in Q; try tauto; apply IH; auto. Qed.
Lemma split_before {A} (e : A) l1 l2 mid post : l1 ++ e :: l2 = mid ++ post -> ~ In e post -> exists m2, mid = l1 ++ e :: m2.
Proof.
  revert mid. induction l1 as [|x l1 IH]; intros mid E N.
  - destruct mid as [|y mid]; [cbn in E; subst post; destruct N; now left|]. inversion E; subst. now exists mid.
  - destruct mid as [|y mid]; [cbn in E; subst post; destruct N; right; apply in_or_app; right; now left|]. inversion E; subst. destruct (IH mid) as [m2 ->]; auto. now exists m2.
Qed.
(** While a program is verified or run, the thread is locked and SIGPROF is blocked; afterwards neither, whatever the result is. Other commands don't change signals. *)
Theorem C102_signals : forall mounts fuel cmd a s r s', wfK -> wf s -> BPF K mounts fuel cmd a s = Some (r, s') ->
  exists h, hist s' = hist s ++ h /\ locked h = 0%Z /\
    (cmd = PROG_LOAD \/ cmd = PROG_RUN -> forall b, blocked b h = false) /\
    (cmd <> PROG_LOAD -> cmd <> PROG_RUN -> Forall (fun e => ~ isSignal e) h) /\
    forall h1 c x ans h2, h = h1 ++ (CBpf c x, ans) :: h2 -> c = PROG_LOAD \/ c = PROG_RUN -> (forall b, blocked b h1 = true) /\ locked h1 = 1%Z.
Proof.
  intros mounts fuel cmd a s r s' W WS E. destruct (call_shape _ _ _ _ _ _ _ W WS E) as (pre & found & t & tr & post & A & B & C & D & F). exists (pre ++ found ++ tr ++ post). split; auto.
  assert (Q : forall P : N -> Prop, P TOKEN_CREATE -> P OBJ_GET_INFO_BY_FD -> P cmd -> quiet P (found ++ tr)).
  { intros P P1 P2 P3. apply Forall_app. split.
    - destruct (hasTokenAttr cmd); [destruct D as (_ & [(_ & D)|(_ & ->)])|destruct D as (_ & -> & _)]; try constructor. eapply quiet_search; eauto.
    - destruct t as [t|e]; [|destruct F as [-> _]; constructor]. apply quiet_tries in F. eapply Forall_impl; [|exact F]. intros [c x] [Q1 Q2]. split; auto. cbn [fst] in *. destruct c; auto. now subst. }
  assert (MC : masks cmd = true <-> cmd = PROG_LOAD \/ cmd = PROG_RUN) by (unfold masks; now rewrite orb_true_iff, !N.eqb_eq).
  rewrite (app_assoc found). remember (found ++ tr) as mid eqn:M. clear M A D F E. specialize (Q (fun c => masks c = true -> masks cmd = true)). cbv beta in Q. assert (QM : quiet (fun c => masks c = true -> masks cmd = true) mid) by (apply Q; auto; intros; discriminate). clear Q.
  pose proof (quiet_locked _ _ QM) as L. assert (BL : forall b, blocked b mid = b) by (intros; eapply quiet_blocked; exact QM).
  unfold before, after in *. destruct (masks cmd).
  - destruct B as (x1 & x2 & ->). destruct C as (x3 & x4 & ->). split; [|split; [|split]].
    + unfold locked in *. rewrite !fold_right_app. cbn [fold_right fst]. cbn [app] in *. assert (G : forall z l, quiet (fun c => masks c = true -> true = true) l -> fold_right (fun (e : event) z => match fst e with CLock => z + 1 | CUnlock => z - 1 | _ => z end)%Z z l = z).
      { clear. intros z l. induction l as [|[c x] h IH]; intros F; [reflexivity|]. inversion F as [|? ? [Q _] F']; subst. cbn [fold_right fst]. destruct c; cbn in Q; try tauto; apply IH; auto. }
      rewrite G by exact QM. reflexivity.
    + intros _ b. unfold blocked in *. rewrite !fold_left_app. cbn [fold_left fst]. reflexivity.
    + intros N1 N2. exfalso. assert (T : cmd = PROG_LOAD \/ cmd = PROG_RUN) by now apply MC. tauto.
    + intros h1 c x ans h2 S1 MM. destruct h1 as [|e1 [|e2 h1]]; [discriminate|discriminate|]. injection S1 as <- <- S1. cbn [app] in S1. symmetry in S1. apply split_before in S1; [|cbn; intuition discriminate]. destruct S1 as [m2 ->].
      apply Forall_app in QM. destruct QM as [QM _]. split; [|].
      * intros b. unfold blocked. cbn [fold_left fst]. eapply quiet_blocked. exact QM.
      * unfold locked. cbn [fold_right fst]. pose proof (quiet_locked _ _ QM) as L'. unfold locked in L'. rewrite L'. reflexivity.
  - subst pre post. cbn [app]. rewrite app_nil_r. split; [exact L|]. split; [intros T; apply MC in T; discriminate|]. split.
    + intros _ _. eapply Forall_impl; [|exact QM]. now intros e [Q _].
    + intros h1 c x ans h2 -> MM. exfalso. apply Forall_app in QM. destruct QM as [_ QM]. inversion QM as [|? ? [_ Q] _]; subst. cbn [fst] in Q. assert (T : masks c = true) by (unfold masks; now rewrite orb_true_iff, !N.eqb_eq). specialize (Q T). discriminate.
Qed.

(** ** Many calls *)
Theorem C102_wf : forall mounts fuel cmd a s r s', wfK -> wf s -> BPF K mounts fuel cmd a s = Some (r, s') -> wf s'.
Proof.
  intros mounts fuel cmd a s r s' W WS E. unfold BPF, BPF_ in E. unfold bind at 1 in E.
  assert (EX : forall s2 s3 h, ext s2 s3 h -> wf s2 -> wf s3) by (intros s2 s3 h [_ X]; unfold wf; now rewrite X).
  assert (PO : forall s2 r2, wf s2 -> bind (if masks cmd then unmaskProfilerSignal K else ret tt) (fun _ => ret r2) s2 = Some (r, s') -> wf s').
  { intros s2 r2 W2 Q. unfold unmaskProfilerSignal, bind, do, ret in Q. destruct (masks cmd); inversion Q; subst; exact W2. }
  destruct ((if masks cmd then maskProfilerSignal K else ret tt) s) as [[u s1]|] eqn:P; [|discriminate].
  assert (W1 : wf s1) by (unfold maskProfilerSignal, bind, do, ret in P; destruct (masks cmd); inversion P; subst; exact WS). clear P.
  unfold bind at 1 in E. unfold tokenAttr in E. destruct (hasTokenAttr cmd).
  - unfold bind at 1 in E. destruct (getToken K mounts fuel s1) as [[t s2]|] eqn:GT; [|discriminate]. apply getToken_search in GT; [|exact W].
    assert (W2 : wf s2 /\ match t with Ok t => wfTok t | Err _ => True end).
    { destruct GT as [(O & ->)|(O & h & X & Y & Z & V)]; [split; auto; unfold wf in W1; now rewrite O in W1|]. split; auto. unfold wf. rewrite Y. destruct t; auto. }
    destruct W2 as [W2 W3]. destruct t as [t|e].
    + destruct t as [t|]; unfold ret at 1 in E; unfold bind at 1 in E; (destruct (loop K fuel _ cmd _ s2) as [[r3 s3]|] eqn:L; [|discriminate]); (apply loop_tries in L; [|exact W3]); destruct L as (h & L1 & _); (eapply PO; [|exact E]); eapply EX; eauto.
    + unfold ret at 1 in E. unfold bind at 1, ret at 1 in E. eapply PO; eauto.
  - unfold ret at 1 in E. unfold bind at 1 in E. destruct (loop K fuel None cmd a s1) as [[r3 s3]|] eqn:L; [|discriminate]. apply loop_tries in L; [|exact Logic.I]. destruct L as (tr & G1 & G2). eapply PO; [|exact E]. eapply EX; eauto.
Qed.
(** However many commands there are, the mounts are tried at most once, and all commands that take tokens use the result of that. *)
Theorem C102_once : forall mounts fuel l s rs s', wfK -> tokenOnce s = NotYet -> calls K mounts fuel l s = Some (rs, s') ->
  exists h n, hist s' = hist s ++ h /\ mountsOf h = firstn n (match mounts with Some l => l | None => [] end) /\
    exists t, (tokenOnce s' = NotYet \/ tokenOnce s' = Done t) /\ forall c x ans, In (CBpf c x, ans) h -> hasTokenAttr c = true -> exists y, In (c, y) l /\ exists u, t = Ok u /\ x = withToken u y.
Proof.
  intros mounts fuel l s rs s' W NY E.
  assert (MT : forall t cmd a h r, tries t cmd a h r -> mountsOf h = []).
  { intros t cmd a h r (n & ans & -> & _). rewrite mountsOf_app. cbn. rewrite app_nil_r. induction n; auto. }
  assert (MS : forall cmd h, before cmd h \/ after cmd h -> mountsOf h = []) by (unfold before, after; intros cmd h [Q|Q]; destruct (masks cmd); [destruct Q as (? & ? & ->)|subst|destruct Q as (? & ? & ->)|subst]; reflexivity).
  assert (TT : forall t cmd a h r c x ans, tries t cmd a h r -> In (CBpf c x, ans) h -> c = cmd /\ x = a).
  { intros t cmd a h r c x ans (n & an & -> & _) I. apply in_app_or in I. destruct I as [I|[I|[]]]; [apply repeat_spec in I|]; inversion I; auto. }
  assert (TS : forall cmd h c x ans, before cmd h \/ after cmd h -> ~ In (CBpf c x, ans) h) by (unfold before, after; intros cmd h c x ans [Q|Q]; destruct (masks cmd); [destruct Q as (? & ? & ->)|subst|destruct Q as (? & ? & ->)|subst]; cbn; intuition discriminate).
  (* when it is done *)
  assert (A : forall t l s rs s', wf s -> tokenOnce s = Done t -> calls K mounts fuel l s = Some (rs, s') -> exists h, hist s' = hist s ++ h /\ mountsOf h = [] /\ tokenOnce s' = Done t /\
     forall c x ans, In (CBpf c x, ans) h -> hasTokenAttr c = true -> exists y, In (c, y) l /\ exists u, t = Ok u /\ x = withToken u y).
  { clear l s rs s' NY E. intros t l. induction l as [|[c a] l IH]; intros s rs s' WS D E; cbn [calls] in E.
    - inversion E; subst. exists []. rewrite app_nil_r. easy.
    - unfold bind in E. destruct (BPF K mounts fuel c a s) as [[r s1]|] eqn:B; [|discriminate]. pose proof (C102_wf _ _ _ _ _ _ _ W WS B) as W1. destruct (call_shape _ _ _ _ _ _ _ W WS B) as (pre & found & t' & tr & post & H1 & H2 & H3 & H4 & H5). clear B.
      destruct (calls K mounts fuel l s1) as [[rs1 s2]|] eqn:C; [|discriminate]. inversion E; subst; clear E.
      assert (FT : found = [] /\ tokenOnce s1 = Done t /\ (hasTokenAttr c = true -> t' = t)).
      { destruct (hasTokenAttr c); [destruct H4 as (H4 & [(Q & _)|(Q & ->)]); [congruence|rewrite H4, <- Q, D; split; [auto|split; [auto|congruence]]]|destruct H4 as (H4 & -> & _); rewrite H4; auto]. split; auto. split; auto. discriminate. }
      destruct FT as (-> & FT & TE). destruct (IH _ _ _ W1 FT C) as (h & K1 & K2 & K3 & K4). exists ((pre ++ [] ++ tr ++ post) ++ h). split; [rewrite K1, H1; symmetry; apply app_assoc|]. split.
      + rewrite !mountsOf_app, K2, (MS c pre), (MS c post) by auto. destruct t'; [now rewrite (MT _ _ _ _ _ H5)|]. now destruct H5 as [-> _].
      + split; auto. intros c' x ans I TA. apply in_app_or in I. destruct I as [I|I]; [|destruct (K4 _ _ _ I TA) as (y & Y1 & Y2); exists y; split; [now right|auto]].
        rewrite !in_app_iff in I. destruct I as [I|[[]|[I|I]]]; try solve [exfalso; eapply TS; [|exact I]; eauto].
        destruct t' as [u|]; [|destruct H5 as [-> _]; easy]. destruct (TT _ _ _ _ _ _ _ _ H5 I) as [-> ->]. exists a. split; [now left|]. exists u. split; auto. symmetry. auto. }
  (* before *)
  revert s rs s' NY E. induction l as [|[c a] l IH]; intros s rs s' NY E.
  - cbn [calls] in E. inversion E; subst. exists [], O. rewrite app_nil_r. split; auto. split; auto. exists (Ok None). split; auto. easy.
  - cbn [calls] in E. unfold bind in E. assert (WS : wf s) by (unfold wf; now rewrite NY). destruct (BPF K mounts fuel c a s) as [[r s1]|] eqn:B; [|discriminate]. pose proof (C102_wf _ _ _ _ _ _ _ W WS B) as W1.
    destruct (call_shape _ _ _ _ _ _ _ W WS B) as (pre & found & t' & tr & post & H1 & H2 & H3 & H4 & H5). clear B. destruct (calls K mounts fuel l s1) as [[rs1 s2]|] eqn:C; [|discriminate]. inversion E; subst; clear E.
    destruct (hasTokenAttr c) eqn:TA.
    + destruct H4 as (H4 & [(_ & SE)|(Q & _)]); [|congruence]. destruct (A t' l _ _ _ W1 H4 C) as (h & K1 & K2 & K3 & K4). destruct (C102_search _ _ _ SE) as [(n & MO) _].
      exists ((pre ++ found ++ tr ++ post) ++ h), n. split; [rewrite K1, H1; symmetry; apply app_assoc|]. split.
      * rewrite !mountsOf_app, K2, (MS c pre), (MS c post) by auto. replace (mountsOf tr) with (@nil (list nat)) by (symmetry; destruct t'; [exact (MT _ _ _ _ _ H5)|now destruct H5 as [-> _]]). cbn [app]. now rewrite !app_nil_r.
      * exists t'. split; auto. intros c' x ans I TA'. apply in_app_or in I. destruct I as [I|I]; [|destruct (K4 _ _ _ I TA') as (y & Y1 & Y2); exists y; split; [now right|auto]].
        rewrite !in_app_iff in I. destruct I as [I|[I|[I|I]]]; try solve [exfalso; eapply TS; [|exact I]; eauto].
        -- exfalso. apply (quiet_search (fun c => hasTokenAttr c = false)) in SE; [|reflexivity|reflexivity]. unfold quiet in SE. rewrite Forall_forall in SE. apply SE in I. cbn [fst] in I. destruct I as [_ I]. congruence.
        -- destruct t' as [u|]; [|destruct H5 as [-> _]; easy]. destruct (TT _ _ _ _ _ _ _ _ H5 I) as [-> ->]. exists a. split; [now left|]. exists u. auto.
    + destruct H4 as (H4 & -> & ->). rewrite NY in H4. destruct (IH _ _ _ H4 C) as (h & n & K1 & K2 & t & K3 & K4). exists ((pre ++ [] ++ tr ++ post) ++ h), n. split; [rewrite K1, H1; symmetry; apply app_assoc|]. split.
      * rewrite !mountsOf_app, K2, (MS c pre), (MS c post), (MT _ _ _ _ _ H5) by auto. reflexivity.
      * exists t. split; auto. intros c' x ans I TA'. apply in_app_or in I. destruct I as [I|I]; [|destruct (K4 _ _ _ I TA') as (y & Y1 & Y2); exists y; split; [now right|auto]].
        rewrite !in_app_iff in I. destruct I as [I|[[]|[I|I]]]; try solve [exfalso; eapply TS; [|exact I]; eauto]. destruct (TT _ _ _ _ _ _ _ _ H5 I) as [-> _]. congruence.
Qed.

(** A call returns, unless the verifier is interrupted again and again: looking for a token doesn't wait for itself. *)
Definition interruptions (n : nat) : Prop := forall h a, exists k, (k < n)%nat /\ K (h ++ repeat (CBpf PROG_LOAD a, Fail EAGAIN) k) (CBpf PROG_LOAD a) <> Fail EAGAIN.
Definition total {A} (m : M A) : Prop := forall s, wf s -> exists r s', m s = Some (r, s') /\ wf s'.
Lemma tryMounts_returns fuel l s : exists r s', tryMounts K (S fuel) l s = Some (r, s').
Proof.
  revert s. induction l as [|m l IH]; intros s; cbn [tryMounts]; [unfold ret; eauto|]. unfold bind at 1.
  assert (T : exists r s', newToken K (S fuel) m s = Some (r, s')).
  { unfold newToken. unfold bind at 1, do at 1. destruct (K (hist s) (COpen m)) as [fs i|e]; [|unfold ret; eauto]. unfold bind at 1. rewrite plain by auto. destruct (answered _) as [[v j]|e]; [|unfold bind, ret, do; eauto].
    unfold bind at 1. assert (N : exists r s', NewFD K v (St (hist (St (hist s ++ [(COpen m, Ret fs i)]) (tokenOnce s)) ++ [(CBpf TOKEN_CREATE (Attr 0 0 0 0 [fs]), K (hist (St (hist s ++ [(COpen m, Ret fs i)]) (tokenOnce s))) (CBpf TOKEN_CREATE (Attr 0 0 0 0 [fs])))]) (tokenOnce (St (hist s ++ [(COpen m, Ret fs i)]) (tokenOnce s)))) = Some (r, s')) by (unfold NewFD, bind, do, ret; destruct (v =? 0); eauto).
    destruct N as (f & s2 & ->). destruct f as [fd|e]; [|unfold bind, ret, do; eauto]. unfold bind at 1. unfold bind at 1. rewrite plain by auto. destruct (answered _) as [[w k]|e]; [unfold bind, ret, do; eauto|]. unfold bind, ret, do. destruct (isErrno e EINVAL); eauto. }
  destruct T as (r & s1 & ->). destruct r as [t|e]; [unfold ret; eauto|]. destruct (skips e); [apply IH|unfold ret; eauto].
Qed.
Lemma loop_returns n t cmd a s : (cmd = PROG_LOAD -> interruptions n) -> n <> O -> exists r s', loop K n t cmd a s = Some (r, s').
Proof.
  intros I N0. destruct (N.eqb_spec cmd PROG_LOAD) as [->|N].
  - destruct (I eq_refl (hist s) a) as (k & L & E). clear I N0. revert n s L E. induction k as [|k IH]; intros [|n] s L E; try lia; cbn [loop]; unfold bind at 1, do at 1.
    + cbn [repeat] in E. rewrite app_nil_r in E. destruct (K (hist s) _) as [v i|e]; [unfold ret; eauto|]. destruct (N.eqb_spec e EAGAIN) as [->|NE]; [congruence|]. cbn [andb]. unfold ret. destruct t as [t|]; eauto. destruct (e =? EPERM); eauto. destruct (t_info t); eauto. destruct (capable _ _ _); eauto.
    + destruct (K (hist s) _) as [v i|e] eqn:A; [unfold ret; eauto|]. destruct (N.eqb_spec e EAGAIN) as [->|NE].
      * cbn [andb N.eqb Pos.eqb PROG_LOAD]. apply IH; [lia|]. cbn [hist]. rewrite <- app_assoc. exact E.
      * cbn [andb]. unfold ret. destruct t as [t|]; eauto. destruct (e =? EPERM); eauto. destruct (t_info t); eauto. destruct (capable _ _ _); eauto.
  - destruct n as [|n]; [easy|]. cbn [loop]. unfold bind at 1, do at 1. apply N.eqb_neq in N. rewrite N. destruct (K (hist s) _) as [v i|e]; [unfold ret; eauto|]. rewrite andb_false_r. unfold ret. destruct t as [t|]; eauto. destruct (e =? EPERM); eauto. destruct (t_info t); eauto. destruct (capable _ _ _); eauto.
Qed.
Theorem C102_returns : forall mounts n cmd a s, wf s -> n <> O -> (cmd = PROG_LOAD -> interruptions n) -> exists r s', BPF K mounts n cmd a s = Some (r, s').
Proof.
  intros mounts n cmd a s WS N0 I. unfold BPF, BPF_. unfold bind at 1.
  assert (P : exists s1, (if masks cmd then maskProfilerSignal K else ret tt) s = Some (tt, s1) /\ tokenOnce s1 = tokenOnce s) by (unfold maskProfilerSignal, bind, do, ret; destruct (masks cmd); eexists; split; reflexivity).
  destruct P as (s1 & -> & TO). unfold bind at 1.
  assert (T : exists r s2, tokenAttr (getToken K mounts n) cmd a s1 = Some (r, s2)).
  { unfold tokenAttr. destruct (hasTokenAttr cmd); [|unfold ret; eauto]. unfold bind. assert (G : exists r s2, getToken K mounts n s1 = Some (r, s2)); [|destruct G as (r & s2 & ->); destruct r as [[t|]|e]; unfold ret; eauto].
    unfold getToken. rewrite TO. unfold wf in WS. destruct (tokenOnce s) as [| |r]; [|easy|eauto]. destruct mounts as [l|]; cbn [findToken]; [|unfold ret; eauto]. destruct n as [|n]; [easy|]. destruct (tryMounts_returns n l (St (hist s1) Running)) as (r & s2 & ->). eauto. }
  destruct T as (r & s2 & ->). unfold bind at 1. assert (L : exists r' s3, match r with Err e => ret (Err e) | Ok (t, a0) => loop K n t cmd a0 end s2 = Some (r', s3)).
  { destruct r as [[t a']|e]; [apply loop_returns; auto|unfold ret; eauto]. }
  destruct L as (r' & s3 & ->). unfold unmaskProfilerSignal, bind, do, ret. destruct (masks cmd); eauto.
Qed.
Theorem C102_init : wf (St [] NotYet).
Proof. exact Logic.I. Qed.
End K.

(** ** Sets of signals *)
Lemma nth_setWord set n k f : (n < length set)%nat -> nth k (setWord set n f) 0 = if (k =? n)%nat then f (nth n set 0) else nth k set 0.
Proof. revert n k. induction set as [|x set IH]; intros [|n] [|k] L; cbn in *; try lia; auto. apply IH. lia. Qed.
Lemma length_setWord set n f : length (setWord set n f) = length set.
Proof. revert n. induction set; intros [|n]; cbn; auto. Qed.
(** A signal that fits is added, and no other; others are refused. *)
Theorem C102_sigset : forall w set signal, 0 < w ->
  match sigsetAdd w set signal with
  | Some set' => (1 <= signal <= Z.of_N w * Z.of_nat (length set))%Z /\ length set' = length set /\ forall x, 1 <= x -> member w set' x = member w set x || (x =? Z.to_N signal)
  | None => (signal < 1 \/ signal > Z.of_N w * Z.of_nat (length set))%Z
  end.
Proof.
  intros w set signal W. unfold sigsetAdd. destruct (Z.ltb_spec signal 1) as [|G]; [auto|]. set (b := Z.to_N (signal - 1)). assert (B : signal = (Z.of_N b + 1)%Z) by (unfold b; rewrite Z2N.id; lia).
  assert (ZM : (Z.of_N w * Z.of_nat (length set) = Z.of_N (w * N.of_nat (length set)))%Z) by (rewrite N2Z.inj_mul, nat_N_Z; reflexivity).
  pose proof (N.div_mod b w ltac:(lia)) as DM. pose proof (N.mod_lt b w ltac:(lia)) as ML. destruct (N.leb_spec (N.of_nat (length set)) (b / w)) as [H|H].
  - right. rewrite B. pose proof (N.mul_le_mono_l _ _ w H) as ML1. rewrite ZM. clearbody b. clear - ML1 DM; revert ML1 DM; generalize (b mod w) (w * (b / w)) (w * N.of_nat (length set)); intros; lia.
  - pose proof (N.mul_le_mono_l (b / w + 1) (N.of_nat (length set)) w ltac:(lia)) as ML2. rewrite N.mul_add_distr_l in ML2. split; [rewrite ZM; clearbody b; clear - ML2 DM ML B G; rewrite N.mul_1_r in ML2; generalize dependent (w * (b / w)); generalize dependent (b mod w); generalize (w * N.of_nat (length set)); intros; lia|]. split; [apply length_setWord|]. intros x X. unfold member. rewrite nth_setWord by lia.
    replace (x =? Z.to_N signal) with (x - 1 =? b) by (destruct (N.eqb_spec (x - 1) b), (N.eqb_spec x (Z.to_N signal)); auto; lia).
    pose proof (N.div_mod (x - 1) w ltac:(lia)) as DX. pose proof (N.mod_lt (x - 1) w ltac:(lia)) as MX. destruct (Nat.eqb_spec (N.to_nat ((x - 1) / w)) (N.to_nat (b / w))) as [E|E].
    + apply N2Nat.inj in E. rewrite E. rewrite N.lor_spec, N.shiftl_1_l. f_equal. destruct (N.eqb_spec (x - 1) b) as [->|NE]; [apply N.pow2_bits_true|]. apply N.pow2_bits_false. intros Q. apply NE. rewrite E in DX. lia.
    + destruct (N.eqb_spec (x - 1) b) as [Q|NE]; [congruence|]. now rewrite orb_false_r.
Qed.

(** ** Examples *)
(** Two mounts: the first one refuses; the second one gives descriptor 0, which is replaced by 7. The token allows making maps of type 1 only. A map of type 1 is made; one of type 2 isn't permitted. *)
Definition info : tokinfo := TokInfo 1 2 0 0.
Definition kernel1 : kernel := fun h c => match c with
  | COpen [1%nat] => Fail EACCES
  | COpen _ => Ret 3 info
  | CBpf 36 _ => Ret 0 info
  | CDup _ => Ret 7 info
  | CBpf 15 _ => Ret 0 info
  | CBpf 0 a => if a_type a =? 1 then Ret 9 info else Fail EPERM
  | CBpf 5 _ => if (length h <? 14)%nat then Fail EAGAIN else Ret 10 info
  | _ => Ret 0 info
  end.
Theorem C102_example : wfK kernel1 /\ interruptions kernel1 15 /\
  match calls kernel1 (Some [[1%nat]; [2%nat]; [3%nat]]) 15 [(0, Attr 0 4 1 0 []); (0, Attr 0 0 2 0 []); (5, Attr 0 0 0 0 [])] (St [] NotYet) with
  | Some (rs, s') => rs = [Ok (9, info); Err (ECaps EPERM); Ok (10, info)] /\ tokenOnce s' = Done (Ok (Some (Tok 7 (Some info)))) /\ length (hist s') = 17%nat
  | None => False
  end.
Proof.
  split; [|split].
  - assert (WI : wfInfo info) by (repeat split; cbn; lia). intros h c v i E. assert (Q : i = info); [|now rewrite Q]. unfold kernel1 in E.
    repeat (match type of E with context[match ?x with _ => _ end] => destruct x end; try congruence); congruence.
  - intros h a. exists 14%nat. split; [lia|]. unfold kernel1, PROG_LOAD. rewrite app_length, repeat_length. destruct (Nat.ltb_spec (length h + 14) 14); [lia|discriminate].
  - vm_compute. repeat split.
Qed.
(** If at the first try there are no more descriptors (EMFILE), programs can't be loaded by this process ever after, although later the kernel would load them. *)
Theorem C102_cached_refuted : let K : kernel := fun h c => match h, c with [_; _], COpen _ => Fail 24 | _, _ => Ret 3 info end in
  forall a a', match calls K (Some [[1%nat]]) 9 [(PROG_LOAD, a); (PROG_LOAD, a')] (St [] NotYet) with
  | Some (rs, s') => rs = [Err (EErrno 24); Err (EErrno 24)]
  | None => False
  end.
Proof. intros K a a'. reflexivity. Qed.
(** If /proc isn't mounted, no program is loaded, token or not, and the kernel isn't asked. *)
Theorem C102_noproc_refuted : forall K n a s, tokenOnce s = NotYet -> exists s' h, BPF K None (S n) PROG_LOAD a s = Some (Err EOther, s') /\ hist s' = hist s ++ h /\ forall c x ans, ~ In (CBpf c x, ans) h.
Proof.
  intros K n a [h o] N. cbn in N. subst o. do 2 eexists. split; [reflexivity|]. cbn [hist]. rewrite <- !app_assoc. split; [reflexivity|]. cbn. intuition discriminate.
Qed.
(** If SIGPROF was blocked before a program is loaded, it no longer is. *)
Theorem C102_unblocks_refuted : forall K n cmd a s r s', wfK K -> wf s -> BPF K (Some []) n cmd a s = Some (r, s') -> cmd = PROG_LOAD -> exists h, hist s' = hist s ++ h /\ blocked true h = false.
Proof.
  intros K n cmd a s r s' W WS E C. destruct (C102_signals K _ _ _ _ _ _ _ W WS E) as (h & A & _ & B & _). exists h. split; auto.
Qed.

Print Assumptions C102_call.
Print Assumptions C102_search.
Print Assumptions C102_nonzero.
Print Assumptions C102_signals.
Print Assumptions C102_wf.
Print Assumptions C102_once.
Print Assumptions C102_returns.
Print Assumptions C102_init.
Print Assumptions C102_sigset.
Print Assumptions C102_example.
Print Assumptions C102_cached_refuted.
Print Assumptions C102_noproc_refuted.
Print Assumptions C102_unblocks_refuted.
