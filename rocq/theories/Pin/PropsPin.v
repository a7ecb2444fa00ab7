(** C89: pins of maps, programs and links *)
From Verif Require Import Base.GoInt Pin.Pin Pin.PinSpec.
Open Scope Z_scope.

Lemma path_eqb_eq a b : path_eqb a b = true <-> a = b.
Proof. unfold path_eqb. destruct (list_eq_dec Z.eq_dec a b); split; congruence. Qed.
Lemma path_eqb_refl a : path_eqb a a = true. Proof. apply path_eqb_eq; auto. Qed.
Lemma set_same {B} (f : path -> B) p b : set f p b p = b.
Proof. unfold set. rewrite path_eqb_refl. auto. Qed.
Lemma set_other {B} (f : path -> B) p b q : q <> p -> set f p b q = f q.
Proof. unfold set. intros N. destruct (path_eqb q p) eqn:E; auto. apply path_eqb_eq in E. congruence. Qed.

Section Kernel.
Variable bpffs : path -> bool.
Variable devmapRO : bool.
Notation runs := (runs bpffs devmapRO).
Notation kstep := (kstep bpffs devmapRO).
Notation kexec := (kexec bpffs devmapRO).
Notation exec := (exec bpffs devmapRO).

Lemma runs_ret {A} t (a : A) w b w' : runs t (Ret a) w b w' -> b = a /\ w' = w.
Proof. intros H. inversion H; auto. Qed.
Lemma runs_call {A} t c (f : rsp -> prog A) w a w' : runs t (Call c f) w a w' -> exists w1 r, kstep w t c w1 r /\ runs t (f r) w1 a w'.
Proof. intros H. inversion H; subst. eauto. Qed.
Lemma runs_bind {A B} t (m : prog A) (f : A -> prog B) : forall w b w', runs t (bind m f) w b w' -> exists a w1, runs t m w a w1 /\ runs t (f a) w1 b w'.
Proof.
  induction m as [a|c g IH]; intros w b w' H.
  - exists a, w. split; auto. constructor.
  - cbn in H. apply runs_call in H. destruct H as (w1 & r & K & H). destruct (IH _ _ _ _ H) as (a & w2 & H1 & H2). exists a, w2. split; auto. econstructor; eauto.
Qed.

(** What [pinAt], [Pin] and [Unpin] do *)
Lemma pinAt_runs t p o w r w' : runs t (pinAt p o) w r w' ->
  match r with
  | None => fs w p = None /\ w' = withFs w (set (fs w) p (Some o))
  | Some _ => w' = w
  end.
Proof.
  unfold pinAt. intros H. apply runs_call in H. destruct H as (w1 & x & K & H). apply runs_ret in H. destruct H as (-> & ->).
  destruct K as [K|(e & F & -> & ->)]; auto. cbn in K. destruct (fs w p); injection K as <- <-; auto.
Qed.
Lemma Pin_runs t cur new o w r w' : runs t (Pin cur new o) w r w' ->
  match r with
  | None => new <> [] /\ (cur = new /\ w' = w \/ cur <> new /\ bpffs new = true /\ fs w new = None /\
      match cur, fs w cur with
      | [], _ | _, None => w' = withFs w (set (fs w) new (Some o))
      | _, Some x => w' = withFs w (set (set (fs w) cur None) new (Some x))
      end)
  | Some _ => w' = w
  end.
Proof.
  intros H. unfold Pin in H. destruct new as [|c new'] eqn:EN.
  { apply runs_ret in H. destruct H as (-> & ->). auto. }
  rewrite <- EN in *. assert (NE : new <> []) by (rewrite EN; discriminate).
  destruct (path_eqb cur new) eqn:PE.
  { apply path_eqb_eq in PE. apply runs_ret in H. destruct H as (-> & ->). auto. }
  assert (CN : cur <> new) by (intros X; apply path_eqb_eq in X; congruence).
  apply runs_call in H. destruct H as (w1 & x & K & H).
  assert (w1 = w /\ (x = RBool (bpffs new) \/ exists e, x = RErr e)) as (-> & X).
  { destruct K as [K|(e & F & -> & ->)]; [cbn in K; injection K as <- <-|]; eauto. }
  destruct X as [-> | (e & ->)].
  2:{ apply runs_ret in H. destruct H as (-> & ->). auto. }
  destruct (bpffs new) eqn:BP.
  2:{ apply runs_ret in H. destruct H as (-> & ->). auto. }
  destruct cur as [|c0 cur'] eqn:EC.
  { apply pinAt_runs in H. destruct r; auto. }
  rewrite <- EC in *.
  clear K; apply runs_call in H. destruct H as (w1 & x & K & H).
  assert (FIN : match fs w cur with None => x = RErr ENOENT /\ w1 = w \/ exists e, x = RErr e /\ w1 = w /\ e <> ENOENT
     | Some y => (fs w new = None /\ x = ROk /\ w1 = withFs w (set (set (fs w) cur None) new (Some y))) \/ exists e, x = RErr e /\ w1 = w /\ e <> ENOENT end).
  { destruct K as [K|(e & F & -> & ->)].
    - cbn in K. destruct (fs w cur) as [y|]; [|injection K as <- <-; auto]. destruct (fs w new); injection K as <- <-; [right; exists EEXIST; repeat split; auto; discriminate|left; auto].
    - destruct (fs w cur); right; exists e; cbn in F; repeat split; auto; destruct F; subst; discriminate. }

  destruct (fs w cur) as [y|] eqn:FC.
  - destruct FIN as [(F1 & -> & ->)|(e & -> & -> & NE')].
    + apply runs_ret in H. destruct H as (-> & ->). split; [exact NE|]. right. split; [exact CN|]. split; [auto|]. split; [auto|]. rewrite EC. auto.
    + assert (runs t (Ret (Some (Errno e))) w r w') as H' by (destruct e; auto; easy). apply runs_ret in H'. destruct H' as (-> & ->). auto.
  - destruct FIN as [(-> & ->)|(e & -> & -> & NE')].
    + apply pinAt_runs in H. destruct r; [exact H|]. destruct H as (H1 & H2). split; [exact NE|]. right. split; [exact CN|]. split; [auto|]. split; [auto|]. auto.
    + assert (runs t (Ret (Some (Errno e))) w r w') as H' by (destruct e; auto; easy). apply runs_ret in H'. destruct H' as (-> & ->). auto.
Qed.
Lemma Unpin_runs t p w r w' : runs t (Unpin p) w r w' ->
  match r with
  | None => p = [] /\ w' = w \/ p <> [] /\ (fs w p = None /\ w' = w \/ w' = withFs w (set (fs w) p None))
  | Some _ => w' = w
  end.
Proof.
  unfold Unpin. intros H. destruct p as [|c p'] eqn:EP.
  { apply runs_ret in H. destruct H as (-> & ->). auto. }
  rewrite <- EP in *. assert (p <> []) by (rewrite EP; discriminate).
  apply runs_call in H. destruct H as (w1 & x & K & H). apply runs_ret in H. destruct H as (-> & ->).
  destruct K as [K|(e & F & -> & ->)].
  - cbn in K. destruct (fs w p); injection K as <- <-; auto.
  - destruct F as [-> | ->]; auto.
Qed.

(** Pinning: the object is at the new path, no longer at the old one, and nowhere else; nothing was
    replaced. A failure changes nothing. *)
Theorem C89_pin : forall t h p w h' r w', synced h w -> runs t (MapPin h p) w (h', r) w' ->
  match r with
  | None => p <> [] /\ h' = withPath h p /\ fs w' p = Some (h_obj h) /\ (p <> h_path h -> fs w p = None) /\
      (forall q, q <> p -> fs w' q = if path_eqb q (h_path h) then if IsPinned h then None else fs w q else fs w q) /\
      objs w' = objs w /\ fds w' = fds w
  | Some _ => h' = h /\ w' = w
  end.
Proof.
  intros t h p w h' r w' S H. unfold MapPin in H. apply runs_bind in H. destruct H as (x & w1 & H1 & H2). apply runs_ret in H2. destruct H2 as (E & ->).
  apply Pin_runs in H1. destruct x as [e|]; injection E as -> ->; [auto|]. destruct H1 as (NE & H1). split; auto. split; auto.
  destruct H1 as [(<- & ->)|(CN & BP & FN & H1)].
  - destruct S as [S|S]; [congruence|]. split; auto. split; [congruence|]. split; auto. intros q Q. destruct (path_eqb q (h_path h)) eqn:X; auto. apply path_eqb_eq in X. congruence.
  - unfold IsPinned. destruct (h_path h) as [|c pt] eqn:HP.
    + rewrite H1. cbn. split; [apply set_same|]. split; auto. split; auto. intros q Q. rewrite set_other by auto. destruct (path_eqb q []); auto.
    + rewrite <- HP in *. destruct S as [S|S]; [congruence|]. rewrite S in H1. rewrite H1. cbn. split; [apply set_same|]. split; auto. split; auto. intros q Q. rewrite set_other by auto. unfold set.
      destruct (path_eqb q (h_path h)); auto.
Qed.
(** It succeeds unless the path is empty, not on a bpf file system or taken. *)
Theorem C89_pin_complete : forall t h p w, synced h w ->
  (snd (snd (exec t (MapPin h p) w)) = None <-> p <> [] /\ (p = h_path h \/ bpffs p = true /\ fs w p = None)).
Proof.
  intros t h p w S. unfold MapPin, Pin. destruct p as [|c p'] eqn:EP.
  { cbn. split; [discriminate|]. intros (X & _). easy. }
  rewrite <- EP. assert (NE : p <> []) by (rewrite EP; discriminate).
  destruct (path_eqb (h_path h) p) eqn:PE.
  { apply path_eqb_eq in PE. cbn. split; auto. }
  assert (CN : h_path h <> p) by (intros X; apply path_eqb_eq in X; congruence).
  cbn. destruct (bpffs p); cbn.
  2:{ split; [discriminate|]. intros (_ & [X|(X & _)]); congruence. }
  destruct (h_path h) as [|c0 q] eqn:HP.
  - cbn. destruct (fs w p); cbn; (split; [try discriminate; auto|intros (_ & [X|(_ & X)]); congruence]).
  - cbn. rewrite <- HP in *. destruct S as [S|S]; [congruence|]. rewrite S. destruct (fs w p); cbn; (split; [try discriminate; auto|intros (_ & [X|(_ & X)]); congruence]).
Qed.
(** Unpinning removes the pin, and nothing else. *)
Theorem C89_unpin : forall t h w h' r w', runs t (MapUnpin h) w (h', r) w' ->
  match r with
  | None => h' = withPath h [] /\ IsPinned h' = false /\
      (forall q, fs w' q = if path_eqb q (h_path h) then if IsPinned h then None else fs w q else fs w q) /\ objs w' = objs w /\ fds w' = fds w
  | Some _ => h' = h /\ w' = w
  end.
Proof.
  intros t h w h' r w' H. unfold MapUnpin in H. apply runs_bind in H. destruct H as (x & w1 & H1 & H2). apply runs_ret in H2. destruct H2 as (E & ->).
  apply Unpin_runs in H1. destruct x as [e|]; injection E as -> ->; [auto|]. split; auto. split; auto. unfold IsPinned.
  destruct H1 as [(HP & ->)|(HP & [(FN & ->)| ->])].
  - rewrite HP. split; auto. intros q. destruct (path_eqb q []); auto.
  - destruct (h_path h) eqn:X; [easy|]. rewrite <- X in *. split; auto. intros q. destruct (path_eqb q (h_path h)) eqn:Q; auto. apply path_eqb_eq in Q. congruence.
  - destruct (h_path h) eqn:X; [easy|]. rewrite <- X in *. cbn. split; auto.
Qed.
(** Any use of a handle keeps the recorded path right; apart from its pin, nothing changes. *)
Theorem C89_uses : forall t us h w h' w', uses bpffs devmapRO t h w us h' w' -> synced h w -> fs w [] = None ->
  synced h' w' /\ h_obj h' = h_obj h /\ fs w' [] = None /\
  forall q, (if path_eqb q (h_path h') then None else fs w' q) = (if path_eqb q (h_path h) then None else fs w q).
Proof.
  intros t us. induction us as [|u us IH]; intros h w h' w' H S Z; inversion H as [|? ? ? ? h1 r w1 ? ? H4 H6]; subst; auto.
  assert (M : synced h1 w1 /\ h_obj h1 = h_obj h /\ fs w1 [] = None /\ forall q, (if path_eqb q (h_path h1) then None else fs w1 q) = (if path_eqb q (h_path h) then None else fs w q)).
  { destruct u as [p|]; cbn in H4.
    - apply C89_pin in H4; auto. destruct r; [destruct H4 as (-> & ->); auto|].
      destruct H4 as (P1 & -> & P2 & P3 & P4 & _).
      assert (F : forall q, q <> p -> fs w1 q = if path_eqb q (h_path h) then None else fs w q).
      { intros q Q. rewrite P4 by auto. unfold IsPinned. destruct (path_eqb q (h_path h)) eqn:X; auto. apply path_eqb_eq in X. destruct (h_path h); auto. subst; auto. }
      split; [right; exact P2|]. split; auto. split; [rewrite F by auto; destruct (path_eqb [] (h_path h)); auto|].
      intros q. cbn [h_path withPath]. destruct (path_eqb q p) eqn:X; [apply path_eqb_eq in X; subst q|].
      + destruct (path_eqb p (h_path h)) eqn:Y; auto. symmetry. apply P3. intros E. rewrite E, path_eqb_refl in Y. discriminate.
      + apply F. intros ->. rewrite path_eqb_refl in X. discriminate.
    - apply C89_unpin in H4. destruct r; [destruct H4 as (-> & ->); auto|].
      destruct H4 as (-> & _ & P & _).
      assert (F : forall q, fs w1 q = if path_eqb q (h_path h) then None else fs w q).
      { intros q. rewrite P. unfold IsPinned. destruct (path_eqb q (h_path h)) eqn:X; auto. apply path_eqb_eq in X. destruct (h_path h); auto. subst; auto. }
      split; [left; auto|]. split; auto. split; [rewrite F; destruct (path_eqb [] (h_path h)); auto|].
      intros q. cbn [h_path withPath]. rewrite F. destruct (path_eqb q []) eqn:X; auto. apply path_eqb_eq in X. subst. destruct (path_eqb [] (h_path h)); auto. }
  destruct M as (M1 & M2 & M3 & M4). destruct (IH _ _ _ _ H6 M1 M3) as (I1 & I2 & I3 & I4). split; auto. split; [congruence|]. split; auto. intros q. rewrite I4. auto.
Qed.

(** Loading a pin gives a handle whose path is recorded. *)
Lemma ObjGetTyped_runs t p w r w' : runs t (ObjGetTyped p) w r w' ->
  objs w' = objs w /\ fs w' = fs w /\
  match r with
  | Ok (fd, o, b) => fs w p = Some o /\ fd = nfd w /\ fds w' = (t, fd) :: fds w /\ nfd w' = S fd /\ b = (match nth_error (objs w) o with Some (Object (Some _) _ _) => true | _ => false end)
  | Err _ => wf w -> fds w' = fds w
  end.
Proof.
  unfold ObjGetTyped. intros H. apply runs_call in H. destruct H as (w1 & x & K & H).
  destruct K as [K|(e & F & -> & ->)].
  2:{ apply runs_ret in H. destruct H as (-> & ->). auto. }
  cbn in K. destruct (fs w p) as [o|] eqn:FP.
  2:{ injection K as <- <-. apply runs_ret in H. destruct H as (-> & ->). auto. }
  injection K as <- <-. apply runs_call in H. destruct H as (w1 & x & K & H).
  destruct K as [K|(e & F & -> & ->)].
  - cbn in K. injection K as <- <-. apply runs_ret in H. destruct H as (-> & ->). cbn. auto 8.
  - apply runs_call in H. destruct H as (w1 & x & K & H). destruct K as [K|(e' & F' & -> & ->)]; [|destruct F']. cbn in K. injection K as <- <-.
    apply runs_ret in H. destruct H as (-> & ->). cbn. split; auto. split; auto. intros (_ & W & _). rewrite Nat.eqb_refl. cbn.
    rewrite Forall_forall in W. induction (fds w) as [|y l IH]; auto. cbn. specialize (W y (or_introl eq_refl)) as Wy. destruct (Nat.eqb_spec (snd y) (nfd w)); [lia|]. cbn. f_equal. apply IH. intros; apply W; right; auto.
Qed.

Lemma close_new t w (l : list (nat * nat)) n : wf w -> l = (t, nfd w) :: fds w -> n = nfd w -> filter (fun x => negb (Nat.eqb (snd x) n)) l = fds w.
Proof.
  intros (_ & W & _) -> ->. cbn. rewrite Nat.eqb_refl. cbn. rewrite Forall_forall in W. induction (fds w) as [|y m IH]; auto. cbn.
  specialize (W y (or_introl eq_refl)) as Wy. destruct (Nat.eqb_spec (snd y) (nfd w)); [lia|]. cbn. f_equal. apply IH. intros; apply W; right; auto.
Qed.
Lemma newMapFromFD_runs n t fd o w r w' w0 : wf w0 -> fds w = (t, nfd w0) :: fds w0 -> fd = nfd w0 -> runs t (newMapFromFD (Some n) fd o) w r w' ->
  objs w' = objs w /\ fs w' = fs w /\
  match r with
  | Ok h => h_obj h = o /\ h_fd h = fd /\ h_path h = [] /\ fds w' = fds w /\ exists x, nth_error (objs w) o = Some x /\ o_attrs x = Some (h_attrs h)
  | Err _ => fds w' = fds w0
  end.
Proof.
  intros W0 FD FN H. unfold newMapFromFD in H. apply runs_call in H. destruct H as (w1 & x & K & H).
  assert (CL : forall e w2, runs t (_ <~ Close fd; Ret (Err e)) w r w2 -> objs w2 = objs w /\ fs w2 = fs w /\ match r with Ok _ => False | Err _ => fds w2 = fds w0 end).
  { intros e w2 X. apply runs_call in X. destruct X as (w3 & y & K' & X). destruct K' as [K'|(e' & F' & _)]; [|destruct F']. cbn in K'. injection K' as <- <-.
    apply runs_ret in X. destruct X as (-> & ->). cbn. split; auto. split; auto. eapply close_new; eauto. }
  destruct K as [K|(e & F & -> & ->)].
  2:{ destruct (CL _ _ H) as (A & B & C). split; auto. split; auto. destruct r; tauto. }
  cbn in K. destruct (nth_error (objs w) o) as [[[a|] d z]|] eqn:O; injection K as <- <-.
  2,3: destruct (CL _ _ H) as (A & B & C); split; auto; split; auto; destruct r; tauto.
  rewrite andb_false_r in H. apply runs_ret in H. destruct H as (-> & ->). cbn. split; auto. split; auto. split; auto. split; auto. split; auto. split; auto. eexists. split; eauto.
Qed.
Theorem C89_load : forall n t p w r w', wf w -> p <> [] -> runs t (LoadPinnedMap (Some n) p) w r w' ->
  fs w' = fs w /\ objs w' = objs w /\
  match r with
  | Ok h => fs w p = Some (h_obj h) /\ h_path h = p /\ synced h w' /\ IsPinned h = true /\ fds w' = (t, h_fd h) :: fds w /\ exists x, nth_error (objs w) (h_obj h) = Some x /\ o_attrs x = Some (h_attrs h)
  | Err _ => fds w' = fds w
  end.
Proof.
  intros n t p w r w' W NE H. unfold LoadPinnedMap in H. apply runs_bind in H. destruct H as (x & w1 & H1 & H2). apply ObjGetTyped_runs in H1. destruct H1 as (O1 & F1 & X).
  destruct x as [[[fd o] b]|e].
  2:{ apply runs_ret in H2. destruct H2 as (-> & ->). auto. }
  destruct X as (X1 & X2 & X3 & X4 & X5). rewrite X2 in X3. destruct b.
  - apply runs_bind in H2. destruct H2 as (y & w2 & H2 & H3). apply runs_ret in H3. destruct H3 as (-> & ->).
    destruct (newMapFromFD_runs _ _ _ _ _ _ _ _ W X3 X2 H2) as (N1 & N2 & N3). rewrite N2, N1, F1, O1. split; auto. split; auto. destruct y as [h|e]; auto.
    destruct N3 as (N3 & N4 & N5 & N6 & N7). cbn. rewrite N3, N4, X2, N6, X3. split; auto. split; auto. split; [right; cbn; rewrite N2, F1, N3; auto|]. split; [unfold IsPinned; cbn; destruct p; easy|].
    split; auto. rewrite O1 in N7. auto.
  - apply runs_call in H2. destruct H2 as (w2 & y & K & H2). apply runs_ret in H2. destruct H2 as (-> & ->). destruct K as [K|(e & F & _)]; [|destruct F]. cbn in K. injection K as <- <-. cbn. split; auto. split; auto.
    eapply close_new; eauto.
Qed.

(** Nothing the library does puts an object in the place of another, whatever others do between. *)
Lemma keeps_ok c : match c with Rename _ _ false => False | _ => True end -> keepsPins bpffs devmapRO c.
Proof.
  intros C w t w' r K p o o' A B. destruct K as [K|(e & _ & -> & _)]; [|congruence].
  destruct c as [p0|p0 o0|p0 q0 nr|p0|p0|o0|o0| |a0 b0|o0 k0 v0|o0|f0]; cbn in K.
  - injection K as <- <-. congruence.
  - destruct (fs w p0) eqn:E; injection K as <- <-; [congruence|]. cbn in B. unfold set in B. destruct (path_eqb p p0) eqn:X; [apply path_eqb_eq in X; congruence|congruence].
  - destruct nr; [|easy]. destruct (fs w p0) eqn:E; [|injection K as <- <-; congruence]. destruct (fs w q0) eqn:E2; injection K as <- <-; [congruence|].
    cbn in B. unfold set in B. destruct (path_eqb p q0) eqn:X; [apply path_eqb_eq in X; congruence|]. destruct (path_eqb p p0); congruence.
  - destruct (fs w p0) eqn:E; injection K as <- <-; [|congruence]. cbn in B. unfold set in B. destruct (path_eqb p p0); congruence.
  - destruct (fs w p0) eqn:E; injection K as <- <-; cbn in B; congruence.
  - injection K as <- <-. congruence.
  - destruct (nth_error (objs w) o0) as [[[a|] d z]|]; injection K as <- <-; congruence.
  - injection K as <- <-. cbn in B. congruence.
  - injection K as <- <-. cbn in B. congruence.
  - destruct (nth_error (objs w) o0) as [[x1 x2 []]|]; injection K as <- <-; cbn in B; congruence.
  - injection K as <- <-. cbn in B. congruence.
  - injection K as <- <-. cbn in B. congruence.
Qed.
Lemma allCalls_bind {A B} P (m : prog A) (f : A -> prog B) : allCalls P m -> (forall a, allCalls P (f a)) -> allCalls P (bind m f).
Proof. intros H F. induction m as [a|c g IH]; cbn in *; auto. destruct H as (H1 & H2). split; auto. Qed.
Ltac ac := repeat (cbn; match goal with
  | |- _ /\ _ => split
  | |- True => exact I
  | |- keepsPins _ _ _ => apply keeps_ok; exact I
  | |- forall _, _ => intro
  | |- allCalls _ (bind _ _) => apply allCalls_bind
  | |- allCalls _ (match ?x with _ => _ end) => destruct x
  | |- allCalls _ (Ret _) => exact I
  | |- allCalls _ ?x => progress (unfold MapPin, MapUnpin, Pin, Unpin, pinAt, LoadPinnedMap, ObjGetTyped, newMapFromFD, newMapNew, newMapWithOptions, createMap, finalize)
  end).
Lemma pin_calls cur new o : allCalls (keepsPins bpffs devmapRO) (Pin cur new o).
Proof. unfold Pin, pinAt. ac. Qed.
Lemma create_calls cpus a b : allCalls (keepsPins bpffs devmapRO) (createMap cpus a b).
Proof. unfold createMap. ac. Qed.
Lemma load_calls cpus p : allCalls (keepsPins bpffs devmapRO) (LoadPinnedMap cpus p).
Proof. unfold LoadPinnedMap, ObjGetTyped, newMapFromFD. ac. Qed.
Lemma new_calls cpus s : allCalls (keepsPins bpffs devmapRO) (newMapNew cpus s).
Proof.
  unfold newMapNew. apply allCalls_bind.
  - destruct (s_inner s) as [[ia ib]|]; [|ac]. destruct (canStoreMap _); [|ac]. apply allCalls_bind; [apply create_calls|ac].
  - intros [tpl|e]; [|ac]. apply allCalls_bind; [apply create_calls|]. intros [h|e]; [|destruct tpl; ac]. destruct (s_pin s); [|destruct tpl; ac].
    apply allCalls_bind; [unfold MapPin; apply allCalls_bind; [apply pin_calls|ac]|]. intros [h1 [e|]]; destruct tpl; ac.
Qed.
Theorem C89_never_replaced : forall cpus h p s,
  allCalls (keepsPins bpffs devmapRO) (MapPin h p) /\ allCalls (keepsPins bpffs devmapRO) (MapUnpin h) /\
  allCalls (keepsPins bpffs devmapRO) (LoadPinnedMap cpus p) /\ allCalls (keepsPins bpffs devmapRO) (NewMap cpus s).
Proof.
  intros. split; [unfold MapPin; apply allCalls_bind; [apply pin_calls|ac]|]. split; [unfold MapUnpin, Unpin; ac|]. split; [apply load_calls|].
  unfold NewMap. apply allCalls_bind.
  - unfold newMapWithOptions. destruct (s_pin s); [|apply new_calls]. apply allCalls_bind; [apply load_calls|]. intros [h0|[[]| | | | | |]]; try apply new_calls; ac.
  - intros [h0|e]; [|ac]. apply allCalls_bind; [|ac]. unfold finalize. induction (s_contents s) as [|[k v] l IH]; [ac|]. cbn. split; [apply keeps_ok; exact I|]. intros []; auto; ac.
Qed.
End Kernel.

(** If others remove the pin, pinning to the same path says yes and does nothing. *)
Theorem C89_same_path_refuted : forall bpffs ro t h w, h_path h <> [] -> fs w (h_path h) = None ->
  exec bpffs ro t (MapPin h (h_path h)) w = (w, (withPath h (h_path h), None)) /\ fs w (h_path h) = None.
Proof. intros. split; auto. unfold MapPin, Pin. destruct (h_path h) eqn:E; [easy|]. rewrite path_eqb_refl. auto. Qed.
(** If others put another object there, it is moved and unpinned in place of the own one. *)
Theorem C89_foreign_refuted : forall bpffs ro t h p w o, h_path h <> [] -> h_path h <> p -> p <> [] -> bpffs p = true -> fs w p = None -> fs w (h_path h) = Some o -> o <> h_obj h ->
  exists w', exec bpffs ro t (MapPin h p) w = (w', (withPath h p, None)) /\ fs w' p = Some o /\
  exists w2, exec bpffs ro t (MapUnpin h) w = (w2, (withPath h [], None)) /\ fs w2 (h_path h) = None.
Proof.
  intros * N1 N2 N3 B F O N. unfold MapPin, MapUnpin, Pin, Unpin. destruct p as [|c p]; [easy|]. destruct (path_eqb (h_path h) (c :: p)) eqn:E; [apply path_eqb_eq in E; easy|].
  cbn. rewrite B. destruct (h_path h) as [|d q] eqn:HP; [easy|]. rewrite <- HP in *. cbn. rewrite O, F. cbn.
  eexists. split; [reflexivity|]. split; [cbn; apply set_same|]. eexists. split; [reflexivity|]. cbn. apply set_same.
Qed.
(** pin.Load forgets the path: the object is not pinned according to its handle, and pinning it to another path leaves two pins. *)
Theorem C89_load_refuted : forall bpffs ro n t p q w o a d z, wf w -> p <> q -> q <> [] -> bpffs q = true -> fs w p = Some o -> fs w q = None -> nth_error (objs w) o = Some (Object (Some a) d z) ->
  exists h w1 w2 h2, exec bpffs ro t (Load (Some n) p) w = (w1, Ok h) /\ h_obj h = o /\ IsPinned h = false /\
    exec bpffs ro t (MapPin h q) w1 = (w2, (h2, None)) /\ fs w2 p = Some o /\ fs w2 q = Some o.
Proof.
  intros * W N1 N2 B F1 F2 O. unfold Load, ObjGetTyped. cbn. rewrite F1. cbn. rewrite O. cbn. rewrite O. cbn. rewrite andb_false_r.
  do 4 eexists. split; [reflexivity|]. split; [reflexivity|]. split; [reflexivity|]. unfold MapPin, Pin. destruct q as [|c q]; [easy|]. cbn. rewrite B. cbn. rewrite F2. cbn.
  split; [reflexivity|]. split; [cbn; rewrite set_other by auto; auto|cbn; apply set_same].
Qed.
(** If the number of CPUs can't be read, loading a per-CPU map leaks its descriptor until the garbage collector closes it. *)
Theorem C89_leak_refuted : forall bpffs ro t p w o a d z, fs w p = Some o -> nth_error (objs w) o = Some (Object (Some a) d z) -> hasPerCPUValue (a_type a) = true ->
  exists w', exec bpffs ro t (LoadPinnedMap None p) w = (w', Err ECPU) /\ fds w' = (t, nfd w) :: fds w.
Proof. intros * F O H. unfold LoadPinnedMap, ObjGetTyped. cbn. rewrite F. cbn. rewrite O. cbn. rewrite O. cbn. rewrite H. cbn. eexists. split; [reflexivity|]. reflexivity. Qed.

(** Examples *)
Definition pa : path := [47; 97]. Definition pb : path := [47; 98].
Definition hash : attrs := Attrs 1 4 8 16 0.
Definition w0 : world := World [Object (Some hash) (fun _ => None) false; Object None (fun _ => None) false] (fun p => if path_eqb p pb then Some 1%nat else None) 9 [(0%nat, 3%nat)].
Definition h0 := Handle 0 3 hash [].
Example C89_example : let on := fun _ => true in
  let '(w1, (h1, r1)) := exec on false 0 (MapPin h0 pa) w0 in
  let '(w2, (h2, r2)) := exec on false 0 (MapPin h1 pb) w1 in
  let '(w3, (h3, r3)) := exec on false 0 (MapPin h2 [47; 99]) w2 in
  let '(w4, (h4, r4)) := exec on false 0 (MapUnpin h3) w3 in
  r1 = None /\ fs w1 pa = Some 0%nat /\ r2 = Some (Errno EEXIST) /\ fs w2 pb = Some 1%nat /\ r3 = None /\ fs w3 pa = None /\ fs w3 [47; 99] = Some 0%nat /\ r4 = None /\ fs w4 [47; 99] = None /\ fs w4 pb = Some 1%nat.
Proof. vm_compute. repeat split. Qed.
Example C89_wf : wf w0 /\ synced h0 w0.
Proof.
  split; [|left; auto]. split; [repeat constructor; auto|]. split; [repeat constructor|]. intros p o. cbn. destruct (path_eqb p pb); intros X; [injection X as <-; lia|discriminate].
Qed.
Print Assumptions C89_pin.
Print Assumptions C89_pin_complete.
Print Assumptions C89_unpin.
Print Assumptions C89_uses.
Print Assumptions C89_load.
Print Assumptions C89_never_replaced.
Print Assumptions C89_same_path_refuted.
Print Assumptions C89_foreign_refuted.
Print Assumptions C89_load_refuted.
Print Assumptions C89_leak_refuted.
