(** C103: walking over pinned objects. *)
From Coq Require Import List Bool Arith Lia.
From Verif Require Import Pin.Walk Pin.WalkSpec.
Import ListNotations.

(** ** Names *)
Lemma ltb_nlt a b : ltb a b = true <-> nlt a b.
Proof.
  revert b. induction a as [|x a IH]; intros [|y b]; cbn [ltb nlt]; try easy. rewrite orb_true_iff, andb_true_iff, Nat.ltb_lt, Nat.eqb_eq, IH. reflexivity.
Qed.
Lemma nlt_trans a b c : nlt a b -> nlt b c -> nlt a c.
Proof. revert b c. induction a as [|x a IH]; intros [|y b] [|z c]; cbn; try easy. intros [A|[-> A]] [B|[-> B]]; try (left; lia). right. split; auto. eapply IH; eauto. Qed.
Lemma nlt_total a b : a <> b -> ~ nlt a b -> nlt b a.
Proof.
  revert b. induction a as [|x a IH]; intros [|y b] NE NL; cbn in *; try easy. destruct (Nat.lt_trichotomy x y) as [L|[->|L]]; [exfalso; auto| |auto]. right. split; auto. apply IH; [congruence|]. auto.
Qed.
Fixpoint srt (l : list (name * bool)) : Prop := match l with [] => True | e :: r => (forall f, In f r -> nlt (fst e) (fst f)) /\ srt r end.
Lemma in_insert e f l : In f (insert e l) <-> f = e \/ In f l.
Proof. induction l as [|g l IH]; cbn; [intuition|]. destruct (ltb _ _); cbn; rewrite ?IH; intuition. Qed.
Lemma in_sort es n d : In (n, d) (sortEntries es) <-> exists t, In (n, t) es /\ d = isDir t.
Proof.
  induction es as [|[m t] es IH]; cbn; [split; [easy|now intros (? & ? & _)]|]. rewrite in_insert, IH. split.
  - intros [Q|(x & I & ->)]; [inversion Q; subst; eauto|eauto].
  - intros (x & [Q|I] & ->); [inversion Q; subst; auto|right; eauto].
Qed.
Lemma srt_insert e l : srt l -> ~ In (fst e) (map fst l) -> srt (insert e l).
Proof.
  induction l as [|f l IH]; cbn; [easy|]. intros [S1 S2] N. destruct (ltb (fst f) (fst e)) eqn:L.
  - apply ltb_nlt in L. cbn. split; [|apply IH; auto]. intros g I. apply in_insert in I. destruct I as [->|I]; auto.
  - assert (NE : fst e <> fst f) by (intros Q; apply N; now left). assert (NL : nlt (fst e) (fst f)) by (apply nlt_total; [congruence|]; intros Q; apply ltb_nlt in Q; congruence).
    cbn. split; [|auto]. intros g [<-|I]; auto. eapply nlt_trans; [exact NL|auto].
Qed.
Lemma srt_sort es : NoDup (map fst es) -> srt (sortEntries es).
Proof.
  induction es as [|[n t] es IH]; cbn; [easy|]. intros ND. inversion ND as [|? ? NI ND']; subst. apply srt_insert; auto. cbn. intros I. apply NI. apply in_map_iff in I. destruct I as ([m d] & E & I). cbn in E. subst m. apply in_sort in I. destruct I as (x & I & _). apply in_map_iff. exists (n, x). auto.
Qed.
Lemma nameEqb_eq a b : nameEqb a b = true <-> a = b.
Proof. unfold nameEqb. destruct (list_eq_dec _ a b); split; auto; easy. Qed.
Lemma find_in es n t : find es n = Some t -> In (n, t) es.
Proof. induction es as [|[m u] es IH]; cbn; [easy|]. destruct (nameEqb m n) eqn:E; [apply nameEqb_eq in E; subst; intros Q; inversion Q; auto|auto]. Qed.
Lemma lookup_app t p q : lookup t (p ++ q) = match lookup t p with Some u => lookup u q | None => None end.
Proof. revert t. induction p as [|n p IH]; intros t; [reflexivity|]. cbn. destruct t as [es| |]; auto. destruct (find es n); auto. Qed.
Lemma plt_app p a b : plt a b -> plt (p ++ a) (p ++ b).
Proof. induction p as [|n p IH]; cbn; auto. Qed.
Lemma wf_lookup t p u : wfTree t -> lookup t p = Some u -> wfTree u.
Proof.
  revert t. induction p as [|n p IH]; intros t W E; cbn in E; [inversion E; subst; auto|]. destruct t as [es| |]; try easy. destruct (find es n) as [v|] eqn:F; [|easy]. apply find_in in F. inversion W as [es' ND WT| |]; subst. apply (IH v); [exact (WT _ _ F)|exact E].
Qed.

Section W.
Variable world : nat -> option tree.
Variable fails : nat -> bool.
Variable cpus bpffs : bool.
Variable takes continues : list event -> bool.
Notation see := (see world).
Lemma see_app t p q : see t (p ++ q) = match see t p with Some u => lookup u q | None => None end.
Proof. unfold Walk.see. destruct (world t); auto. apply lookup_app. Qed.
(** ** A part of a walk *)
Definition opensInv (s : st) : Prop := opens s = held takes [] (trace s) /\ forall fd, In fd (opens s) -> fd < now s.
Record seg (P : path -> Prop) (s s' : st) (r : res) (ys : list event) : Prop := {
  g_trace : trace s' = trace s ++ ys;
  g_now : now s <= now s';
  g_true : forall e, In e ys -> exists p o fd l, e = EPin p o fd l /\ P p /\ now s <= fd < now s' /\ exists c, see fd p = Some (Object o c);
  g_sorted : sorted (pathsOf ys);
  g_opens : cpus = true -> opensInv s -> opensInv s';
  g_snap : cpus = true -> opensInv s -> forall y1 p o fd l y2, ys = y1 ++ EPin p o fd l :: y2 -> l = fd :: held takes [] (trace s ++ y1) /\ ~ In fd (held takes [] (trace s ++ y1));
  g_go : forall y1 e y2, ys = y1 ++ e :: y2 -> continues (trace s ++ y1 ++ [e]) = true \/ y2 = [] /\ r = SkipAll;
  g_stop : r = SkipAll -> ys <> [] /\ continues (trace s') = false;
  g_all : r = Nil -> forall p o c, P p -> (forall t, see t p = Some (Object o c)) -> exists fd l, In (EPin p o fd l) ys }.
Lemma sorted_app a b : sorted a -> sorted b -> (forall p q, In p a -> In q b -> plt p q) -> sorted (a ++ b).
Proof.
  induction a as [|x a IH]; cbn; auto. intros [A1 A2] B C. split; [|apply IH; auto]. intros q I. apply in_app_or in I. destruct I; auto.
Qed.
Lemma in_pathsOf p tr : In p (pathsOf tr) <-> exists o fd l, In (EPin p o fd l) tr.
Proof.
  unfold pathsOf. rewrite in_flat_map. split.
  - intros (e & I & J). destruct e as [p' o fd l|]; [destruct J as [->|[]]; eauto|destruct J].
  - intros (o & fd & l & I). exists (EPin p o fd l). cbn. auto.
Qed.
Lemma seg_nil (P : path -> Prop) s s' r : trace s' = trace s -> opens s' = opens s -> now s <= now s' -> r <> SkipAll -> (r = Nil -> forall p o c, P p -> ~ forall t, see t p = Some (Object o c)) -> seg P s s' r [].
Proof.
  intros T O N NS A. split; auto; try easy.
  - now rewrite app_nil_r.
  - intros _ [I1 I2]. split; [now rewrite O, T|]. rewrite O. intros fd I. apply I2 in I. lia.
  - intros _ _ [|]; discriminate.
  - intros [|]; discriminate.
  - intros E p o c Q F. exfalso. eapply A; eauto.
Qed.
Ltac sn := apply seg_nil; cbn; solve [reflexivity|lia|easy].
Lemma seg_seq (P1 P2 P : path -> Prop) s s1 s2 r y1 y2 : seg P1 s s1 Nil y1 -> seg P2 s1 s2 r y2 -> (forall a b, P1 a -> P2 b -> plt a b) -> (forall a, P a <-> P1 a \/ P2 a) -> seg P s s2 r (y1 ++ y2).
Proof.
  intros A B L E. destruct A as [At An Atr As Ao Asn Ag Ast Aa], B as [Bt Bn Btr Bs Bo Bsn Bg Bst Ba]. split.
  - now rewrite Bt, At, app_assoc.
  - lia.
  - intros e I. apply in_app_or in I. destruct I as [I|I]; [apply Atr in I|apply Btr in I]; destruct I as (p & o & fd & l & -> & Q & R & c & V); exists p, o, fd, l; (split; [auto|]); (split; [apply E; auto|]); (split; [lia|eauto]).
  - unfold pathsOf in *. rewrite flat_map_app. apply sorted_app; auto. intros p q I J. apply in_pathsOf in I, J. destruct I as (o & fd & l & I), J as (o' & fd' & l' & J). apply Atr in I. apply Btr in J. destruct I as (? & ? & ? & ? & X & I & _), J as (? & ? & ? & ? & Y & J & _). inversion X; inversion Y; subst. auto.
  - auto.
  - intros C I z1 p o fd l z2 S1. assert (D : exists x2, y1 = z1 ++ EPin p o fd l :: x2 \/ exists x1, z1 = y1 ++ x1 /\ y2 = x1 ++ EPin p o fd l :: z2).
    { clear - S1. revert z1 S1. induction y1 as [|e y1 IH]; intros z1 S1; [exists []; right; exists z1; auto|]. destruct z1 as [|f z1]; [inversion S1; subst; exists y1; auto|]. inversion S1; subst. destruct (IH z1) as (x2 & [->|(x1 & -> & ->)]); auto; [exists x2; auto|exists []; right; exists x1; auto]. }
    destruct D as (x2 & [->|(x1 & -> & ->)]); [now apply (Asn C I z1 p o fd l x2)|]. rewrite app_assoc, <- At. now apply (Bsn C (Ao C I) x1 p o fd l z2).
  - intros z1 e z2 S1. assert (D : (exists x2, y1 = z1 ++ e :: x2 /\ z2 = x2 ++ y2) \/ exists x1, z1 = y1 ++ x1 /\ y2 = x1 ++ e :: z2).
    { clear - S1. revert z1 S1. induction y1 as [|x y1 IH]; intros z1 S1; [right; exists z1; auto|]. destruct z1 as [|f z1]; [inversion S1; subst; left; exists y1; auto|]. inversion S1; subst. destruct (IH z1) as [(x2 & -> & ->)|(x1 & -> & ->)]; auto; [left; exists x2; auto|right; exists x1; auto]. }
    destruct D as [(x2 & -> & ->)|(x1 & -> & ->)].
    + destruct (Ag z1 e x2 eq_refl) as [?|[_ ?]]; [auto|discriminate].
    + destruct (Bg x1 e z2 eq_refl) as [Q|Q]; [left|auto]. rewrite At in Q. rewrite <- !app_assoc in *. exact Q.
  - intros R. destruct (Bst R) as [N C]. split; auto. destruct y1; cbn; [auto|discriminate].
  - intros R p o c Q V. apply E in Q. destruct Q as [Q|Q]; [destruct (Aa eq_refl _ _ _ Q V) as (fd & l & I)|destruct (Ba R _ _ _ Q V) as (fd & l & I)]; exists fd, l; apply in_or_app; auto.
Qed.
Lemma seg_stop (P1 P : path -> Prop) s s1 r y1 : seg P1 s s1 r y1 -> r <> Nil -> (forall a, P1 a -> P a) -> seg P s s1 r y1.
Proof.
  intros [At An Atr As Ao Asn Ag Ast Aa] N E. split; auto; [|congruence]. intros e I. apply Atr in I. destruct I as (p & o & fd & l & -> & Q & R). exists p, o, fd, l. auto.
Qed.
Lemma filter_fresh fd l : (forall x, In x l -> x < fd) -> filter (fun x => negb (x =? fd)) l = l.
Proof. induction l as [|x l IH]; intros F; cbn; auto. destruct (Nat.eqb_spec x fd) as [->|]; cbn; [specialize (F fd (or_introl eq_refl)); lia|]. f_equal. apply IH. intros y I. apply F. now right. Qed.
Lemma held_app pre a b : held takes pre (a ++ b) = held takes (pre ++ a) b ++ held takes pre a.
Proof.
  revert pre. induction a as [|e a IH]; intros pre; cbn [app held]; [now rewrite !app_nil_r|]. destruct e as [p o fd l|]; rewrite IH; rewrite <- (app_assoc pre [_] a); cbn [app]; [now rewrite app_assoc|reflexivity].
Qed.
(** One pin *)
Lemma file_seg p s r s' : file world fails cpus takes continues p s = (r, s') -> exists ys, seg (eq p) s s' r ys.
Proof.
  unfold file, Load. intros E. destruct (fails (now s)) eqn:F1; [inversion E; subst; exists []; sn|].
  destruct (see (now s) p) as [[es|o c|]|] eqn:SE; try (inversion E; subst; exists []; sn).
  cbn [now opens trace tick close] in E. 
  assert (X : forall n, opensInv s -> opensInv (St n (filter (fun x => negb (x =? now s)) (now s :: opens s)) (trace s)) \/ n < now s).
  { intros n [I1 I2]. destruct (Nat.lt_ge_cases n (now s)); auto. left. split; cbn [opens trace now]; cbn [filter]; rewrite Nat.eqb_refl; cbn [negb]; rewrite filter_fresh by auto; [auto|]. intros fd I. apply I2 in I. lia. }
  assert (CL : forall n r, now s <= n -> r <> SkipAll -> r <> Nil -> seg (eq p) s (St n (filter (fun x => negb (x =? now s)) (now s :: opens s)) (trace s)) r []).
  { intros n r0 L N1 N2. split; cbn [trace now]; auto; try easy; [now rewrite app_nil_r|intros _ I; destruct (X n I); [auto|lia]|intros _ _ [|]; discriminate|intros [|]; discriminate]. }
  destruct (fails (S (now s))) eqn:F2; [inversion E; subst; exists []; apply CL; [unfold tick, close; cbn; lia|easy|easy]|].
  destruct (fails (S (S (now s)))) eqn:F3; [inversion E; subst; exists []; apply CL; [unfold tick, close; cbn; lia|easy|easy]|].
  destruct (c && negb cpus) eqn:CP.
  { inversion E; subst. exists []. apply andb_true_iff in CP. destruct CP as [_ CP]. apply negb_true_iff in CP. split; unfold tick; cbn [trace now opens]; [now rewrite app_nil_r|lia|easy|exact Logic.I|congruence|congruence|intros [|]; discriminate|easy|easy]. }
  set (e := EPin p o (now s) (now s :: opens s)) in *. set (s3 := St (S (S (S (now s)))) (now s :: opens s) (trace s ++ [e])) in *.
  unfold tick in E. cbn [now opens trace] in E. fold e in E.
  assert (T : exists op, s' = St (S (S (S (now s)))) op (trace s ++ [e]) /\ op = (if takes (trace s ++ [e]) then now s :: opens s else filter (fun x => negb (x =? now s)) (now s :: opens s)) /\ r = if continues (trace s ++ [e]) then Nil else SkipAll).
  { destruct (takes (trace s ++ [e])); inversion E; subst; eexists; split; reflexivity || (split; [reflexivity|split; reflexivity]). }
  destruct T as (op & -> & OP & ->). clear E. exists [e]. split; cbn [trace now opens].
  - reflexivity.
  - lia.
  - intros x [<-|[]]. exists p, o, (now s), (now s :: opens s). split; [reflexivity|]. split; [reflexivity|]. split; [lia|eauto].
  - cbn. easy.
  - intros _ I. destruct I as [I1 I2]. split; cbn [opens trace now].
    + rewrite held_app. cbn [app held e]. fold e. rewrite OP. destruct (takes (trace s ++ [e])); cbn [app]; [now rewrite I1|]. cbn [filter]. rewrite Nat.eqb_refl. cbn [negb]. now rewrite filter_fresh.
    + intros fd. rewrite OP. destruct (takes _); [intros [<-|I]; [lia|apply I2 in I; lia]|]. intros I. apply filter_In in I. destruct I as [[<-|I] _]; [lia|apply I2 in I; lia].
  - intros _ [I1 I2] y1 p' o' fd l y2 Q. destruct y1 as [|? [|]]; inversion Q; subst. rewrite app_nil_r. rewrite <- I1. split; auto. intros I. apply I2 in I. lia.
  - intros y1 x y2 Q. destruct y1 as [|? [|]]; inversion Q; subst. cbn [app]. destruct (continues (trace s ++ [e])); auto.
  - intros Q. split; [easy|]. destruct (continues (trace s ++ [e])); [discriminate|auto].
  - intros _ q o' c' <- V. rewrite V in SE. inversion SE; subst. exists (now s), (now s :: opens s). now left.
Qed.
Definition below (p q : path) : Prop := exists x, q = p ++ x.
Lemma each_seg p f l : (forall n d s r s', In (n, d) l -> f n d s = Some (r, s') -> exists ys, seg (below (p ++ [n])) s s' r ys) -> srt l ->
  forall s r s', each f l s = Some (r, s') -> exists ys, seg (fun q => exists n d x, In (n, d) l /\ q = p ++ n :: x) s s' r ys.
Proof.
  induction l as [|[n d] l IH]; intros F SR s r s' E; cbn [each] in E.
  - inversion E; subst. exists []. apply seg_nil; auto; [easy|]. now intros _ q o c (? & ? & ? & [] & _).
  - destruct (f n d s) as [[r1 s1]|] eqn:FE; [|discriminate]. destruct (F n d _ _ _ (or_introl eq_refl) FE) as (y1 & S1). destruct SR as [SR1 SR2].
    assert (B : forall a, below (p ++ [n]) a -> exists x, a = p ++ n :: x) by (intros a (x & ->); exists x; now rewrite <- app_assoc).
    destruct r1.
    + destruct (IH (fun n' d' s0 r0 s0' I => F n' d' s0 r0 s0' (or_intror I)) SR2 _ _ _ E) as (y2 & S2). exists (y1 ++ y2). eapply seg_seq; [exact S1|exact S2| |].
      * intros a b A (m & dm & x & I & ->). apply B in A. destruct A as (y & ->). apply plt_app. cbn. left. exact (SR1 _ I).
      * intros a. split.
        -- intros (m & dm & x & [I|I] & ->); [inversion I; subst; left; exists x; now rewrite <- app_assoc|right; exists m, dm, x; auto].
        -- intros [A|(m & dm & x & I & ->)]; [apply B in A; destruct A as (x & ->); exists n, d, x; split; [now left|auto]|exists m, dm, x; split; [now right|auto]].
    + inversion E; subst. exists y1. eapply seg_stop; [exact S1|easy|]. intros a A. apply B in A. destruct A as (x & ->). exists n, d, x. split; [now left|auto].
    + inversion E; subst. exists y1. eapply seg_stop; [exact S1|easy|]. intros a A. apply B in A. destruct A as (x & ->). exists n, d, x. split; [now left|auto].
Qed.
Lemma seg_tick P s s' r ys : seg P (tick s) s' r ys -> seg P s s' r ys.
Proof.
  intros [At An Atr As Ao Asn Ag Ast Aa]. unfold tick in *. cbn [now opens trace] in *.
  assert (TI : opensInv s -> opensInv (St (S (now s)) (opens s) (trace s))) by (intros [I1 I2]; split; auto; cbn; intros fd I; apply I2 in I; lia).
  constructor; [exact At|lia| |exact As|intros C I; apply Ao; auto|intros C I; apply Asn; auto|exact Ag|exact Ast|exact Aa]. intros e I. apply Atr in I. destruct I as (p & o & fd & l & -> & Q & R & V). exists p, o, fd, l. split; [auto|]. split; [auto|]. split; [lia|auto].
Qed.
Lemma walk_seg fuel : wfWorld world -> forall p d s r s', walk world fails cpus takes continues fuel p d s = Some (r, s') -> exists ys, seg (below p) s s' r ys.
Proof.
  intros W. induction fuel as [|fuel IH]; intros p d s r s' E; cbn [walk] in E; [discriminate|].
  destruct d; cbn [negb] in E.
  - destruct (fails (now s)) eqn:F; [inversion E; subst; exists []; sn|].
    destruct (see (now s) p) as [[es|o c|]|] eqn:SE; try (inversion E; subst; exists []; sn).
    apply (each_seg p) in E.
    + destruct E as (ys & S1). exists ys. apply seg_tick. destruct r.
      * destruct S1 as [At An Atr As Ao Asn Ag Ast Aa]. split; auto.
        -- intros e I. apply Atr in I. destruct I as (q & o & fd & l & -> & (n & dd & x & I & ->) & R). exists (p ++ n :: x), o, fd, l. split; auto. split; auto. exists (n :: x). auto.
        -- intros _ q o c (x & ->) V. apply (Aa eq_refl _ o c); auto. pose proof (V (now s)) as V0. rewrite see_app, SE in V0. destruct x as [|n x]; [discriminate|]. cbn in V0. destruct (find es n) as [t|] eqn:FI; [|discriminate]. apply find_in in FI. exists n, (isDir t), x. split; auto. apply in_sort. eauto.
      * eapply seg_stop; [exact S1|easy|]. intros a (n & dd & x & _ & ->). now exists (n :: x).
      * eapply seg_stop; [exact S1|easy|]. intros a (n & dd & x & _ & ->). now exists (n :: x).
    + intros n d s0 r0 s0' _ Q. eapply IH. exact Q.
    + apply srt_sort. unfold Walk.see in SE. destruct (world (now s)) as [T|] eqn:WT; [|discriminate]. apply wf_lookup in SE; [|eapply W; eauto]. now inversion SE.
  - inversion E as [E']. assert (SN : forall n, n = now s -> True) by auto. destruct (file_seg p s r s' E') as (ys & S1). exists ys. destruct r.
    + destruct S1 as [At An Atr As Ao Asn Ag Ast Aa]. split; auto.
      * intros e I. apply Atr in I. destruct I as (q & o & fd & l & -> & <- & R). exists p, o, fd, l. split; auto. split; [exists []; now rewrite app_nil_r|auto].
      * intros _ q o c (x & ->) V. destruct x as [|n x]; [rewrite app_nil_r in *; apply (Aa eq_refl _ o c); auto|]. exfalso. pose proof (V (now s)) as V0. rewrite see_app in V0. clear - V0 E'. unfold file, Load in E'. destruct (fails (now s)); [discriminate|]. destruct (see (now s) p) as [[es|o' c'|]|]; try discriminate.
    + eapply seg_stop; [exact S1|easy|]. intros a <-. exists []. now rewrite app_nil_r.
    + eapply seg_stop; [exact S1|easy|]. intros a <-. exists []. now rewrite app_nil_r.
Qed.
Notation WalkDir := (WalkDir world fails cpus bpffs takes continues).
Lemma WalkDir_seg fuel s s' : wfWorld world -> WalkDir fuel s = Some s' -> exists r ys s1, seg (fun _ => True) s s1 r ys /\ (r = Err /\ s' = yieldError s1 \/ r <> Err /\ s' = s1).
Proof.
  intros W E. unfold Walk.WalkDir in E.
  assert (N1 : seg (fun _ => True) s (tick s) Err []) by sn. assert (N2 : seg (fun _ => True) s (tick (tick s)) Err []) by sn.
  destruct (fails (now s)); [inversion E; subst; exists Err, [], (tick s); auto|]. destruct (see (now s) []) as [t|]; [|inversion E; subst; exists Err, [], (tick s); auto].
  destruct bpffs; cbn [negb] in E; [|inversion E; subst; exists Err, [], (tick s); auto].
  destruct (fails (now (tick s))); [inversion E; subst; exists Err, [], (tick (tick s)); auto|].
  destruct (see (now (tick s)) []) as [[es|o c|]|]; try (inversion E; subst; exists Err, [], (tick (tick s)); now auto).
  destruct (walk world fails cpus takes continues fuel [] true (tick (tick s))) as [[r s1]|] eqn:WK; [|discriminate].
  apply walk_seg in WK; [|exact W]. destruct WK as (ys & S1). apply seg_tick, seg_tick in S1.
  assert (S2 : seg (fun _ => True) s s1 r ys).
  { destruct S1 as [At An Atr As Ao Asn Ag Ast Aa]. split; auto.
    - intros e I. apply Atr in I. destruct I as (p & o & fd & l & -> & _ & R). exists p, o, fd, l. auto.
    - intros R p o c _ V. apply (Aa R p o c); auto. exists p. reflexivity. }
  exists r, ys, s1. split; auto. destruct r; inversion E; subst; auto; right; split; auto; discriminate.
Qed.
Definition start (n : nat) : st := St n [] [].
(** What is seen are objects that are where they are said to be at the time they are opened, in the order of their paths, so that no path is seen twice; then maybe one error. *)
Theorem C103_pins : forall fuel n s', wfWorld world -> WalkDir fuel (start n) = Some s' -> exists ys,
  (trace s' = ys \/ trace s' = ys ++ [EError]) /\ sorted (pathsOf ys) /\
  forall e, In e ys -> exists p o fd l, e = EPin p o fd l /\ exists t c, n <= t < now s' /\ see t p = Some (Object o c).
Proof.
  intros fuel n s' W E. destruct (WalkDir_seg _ _ _ W E) as (r & ys & s1 & [At An Atr As Ao Asn Ag Ast Aa] & D). exists ys. cbn [start trace app now] in *.
  assert (N : now s' = now s1) by (destruct D as [[_ ->]|[_ ->]]; reflexivity). split; [destruct D as [[_ ->]|[_ ->]]; [right; cbn; now rewrite At|left; auto]|]. split; auto.
  intros e I. apply Atr in I. destruct I as (p & o & fd & l & -> & _ & R & c & V). exists p, o, fd, l. split; auto. exists fd, c. rewrite N. auto.
Qed.
(** Nothing is seen after the caller stops, nor after an error. *)
Theorem C103_stops : forall fuel n s', wfWorld world -> WalkDir fuel (start n) = Some s' -> forall a e b, trace s' = a ++ e :: b -> e = EError \/ continues (a ++ [e]) = false -> b = [].
Proof.
  intros fuel n s' W E a e b T H. destruct (WalkDir_seg _ _ _ W E) as (r & ys & s1 & [At An Atr As Ao Asn Ag Ast Aa] & D). cbn [start trace app now] in *.
  assert (NE : forall x y, ys <> x ++ EError :: y) by (intros x y ->; destruct (Atr EError) as (? & ? & ? & ? & Q & _); [apply in_or_app; right; now left|discriminate]).
  destruct D as [[-> ->]|[NE' ->]].
  - cbn [yieldError trace] in T. rewrite At in T. destruct b as [|f b]; auto. exfalso.
    assert (X : exists b', ys = a ++ e :: b').
    { destruct (exists_last (l := f :: b)) as (b' & z & Q); [discriminate|]. rewrite Q in T. exists b'. change (a ++ e :: b' ++ [z]) with (a ++ (e :: b') ++ [z]) in T. rewrite app_assoc in T. apply app_inj_tail in T. now destruct T. }
    destruct X as (b' & X). destruct H as [->|H]; [now apply NE in X|]. destruct (Ag _ _ _ X) as [Q|[_ Q]]; [congruence|discriminate].
  - rewrite At in T. destruct H as [->|H]; [now apply NE in T|]. destruct (Ag _ _ _ T) as [Q|[Q _]]; [congruence|auto].
Qed.
(** If there is no error and the caller doesn't stop, every object that is there all the time is seen. *)
Theorem C103_all : forall fuel n s' p o c, wfWorld world -> WalkDir fuel (start n) = Some s' -> ~ In EError (trace s') -> (forall a e b, trace s' = a ++ e :: b -> continues (a ++ [e]) = true) ->
  (forall t, see t p = Some (Object o c)) -> exists fd l, In (EPin p o fd l) (trace s').
Proof.
  intros fuel n s' p o c W E NE CO V. destruct (WalkDir_seg _ _ _ W E) as (r & ys & s1 & [At An Atr As Ao Asn Ag Ast Aa] & D). cbn [start trace app now] in *.
  destruct D as [[-> ->]|[NR ->]]; [exfalso; apply NE; cbn; apply in_or_app; right; now left|]. rewrite At in *. destruct r; [|exfalso|easy].
  - now apply (Aa eq_refl p o c).
  - destruct (Ast eq_refl) as [N C]. destruct (exists_last N) as (a & e & ->). rewrite (CO a e []) in C; [discriminate|reflexivity].
Qed.
(** A pin is open while the caller sees it, and closed afterwards unless the caller takes it: at any time exactly the pins that were taken are open, and the one seen now. *)
Theorem C103_open : forall fuel n s', cpus = true -> wfWorld world -> WalkDir fuel (start n) = Some s' ->
  opens s' = held takes [] (trace s') /\ forall a p o fd l b, trace s' = a ++ EPin p o fd l :: b -> l = fd :: held takes [] a /\ ~ In fd (held takes [] a).
Proof.
  intros fuel n s' C W E. destruct (WalkDir_seg _ _ _ W E) as (r & ys & s1 & [At An Atr As Ao Asn Ag Ast Aa] & D).
  assert (I0 : opensInv (start n)) by (split; [reflexivity|easy]). destruct (Ao C I0) as [I1 _]. cbn [start trace app now] in *.
  assert (SN : forall a p o fd l b, ys = a ++ EPin p o fd l :: b -> l = fd :: held takes [] a /\ ~ In fd (held takes [] a)) by (intros; eapply (Asn C I0); eauto).
  destruct D as [[-> ->]|[NR ->]].
  - cbn [yieldError opens trace]. split; [rewrite I1, held_app; reflexivity|]. intros a p o fd l b T. rewrite At in T. destruct b as [|f b].
    + apply app_inj_tail in T. now destruct T.
    + destruct (exists_last (l := f :: b)) as (b' & z & Q); [discriminate|]. rewrite Q in T. change (a ++ EPin p o fd l :: b' ++ [z]) with (a ++ (EPin p o fd l :: b') ++ [z]) in T. rewrite app_assoc in T. apply app_inj_tail in T. destruct T as [T _]. eapply SN. exact T.
  - split; [exact I1|]. intros a p o fd l b T. rewrite At in T. eapply SN. exact T.
Qed.
(** A walk ends, if paths have bounded length. *)
Lemma walk_returns D : bounded world D -> forall fuel p d s, D < fuel + length p -> length p <= D -> exists r s', walk world fails cpus takes continues fuel p d s = Some (r, s').
Proof.
  intros B. induction fuel as [|fuel IH]; intros p d s L LP; [lia|]. cbn [walk]. destruct d; cbn [negb]; [|destruct (file world fails cpus takes continues p s); eauto].
  destruct (fails (now s)); [eauto|]. destruct (see (now s) p) as [[es|o c|]|] eqn:SE; eauto.
  assert (LD : length p < D) by (apply (B (now s)); congruence). generalize (tick s). induction (sortEntries es) as [|[n d] l IHl]; intros s0; cbn [each]; [eauto|].
  destruct (IH (p ++ [n]) d s0) as (r & s1 & ->); [rewrite app_length; cbn; lia|rewrite app_length; cbn; lia|]. destruct r; eauto.
Qed.
Theorem C103_returns : forall D n, bounded world D -> exists s', WalkDir (S D) (start n) = Some s'.
Proof.
  intros D n B. unfold Walk.WalkDir. destruct (fails _); [eauto|]. destruct (see (now (start n)) []) as [t|] eqn:SE; [|eauto]. destruct (negb bpffs); [eauto|]. destruct (fails _); [eauto|]. destruct (see (now (tick (start n))) []) as [[es|o c|]|]; eauto.
  destruct (walk_returns D B (S D) [] true (tick (tick (start n)))) as (r & s' & ->); [cbn; lia|cbn; lia|]. destruct r; eauto.
Qed.
(** No error, if no system call fails, nothing changes, and there are only directories and objects. *)
Definition onlyObjects (T : tree) : Prop := forall p, lookup T p <> Some Other.
Theorem C103_works : forall T es fuel n s', T = Dir es -> (forall t, world t = Some T) -> wfTree T -> (forall t, fails t = false) -> cpus = true -> bpffs = true -> onlyObjects T -> WalkDir fuel (start n) = Some s' -> ~ In EError (trace s').
Proof.
  intros T es fuel n s' TD WT WF NF C BP OO E.
  assert (SEE : forall t p, see t p = lookup T p) by (intros; unfold Walk.see; now rewrite WT).
  assert (FI : forall es n t, NoDup (map fst es) -> In (n, t) es -> find es n = Some t).
  { clear. induction es as [|[m u] es IH]; intros n t ND I; [easy|]. cbn in *. inversion ND as [|? ? NI ND']; subst. destruct I as [I|I]; [inversion I; subst; destruct (nameEqb n n) eqn:Q; auto; now rewrite (proj2 (nameEqb_eq n n) eq_refl) in Q|]. destruct (nameEqb m n) eqn:Q; auto. apply nameEqb_eq in Q. subst. exfalso. apply NI. apply in_map_iff. exists (n, t). auto. }
  assert (G : forall fuel p t s r s1, lookup T p = Some t -> walk world fails cpus takes continues fuel p (isDir t) s = Some (r, s1) -> r <> Err).
  { clear fuel n s' E. induction fuel as [|fuel IH]; intros p t s r s1 L E; cbn [walk] in E; [discriminate|]. destruct t as [ds|o c|]; cbn [isDir negb] in E.
    - rewrite NF, SEE, L in E. pose proof (wf_lookup _ _ _ WF L) as WD. inversion WD as [ds' ND _| |]; subst ds'.
      assert (EL : forall l s, (forall n d, In (n, d) l -> In (n, d) (sortEntries ds)) -> each (fun n d => walk world fails cpus takes continues fuel (p ++ [n]) d) l s = Some (r, s1) -> r <> Err).
      { induction l as [|[m d] l IHl]; intros s0 I Q; cbn [each] in Q; [inversion Q; subst; discriminate|]. destruct (walk world fails cpus takes continues fuel (p ++ [m]) d s0) as [[r2 s2]|] eqn:WK; [|discriminate].
        assert (R2 : r2 <> Err). { destruct (proj1 (in_sort ds m d) (I _ _ (or_introl eq_refl))) as (u & IU & ->). eapply IH; [|exact WK]. rewrite lookup_app, L. cbn. now rewrite (FI ds m u). }
        destruct r2; [eapply IHl; [|exact Q]; intros; apply I; now right|inversion Q; subst; discriminate|easy]. }
      eapply EL; [|exact E]. auto.
    - injection E as E. unfold file, Load in E. rewrite NF, SEE, L in E. cbn [now tick] in E. rewrite !NF, C, andb_false_r in E. inversion E. destruct (continues _); discriminate.
    - now apply OO in L. }
  unfold Walk.WalkDir in E. rewrite !NF, !SEE, BP, TD in E. cbn [lookup negb] in E. destruct (walk world fails cpus takes continues fuel [] true (tick (tick (start n)))) as [[r s1]|] eqn:WK; [|discriminate].
  assert (R : r <> Err) by (eapply (G fuel [] T); [reflexivity|rewrite TD; exact WK]).
  assert (WW : wfWorld world) by (intros t T' Q; rewrite WT in Q; inversion Q; subst; auto).
  destruct (walk_seg fuel WW _ _ _ _ _ WK) as (ys & [At _ Atr _ _ _ _ _ _]). cbn [start tick trace app] in At.
  assert (S1 : s' = s1) by (destruct r; inversion E; auto; easy). subst s1. rewrite At. intros I. destruct (Atr _ I) as (? & ? & ? & ? & Q & _). discriminate.
Qed.
End W.

(** ** Examples *)
Definition na : name := [97].
Definition nb : name := [98].
Definition T1 : tree := Dir [(nb, Object 2 false); (na, Dir [(nb, Object 1 true); (na, Object 3 false)])].
(** "a/a", "a/b", "b": the caller takes the second pin *)
Theorem C103_example : wfTree T1 /\ onlyObjects T1 /\ bounded (fun _ => Some T1) 3 /\
  exists s', WalkDir (fun _ => Some T1) (fun _ => false) true true (fun tr => length tr =? 2) (fun _ => true) 4 (start 0) = Some s' /\
    trace s' = [EPin [na; na] 3 4 [4]; EPin [na; nb] 1 7 [7]; EPin [nb] 2 10 [10; 7]] /\ opens s' = [7].
Proof.
  assert (L : forall p t, lookup T1 p = Some t -> t <> Other /\ length p < 3).
  { assert (LO : forall p t o c, lookup (Object o c) p = Some t -> p = [] /\ t = Object o c) by (intros [|x p] t o c Q; [inversion Q; auto|discriminate]).
    intros [|a p] t E; [inversion E; subst; split; [discriminate|cbn; lia]|]. cbn [T1 lookup find] in E. destruct (nameEqb nb a); [apply LO in E; destruct E as [-> ->]; split; [discriminate|cbn; lia]|]. destruct (nameEqb na a); [|discriminate].
    destruct p as [|b p]; [inversion E; subst; split; [discriminate|cbn; lia]|]. cbn [lookup find] in E. destruct (nameEqb nb b); [apply LO in E; destruct E as [-> ->]; split; [discriminate|cbn; lia]|]. destruct (nameEqb na b); [apply LO in E; destruct E as [-> ->]; split; [discriminate|cbn; lia]|discriminate]. }
  split; [|split; [|split]].
  - unfold T1. repeat constructor; cbn; try (intuition discriminate); intros n t I; repeat (destruct I as [I|I]; [inversion I; subst; repeat constructor; cbn; try (intuition discriminate); intros m u J; repeat (destruct J as [J|J]; [inversion J; subst; constructor|]); easy|]); easy.
  - intros p E. apply L in E. now destruct E.
  - intros t p E. unfold see in E. destruct (lookup T1 p) as [u|] eqn:Q; [|easy]. now apply L in Q.
  - eexists. split; [vm_compute; reflexivity|]. split; reflexivity.
Qed.
(** If a pin is removed by somebody else between reading the directory and opening it, the walk ends there, with an error: "b" isn't seen. *)
Theorem C103_removed_refuted : let world := fun t => Some (Dir (if t <? 3 then [(na, Object 1 false); (nb, Object 2 false)] else [(nb, Object 2 false)])) in
  exists s', WalkDir world (fun _ => false) true true (fun _ => false) (fun _ => true) 9 (start 0) = Some s' /\ trace s' = [EError].
Proof. eexists. split; vm_compute; reflexivity. Qed.
(** If the number of CPUs can't be found, the descriptor of a map with a value per CPU stays open, although the caller never gets it. *)
Theorem C103_leak_refuted : exists s', WalkDir (fun _ => Some (Dir [(na, Object 1 true)])) (fun _ => false) false true (fun _ => false) (fun _ => true) 9 (start 0) = Some s' /\ trace s' = [EError] /\ opens s' = [3].
Proof. eexists. split; [vm_compute; reflexivity|]. split; reflexivity. Qed.

Print Assumptions C103_pins.
Print Assumptions C103_stops.
Print Assumptions C103_all.
Print Assumptions C103_open.
Print Assumptions C103_returns.
Print Assumptions C103_works.
Print Assumptions C103_example.
Print Assumptions C103_removed_refuted.
Print Assumptions C103_leak_refuted.
