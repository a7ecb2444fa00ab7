(** C101: mounts *)
From Coq Require Import List Bool Arith NArith Lia.
From Verif Require Import Sys.Mounts Sys.MountsSpec.
Import ListNotations.

Lemma streqb_eq a b : streqb a b = true <-> a = b.
Proof. unfold streqb. destruct (list_eq_dec Nat.eq_dec a b); split; easy. Qed.
Lemma unescape_escape1 c s : unescape (escape1 c ++ s) = c :: unescape s.
Proof. do 93 (destruct c as [|c]; [reflexivity|]). reflexivity. Qed.
Lemma unescape_escape s : unescape (escape s) = s.
Proof. induction s as [|c s IH]; cbn [escape flat_map]; [reflexivity|]. rewrite unescape_escape1. now f_equal. Qed.
Lemma escape_chars c s x : In x (escape1 c ++ s) -> x = c /\ c <> 32 /\ c <> 9 /\ c <> 10 \/ 48 <= x <= 52 \/ x = 92 \/ In x s.
Proof. intros I. apply in_app_or in I. destruct I as [I|I]; [|auto]. do 93 (destruct c as [|c]; [cbn in I; intuition lia|]). cbn in I. intuition lia. Qed.
Lemma escape_plain s : path s -> plain (escape s).
Proof.
  intros (N & D & P). assert (G : forall c, In c (escape s) -> isSpace c = false).
  { clear N D. induction s as [|x s IH]; cbn [escape flat_map]; [easy|]. intros c I. apply escape_chars in I. destruct I as [(-> & A & B & C)|[I|[-> |I]]].
    - destruct (isSpace x) eqn:E; auto. destruct (P x (or_introl eq_refl) E) as [-> |[-> | ->]]; easy.
    - do 53 (destruct c as [|c]; [reflexivity || lia|]). lia.
    - reflexivity.
    - apply IH; auto. intros d DI. apply P. now right. }
  split; [|split; [|exact G]].
  - destruct s as [|c s]; [easy|]. cbn [escape flat_map]. do 93 (destruct c as [|c]; [discriminate|]). discriminate.
  - intros E. apply D. rewrite <- (unescape_escape s), E. reflexivity.
Qed.
(** ** Cutting *)
Lemma cut_word f t : (forall c, In c f -> isSpace c = false) -> cut (f ++ t) = match cut t with Some (a, b) => Some (f ++ a, b) | None => None end.
Proof.
  induction f as [|c f IH]; intros P; [cbn; now destruct (cut t) as [[a b]|]|]. assert (C : c <> 32) by (intros ->; specialize (P 32 (or_introl eq_refl)); discriminate). cbn [app]. 
  assert (E : cut (c :: f ++ t) = match cut (f ++ t) with Some (a, b) => Some (c :: a, b) | None => None end).
  { do 32 (destruct c as [|c]; [reflexivity|]). destruct c as [|c]; [easy|reflexivity]. }
  rewrite E, IH by (intros d DI; apply P; now right). now destruct (cut t) as [[a b]|].
Qed.
Lemma cut_dash f t : plain f -> cut (32 :: f ++ 32 :: t) = match cut (f ++ 32 :: t) with Some (a, b) => Some (32 :: a, b) | None => None end.
Proof.
  intros (N & D & P). destruct f as [|c f]; [easy|]. cbn [app]. destruct (Nat.eq_dec c 45) as [-> |C].
  - destruct f as [|d f]; [easy|]. cbn [app]. assert (E : d <> 32) by (intros ->; specialize (P 32 (or_intror (or_introl eq_refl))); discriminate). do 32 (destruct d as [|d]; [reflexivity|]). destruct d as [|d]; [easy|reflexivity].
  - do 45 (destruct c as [|c]; [reflexivity|]). destruct c as [|c]; [easy|reflexivity].
Qed.
Lemma cut_spaced l t : l <> [] -> Forall plain l -> cut (spaced l ++ 32 :: 45 :: 32 :: t) = Some (spaced l, t).
Proof.
  intros N F. induction l as [|x l IH]; [easy|]. inversion F as [|? ? PX FL]; subst. destruct l as [|y l].
  - cbn [spaced]. destruct PX as (_ & _ & PX). rewrite cut_word by exact PX. change (cut (32 :: 45 :: 32 :: t)) with (Some (@nil nat, t)). cbv iota. now rewrite app_nil_r.
  - specialize (IH ltac:(easy) FL). cbn [spaced] in *. fold spaced in *. rewrite <- app_assoc. rewrite cut_word by apply PX. cbn [app].
    inversion FL as [|? ? PY FL2]; subst. destruct l as [|z l].
    + rewrite cut_dash by exact PY. rewrite IH. reflexivity.
    + rewrite <- app_assoc in *. cbn [app] in *. rewrite cut_dash by exact PY. rewrite IH. reflexivity.
Qed.
(** ** Fields *)
Lemma fields_drop s : fields (dropSpace s) = fields s.
Proof. unfold fields. induction s as [|c s IH]; cbn [dropSpace]; auto. destruct (isSpace c) eqn:E; auto. rewrite IH. cbn. now rewrite E. Qed.
Lemma fields_end_ s c : isSpace c = true -> forall acc, fields_ acc (s ++ [c]) = fields_ acc s.
Proof. intros E. induction s as [|d s IH]; intros acc; cbn; [rewrite E; apply app_nil_r|]. destruct (isSpace d); now rewrite ?IH. Qed.
Lemma fields_drop_end s : fields (rev (dropSpace s)) = fields (rev s).
Proof. induction s as [|c s IH]; cbn [dropSpace]; auto. destruct (isSpace c) eqn:E; auto. cbn [rev]. unfold fields in *. rewrite fields_end_; auto. Qed.
Lemma fields_trim s : fields (trimSpace s) = fields s.
Proof. unfold trimSpace. rewrite fields_drop_end, rev_involutive. apply fields_drop. Qed.
Lemma fields_word f t : (forall c, In c f -> isSpace c = false) -> forall acc, fields_ acc (f ++ t) = fields_ (acc ++ f) t.
Proof. induction f as [|c f IH]; intros P acc; cbn; [now rewrite app_nil_r|]. rewrite (P c) by now left. rewrite IH by (intros d DI; apply P; now right). now rewrite <- app_assoc. Qed.
Lemma fields_first f t : plain f -> fields (f ++ 32 :: t) = f :: fields t.
Proof. intros (N & _ & P). unfold fields. rewrite fields_word by exact P. cbn [app]. cbn. destruct f; [easy|reflexivity]. Qed.
Lemma fields_spaced l : Forall plain l -> fields (spaced l) = l.
Proof.
  induction 1 as [|x l PX F IH]; [reflexivity|]. destruct l as [|y l].
  - cbn [spaced]. destruct PX as (N & _ & P). unfold fields. rewrite <- (app_nil_r x) at 1. rewrite fields_word by exact P. cbn. now destruct x.
  - change (spaced (x :: y :: l)) with (x ++ 32 :: spaced (y :: l)). rewrite fields_first by exact PX. now f_equal.
Qed.
(** ** Lines *)
Definition body (m : mount) : str := spaced ([m_id m; m_parent m; m_dev m; escape (m_root m); escape (m_point m); m_opts m] ++ m_optional m) ++ [32; 45; 32] ++ m_type m ++ [32] ++ escape (m_source m) ++ [32] ++ m_super m.
Lemma line_body m : line m = body m ++ [10].
Proof. unfold line, body. now rewrite <- !app_assoc. Qed.
Lemma usual_fields m : usual m -> Forall plain ([m_id m; m_parent m; m_dev m; escape (m_root m); escape (m_point m); m_opts m] ++ m_optional m).
Proof. intros (A & B & C & D & E & F & G & _). cbn [app]. repeat (constructor; auto using escape_plain). Qed.
Lemma parse_body m : usual m -> parseLine (body m) = Some (entryOf m).
Proof.
  intros U. pose proof (usual_fields m U) as F. unfold parseLine, body. match goal with |- context [[32; 45; 32] ++ ?x] => change ([32; 45; 32] ++ x) with (32 :: 45 :: 32 :: x) end. rewrite cut_spaced; [|discriminate|exact F]. rewrite !fields_trim, fields_spaced by exact F. destruct U as (_ & _ & _ & _ & _ & _ & _ & T & _).
  change ([32] ++ escape (m_source m) ++ [32] ++ m_super m) with (32 :: escape (m_source m) ++ 32 :: m_super m). rewrite fields_first by exact T. cbn [app]. unfold entryOf. now rewrite !unescape_escape.
Qed.
Lemma spaced_in l c : In c (spaced l) -> c = 32 \/ exists x, In x l /\ In c x.
Proof.
  induction l as [|x l IH]; [easy|]. destruct l as [|y l]; [cbn [spaced]; intros I; right; exists x; split; [now left|exact I]|]. change (spaced (x :: y :: l)) with (x ++ 32 :: spaced (y :: l)). intros I. apply in_app_or in I. destruct I as [I|[I|I]].
  - right. exists x. split; [now left|exact I].
  - now left.
  - destruct (IH I) as [|(z & A & B)]; auto. right. exists z. split; [now right|exact B].
Qed.
Lemma plain_newline x : plain x -> ~ In 10 x.
Proof. intros (_ & _ & P) I. specialize (P 10 I). discriminate. Qed.
Lemma escape_newline s : ~ In 10 (escape s).
Proof. induction s as [|x s IH]; cbn [escape flat_map]; [easy|]. intros I. apply escape_chars in I. destruct I as [(A & B & C & D)|[I|[I|I]]]; try lia. now apply IH. Qed.
Lemma body_newline m : usual m -> ~ In 10 (body m).
Proof.
  intros U I. pose proof (usual_fields m U) as F. rewrite Forall_forall in F. destruct U as (_ & _ & _ & _ & _ & _ & _ & T & S). unfold body in I. apply in_app_or in I. destruct I as [I|I].
  - destruct (spaced_in _ _ I) as [Q|(x & A & B)]; [discriminate|]. apply (plain_newline x); auto.
  - apply in_app_or in I. destruct I as [I|I]; [cbn in I; lia|]. apply in_app_or in I. destruct I as [I|I]; [now apply plain_newline in T|]. apply in_app_or in I. destruct I as [I|I]; [cbn in I; lia|]. apply in_app_or in I. destruct I as [I|I]; [now apply escape_newline in I|]. apply in_app_or in I. destruct I as [I|I]; [cbn in I; lia|easy].
Qed.
Lemma lines_line s t : ~ In 10 s -> forall acc, lines_ acc (s ++ 10 :: t) = (acc ++ s) :: lines_ [] t.
Proof.
  induction s as [|c s IH]; intros N acc; [cbn; now rewrite app_nil_r|]. cbn [app]. assert (C : c <> 10) by (intros ->; apply N; now left).
  assert (E : lines_ acc (c :: s ++ 10 :: t) = lines_ (acc ++ [c]) (s ++ 10 :: t)). { do 10 (destruct c as [|c]; [reflexivity|]). destruct c as [|c]; [easy|reflexivity]. }
  rewrite E, IH by (intros I; apply N; now right). now rewrite <- app_assoc.
Qed.
(** All mounts, as they are *)
Theorem C101_parse : forall l, Forall usual l -> parseEntries true (mountinfo l) = Some (map entryOf l).
Proof.
  intros l F. unfold parseEntries. induction F as [|m l U F IH]; [reflexivity|]. cbn [mountinfo flat_map]. fold (mountinfo l). rewrite line_body, <- app_assoc. cbn [app]. rewrite lines_line by now apply body_newline. cbn [app parseLines]. rewrite parse_body by exact U. rewrite IH.
  destruct (body m) eqn:E; [|reflexivity]. exfalso. destruct U as ((N & _) & _). unfold body in E. cbn [app spaced] in E. now destruct (m_id m).
Qed.
(** Every line that isn't empty is parsed, the last one also if it doesn't end with a newline; or there is an error, if one of them can't be, or reading fails. *)
Lemma lines_last s : ~ In 10 s -> forall acc, lines_ acc s = [acc ++ s].
Proof.
  induction s as [|c s IH]; intros N acc; [cbn; now rewrite app_nil_r|]. assert (C : c <> 10) by (intros ->; apply N; now left).
  assert (E : lines_ acc (c :: s) = lines_ (acc ++ [c]) s). { do 10 (destruct c as [|c]; [reflexivity|]). destruct c as [|c]; [easy|reflexivity]. }
  rewrite E, IH by (intros I; apply N; now right). now rewrite <- app_assoc.
Qed.
Definition notEmpty (x : str) : bool := match x with [] => false | _ => true end.
Theorem C101_lines : forall ok ls last, Forall (fun x => ~ In 10 x) ls -> ~ In 10 last ->
  match parseEntries ok (flat_map (fun x => x ++ [10]) ls ++ last) with
  | Some es => ok = true /\ Forall2 (fun x e => parseLine x = Some e) (filter notEmpty (ls ++ [last])) es
  | None => ok = false \/ exists x, In x (filter notEmpty (ls ++ [last])) /\ parseLine x = None
  end.
Proof.
  intros ok ls last F N. unfold parseEntries. destruct ok; [|auto]. assert (L : lines_ [] (flat_map (fun x => x ++ [10]) ls ++ last) = ls ++ [last]).
  { induction F as [|x ls NX F IH]; [now apply lines_last|]. cbn [flat_map]. rewrite <- !app_assoc. cbn [app]. rewrite lines_line by exact NX. cbn [app]. now rewrite IH. }
  rewrite L. enough (Q : match parseLines (ls ++ [last]) with Some es => Forall2 (fun x e => parseLine x = Some e) (filter notEmpty (ls ++ [last])) es | None => exists x, In x (filter notEmpty (ls ++ [last])) /\ parseLine x = None end) by (destruct (parseLines _); auto).
  clear. induction (ls ++ [last]) as [|x l IH]; [constructor|]. destruct x as [|c x]; [exact IH|]. cbn [parseLines filter notEmpty]. destruct (parseLine (c :: x)) as [e|] eqn:E; [|exists (c :: x); split; [now left|exact E]].
  destruct (parseLines l) as [es|]; [now constructor|]. destruct IH as (y & I & Y). exists y. split; [now right|exact Y].
Qed.
(** ** Searching *)
Lemma filter_filter {A} (f g : A -> bool) l : filter f (filter g l) = filter (fun x => f x && g x) l.
Proof. induction l as [|x l IH]; cbn; auto. destruct (g x); cbn; rewrite IH; [now rewrite andb_true_r|now rewrite andb_false_r]. Qed.
Lemma contains_app a b x : contains (a ++ b) x = contains a x || contains b x.
Proof. unfold contains. apply existsb_app. Qed.
Theorem C101_filter : forall es ty, filterByFSType es ty = firsts (map e_point (filter (fun e => streqb (e_type e) ty) es)).
Proof.
  intros es ty. unfold filterByFSType. assert (G : forall es acc, fold_left (fun mounts e => if negb (streqb (e_type e) ty) then mounts else if contains mounts (e_point e) then mounts else mounts ++ [e_point e]) es acc =
    acc ++ filter (fun x => negb (contains acc x)) (firsts (map e_point (filter (fun e => streqb (e_type e) ty) es)))).
  { clear es. induction es as [|e es IH]; intros acc; cbn [fold_left filter map firsts]; [now rewrite app_nil_r|]. destruct (streqb (e_type e) ty) eqn:T; cbn [negb]; [|apply IH]. cbn [map firsts filter]. destruct (contains acc (e_point e)) eqn:C; cbn [negb].
    - rewrite IH. f_equal. rewrite filter_filter. apply filter_ext. intros x. destruct (streqb (e_point e) x) eqn:E; cbn; [|now rewrite andb_true_r]. apply streqb_eq in E. subst x. now rewrite C.
    - rewrite IH, <- app_assoc. f_equal. cbn [app]. f_equal. rewrite filter_filter. apply filter_ext. intros x. rewrite contains_app. unfold contains at 2. cbn [existsb]. rewrite orb_false_r, negb_orb. f_equal. f_equal.
      destruct (streqb (e_point e) x) eqn:E; [apply streqb_eq in E; subst; apply streqb_eq; reflexivity|]. apply not_true_is_false. intros Q. apply streqb_eq in Q. subst. assert (streqb (e_point e) (e_point e) = true) by now apply streqb_eq. congruence. }
  rewrite G. cbn [app]. rewrite <- (filter_ext (fun _ => true)) by reflexivity. induction (firsts _) as [|x l IH]; cbn; congruence.
Qed.
(** The path is that of the first tracefs that is mounted as a whole; if there is none, of the first such debugfs that has a directory "tracing". *)
Definition whole (ty : str) (e : entry) : Prop := e_type e = ty /\ e_root e = slash.
Theorem C101_tracefs : forall isDir es,
  match findTracefsInEntries isDir es with
  | Tracefs p => exists l1 e l2, es = l1 ++ e :: l2 /\ whole tracefs e /\ e_point e = p /\ forall x, In x l1 -> ~ whole tracefs x
  | Debugfs p => (forall x, In x es -> ~ whole tracefs x) /\ exists l1 e l2, es = l1 ++ e :: l2 /\ whole debugfs e /\ e_point e = p /\ isDir p = true /\ forall x, In x l1 -> whole debugfs x -> isDir (e_point x) = false
  | Nothing => forall x, In x es -> ~ whole tracefs x /\ (whole debugfs x -> isDir (e_point x) = false)
  end.
Proof.
  intros isDir es. unfold findTracefsInEntries.
  assert (W : forall ty e, streqb (e_type e) ty && streqb (e_root e) slash = true <-> whole ty e) by (intros; rewrite andb_true_iff, !streqb_eq; reflexivity).
  assert (A : match findTracefs es with Some p => exists l1 e l2, es = l1 ++ e :: l2 /\ whole tracefs e /\ e_point e = p /\ forall x, In x l1 -> ~ whole tracefs x | None => forall x, In x es -> ~ whole tracefs x end).
  { induction es as [|e es IH]; cbn [findTracefs]; [easy|]. destruct (streqb (e_type e) tracefs && streqb (e_root e) slash) eqn:E.
    - apply W in E. exists [], e, es. repeat split; auto; try apply E; easy.
    - assert (NE : ~ whole tracefs e) by (intros Q; apply W in Q; congruence). destruct (findTracefs es) as [p|].
      + destruct IH as (l1 & x & l2 & -> & B & C & D). exists (e :: l1), x, l2. split; auto. split; auto. split; auto. intros y [<-|Y]; auto.
      + intros y [<-|Y]; auto. }
  destruct (findTracefs es) as [p|]; [exact A|].
  assert (B : match findDebugfs isDir es with Tracefs _ => False | Debugfs p => exists l1 e l2, es = l1 ++ e :: l2 /\ whole debugfs e /\ e_point e = p /\ isDir p = true /\ forall x, In x l1 -> whole debugfs x -> isDir (e_point x) = false | Nothing => forall x, In x es -> whole debugfs x -> isDir (e_point x) = false end).
  { clear A. induction es as [|e es IH]; cbn [findDebugfs]; [easy|]. rewrite <- negb_andb. destruct (streqb (e_type e) debugfs && streqb (e_root e) slash) eqn:E; cbn [negb].
    - destruct (isDir (e_point e)) eqn:D.
      + apply W in E. exists [], e, es. repeat split; auto; try apply E; easy.
      + destruct (findDebugfs isDir es) as [p|p|]; auto.
        * destruct IH as (l1 & x & l2 & -> & B & C & F & G). exists (e :: l1), x, l2. repeat split; auto; try apply B. intros y [<-|Y]; auto.
        * intros y [<-|Y]; auto.
    - assert (NE : ~ whole debugfs e) by (intros Q; apply W in Q; congruence). destruct (findDebugfs isDir es) as [p|p|]; auto.
      + destruct IH as (l1 & x & l2 & -> & B & C & F & G). exists (e :: l1), x, l2. repeat split; auto; try apply B. intros y [<-|Y]; [easy|auto].
      + intros y [<-|Y]; [easy|auto]. }
  destruct (findDebugfs isDir es) as [p|p|]; auto; easy.
Qed.

(** ** Examples *)
Definition bpf : str := [98; 112; 102].
Definition rw : str := [114; 119].
Definition mk (root point : str) (ty : str) : mount := Mount [49; 50] [49] [48; 58; 50] root point rw [[115; 58; 49]] ty ty rw.
Definition plainb (s : str) : bool := match s with [] => false | [45] => false | _ => true end && forallb (fun c => negb (isSpace c)) s.
Definition pathb (s : str) : bool := match s with [] => false | [45] => false | _ => true end && forallb (fun c => negb (isSpace c) || (c =? 32) || (c =? 9) || (c =? 10)) s.
Lemma plainb_plain s : plainb s = true -> plain s.
Proof.
  unfold plainb. intros H. apply andb_true_iff in H. destruct H as [A B]. rewrite forallb_forall in B. repeat split; [now intros ->|now intros ->|]. intros c I. apply B in I. now apply negb_true_iff in I.
Qed.
Lemma pathb_path s : pathb s = true -> path s.
Proof.
  unfold pathb. intros H. apply andb_true_iff in H. destruct H as [A B]. rewrite forallb_forall in B. repeat split; [now intros ->|now intros ->|]. intros c I S. apply B in I. rewrite S in I. cbn [negb orb] in I. rewrite !orb_true_iff, !Nat.eqb_eq in I. tauto.
Qed.
(** "/a b\" with bpf, twice; "/t" with tracefs, first only a directory of it *)
Theorem C101_example : let l := [mk slash [47; 97; 32; 98; 92] bpf; mk [47; 120] [47; 115] tracefs; mk slash [47; 116] tracefs; mk slash [47; 97; 32; 98; 92] bpf] in
  Forall usual l /\ exists es, parseEntries true (mountinfo l) = Some es /\ filterByFSType es bpf = [[47; 97; 32; 98; 92]] /\ findTracefsInEntries (fun _ => true) es = Tracefs [47; 116].
Proof.
  intros l. assert (F : Forall usual l).
  { assert (U : forall root point ty, pathb root = true -> pathb point = true -> plainb ty = true -> usual (mk root point ty)).
    { intros root point ty A B C. unfold usual, mk. cbn [m_id m_parent m_dev m_root m_point m_opts m_optional m_type m_super]. split; [now apply plainb_plain|]. split; [now apply plainb_plain|]. split; [now apply plainb_plain|].
      split; [now apply pathb_path|]. split; [now apply pathb_path|]. split; [now apply plainb_plain|]. split; [constructor; [now apply plainb_plain|constructor]|]. split; [now apply plainb_plain|]. unfold rw. cbn [In]. intros [Q|[Q|[]]]; discriminate. }
    unfold l. constructor; [|constructor; [|constructor; [|constructor; [|constructor]]]]; apply U; vm_compute; reflexivity. }
  split; [exact F|]. exists (map entryOf l). split; [exact (C101_parse l F)|]. split; vm_compute; reflexivity.
Qed.
(** Other white space, which the kernel doesn't escape, separates fields: a bpf file system at "/a", no-break space, "b" is taken to be at "/a". *)
Theorem C101_space_refuted : parseEntries true (mountinfo [mk slash [47; 97; 160; 98] bpf]) = Some [Entry [47; 97] slash bpf].
Proof. vm_compute. reflexivity. Qed.
(** When the directory that is mounted has a carriage return in its name, what follows it is taken to be where it is mounted: a directory "/x", carriage return, "/y" of a tmpfs mounted at "/m". *)
Theorem C101_shift_refuted : parseEntries true (mountinfo [mk [47; 120; 13; 47; 121] [47; 109] [116; 109; 112; 102; 115]]) = Some [Entry [47; 121] [47; 120] [116; 109; 112; 102; 115]].
Proof. vm_compute. reflexivity. Qed.

Print Assumptions C101_parse.
Print Assumptions C101_lines.
Print Assumptions C101_filter.
Print Assumptions C101_tracefs.
Print Assumptions C101_example.
Print Assumptions C101_space_refuted.
Print Assumptions C101_shift_refuted.
