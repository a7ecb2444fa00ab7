(** C86: symbols of executables. *)
From Coq Require Import String Permutation.
From Verif Require Import Base.GoInt Probe.Exec Probe.ExecSpec.
Open Scope Z_scope.

(** ** The map *)
Lemma get_set : forall n m s c, get_ n (set_ m s c) = if String.eqb n m then Some s else get_ n c.
Proof.
  intros n m s. induction c as [|[k t] c IH]; cbn; [reflexivity|].
  destruct (String.eqb_spec m k) as [->|N]; cbn; [destruct (String.eqb n k); reflexivity|].
  rewrite IH. destruct (String.eqb_spec n k) as [->|N2]; [|reflexivity]. destruct (String.eqb_spec k m); [congruence|reflexivity].
Qed.
Lemma set_in : forall n s c k t, In (k, t) (set_ n s c) -> (k, t) = (n, s) \/ In (k, t) c.
Proof.
  intros n s. induction c as [|[m u] c IH]; cbn; intros k t H.
  - destruct H as [H|[]]; auto.
  - destruct (String.eqb_spec n m) as [->|N]; cbn in H; (destruct H as [H|H]; [try injection H as <- <-; auto|auto]). apply IH in H. tauto.
Qed.
Lemma set_keys : forall n s c, NoDup (map fst c) -> NoDup (map fst (set_ n s c)).
Proof.
  intros n s. induction c as [|[m u] c IH]; cbn; intro H; [constructor; [tauto|constructor]|].
  inversion H as [|a l N1 N2]; subst. destruct (String.eqb_spec n m) as [->|N]; cbn; constructor; auto.
  intro X. apply in_map_iff in X. destruct X as ([k t] & E & X). cbn in E. subst k. apply set_in in X. destruct X as [X|X]; [injection X as -> ->; congruence|].
  apply N1. apply in_map_iff. exists (m, t). auto.
Qed.
Lemma get_in : forall n s c, NoDup (map fst c) -> (get_ n c = Some s <-> In (n, s) c).
Proof.
  intros n s. induction c as [|[m u] c IH]; cbn; intro H; [split; [discriminate|tauto]|].
  inversion H as [|a l N1 N2]; subst. destruct (String.eqb_spec n m) as [->|N].
  - split; [intro E; injection E as ->; auto|]. intros [E|E]; [injection E as ->; reflexivity|]. exfalso. apply N1. apply in_map_iff. exists (m, s). auto.
  - rewrite IH by auto. split; [auto|]. intros [E|E]; [injection E as -> ->; congruence|auto].
Qed.
Lemma isFunc_spec : forall y, isFunc y = true <-> isFunction y.
Proof. intro y. unfold isFunc, isFunction. change 15 with (Z.ones 4). rewrite Z.land_ones by lia. apply Z.eqb_eq. Qed.
Definition entry (f : file) (y : esym) : symbol := Sym (offsetOf (y_value y) (f_segs f)) (y_size y).
Definition step (f : file) (c : cache) (y : esym) : cache := if isFunc y then set_ (y_name y) (entry f y) c else c.
Lemma load_get : forall f c name l, let c' := fold_left (step f) l c in
  (exists a b y, l = a ++ y :: b /\ y_name y = name /\ isFunction y /\ (forall z, In z b -> isFunction z -> y_name z <> name) /\ get_ name c' = Some (entry f y)) \/
  ((forall y, In y l -> isFunction y -> y_name y <> name) /\ get_ name c' = get_ name c).
Proof.
  intros f c name l. induction l as [|y l IH] using rev_ind; cbn; [right; split; [intros y []|reflexivity]|].
  rewrite fold_left_app. cbn [fold_left]. unfold step at 1 3. destruct (isFunc y) eqn:F.
  - rewrite get_set. destruct (String.eqb_spec name (y_name y)) as [E|N].
    + left. exists l, [], y. apply isFunc_spec in F. split; [reflexivity|]. split; [auto|]. split; [exact F|]. split; [intros z []|reflexivity].
    + destruct IH as [(a & b & z & -> & A1 & A2 & A3 & A4)|[A1 A2]]; [left|right].
      * exists a, (b ++ [y]), z. rewrite <- app_assoc. split; [reflexivity|]. split; [exact A1|]. split; [exact A2|]. split; [|exact A4].
        intros x Hx. apply in_app_or in Hx. destruct Hx as [Hx|[<-|[]]]; [apply A3; auto|congruence].
      * split; [|exact A2]. intros x Hx. apply in_app_or in Hx. destruct Hx as [Hx|[<-|[]]]; [apply A1; auto|congruence].
  - assert (NF : ~ isFunction y) by (intro X; apply isFunc_spec in X; congruence).
    destruct IH as [(a & b & z & -> & A1 & A2 & A3 & A4)|[A1 A2]]; [left|right].
    * exists a, (b ++ [y]), z. rewrite <- app_assoc. split; [reflexivity|]. split; [exact A1|]. split; [exact A2|]. split; [|exact A4].
      intros x Hx. apply in_app_or in Hx. destruct Hx as [Hx|[<-|[]]]; [apply A3; auto|tauto].
    * split; [|exact A2]. intros x Hx. apply in_app_or in Hx. destruct Hx as [Hx|[<-|[]]]; [apply A1; auto|tauto].
Qed.
Lemma load_keys : forall f l c, NoDup (map fst c) -> NoDup (map fst (fold_left (step f) l c)).
Proof. intros f. induction l as [|y l IH]; cbn; intros c H; [exact H|]. apply IH. unfold step. destruct (isFunc y); [apply set_keys|]; exact H. Qed.
Lemma load_in : forall f l c n s, In (n, s) (fold_left (step f) l c) -> In (n, s) c \/ exists y, In y l /\ isFunction y /\ y_name y = n /\ s = entry f y.
Proof.
  intros f. induction l as [|y l IH]; cbn; intros c n s H; [auto|]. apply IH in H. destruct H as [H|(z & Hz & R)]; [|right; exists z; auto].
  unfold step in H. destruct (isFunc y) eqn:F; [|auto]. apply set_in in H. destruct H as [H|H]; [|auto]. injection H as -> ->. right. exists y. apply isFunc_spec in F. auto.
Qed.
Lemma load_eq : forall f c, load f c = fold_left (step f) (symbols f) c.
Proof. reflexivity. Qed.

(** ** Offsets *)
Lemma code_spec : forall g, negb (g_type g =? 1) || (Z.land (g_flags g) 1 =? 0) = false <-> isCode g.
Proof.
  intro g. unfold isCode. rewrite orb_false_iff, negb_false_iff, Z.eqb_eq. change 1 with (Z.ones 1) at 2. rewrite Z.land_ones, Z.pow_1_r by lia. rewrite Zmod_odd.
  destruct (Z.odd (g_flags g)); cbn; intuition discriminate.
Qed.
Lemma offsetOf_spec : forall value segs, (forall g, In g segs -> 0 <= g_off g /\ 0 <= g_vaddr g /\ 0 <= g_memsz g /\ g_vaddr g + g_memsz g < 2 ^ 64 /\ g_off g + g_memsz g < 2 ^ 64) -> 0 <= value ->
  (exists g, In g segs /\ isCode g /\ inSeg g value /\ offsetOf value segs = g_off g + (value - g_vaddr g)) \/
  ((forall g, In g segs -> isCode g -> ~ inSeg g value) /\ offsetOf value segs = value).
Proof.
  intros value segs W V. induction segs as [|g segs IH]; [right; split; [intros g []|reflexivity]|].
  specialize (IH (fun h Hh => W h (or_intror Hh))). cbn [offsetOf].
  assert (REC : ~ (isCode g /\ inSeg g value) -> offsetOf value (g :: segs) = offsetOf value segs -> (exists g0, In g0 (g :: segs) /\ isCode g0 /\ inSeg g0 value /\ offsetOf value (g :: segs) = g_off g0 + (value - g_vaddr g0)) \/
    ((forall g0, In g0 (g :: segs) -> isCode g0 -> ~ inSeg g0 value) /\ offsetOf value (g :: segs) = value)).
  { intros N E. rewrite E. destruct IH as [(h & H1 & H2)|[H1 H2]]; [left; exists h; split; [right; auto|auto]|]. right. split; [|exact H2].
    intros h [<-|Hh] C X; [tauto|]. apply (H1 h Hh C X). }
  cbn [offsetOf] in REC. destruct (negb (g_type g =? 1) || (Z.land (g_flags g) 1 =? 0)) eqn:C.
  - apply REC; [|reflexivity]. intros [X _]. apply code_spec in X. congruence.
  - apply code_spec in C. destruct (W g (or_introl eq_refl)) as (W1 & W2 & W3 & W4 & W5).
    assert (U : u64 (g_vaddr g + g_memsz g) = g_vaddr g + g_memsz g) by (unfold u64, wrapu; apply Z.mod_small; lia). rewrite U in *.
    destruct ((g_vaddr g <=? value) && (value <? g_vaddr g + g_memsz g)) eqn:I.
    + left. exists g. apply andb_true_iff in I. assert (IS : inSeg g value) by (unfold inSeg; lia). split; [left; reflexivity|]. split; [exact C|]. split; [exact IS|].
      unfold inSeg in IS. unfold u64, wrapu. rewrite (Z.mod_small (value - _)) by lia. rewrite Z.mod_small by lia. lia.
    + apply REC; [|reflexivity]. intros [_ X]. unfold inSeg in X. apply andb_false_iff in I. lia.
Qed.
Lemma startsAt_spec : forall f y, wfFile f -> In y (symbols f) -> startsAt f y (offsetOf (y_value y) (f_segs f)) /\ forall r, startsAt f y r -> r = offsetOf (y_value y) (f_segs f).
Proof.
  intros f y (W1 & W2 & W3) Hy. destruct (W3 y Hy) as (V & _).
  destruct (offsetOf_spec (y_value y) (f_segs f) W1 V) as [(g & G1 & G2 & G3 & G4)|[N E]]; unfold startsAt, loadedFrom.
  - split; [left; exists g; repeat split; auto; try apply G2; try apply G3; lia|]. intros r [(h & H1 & H2 & H3 & H4)|[X _]]; [|exfalso; eapply X; eauto].
    assert (g = h) by (eapply W2; eauto). subst h. lia.
  - split; [right; split; auto|]. intros r [(h & H1 & H2 & H3 & H4)|[_ X]]; [exfalso; eapply N; eauto|congruence].
Qed.
Lemma range_spec : forall f y, wfFile f -> In y (symbols f) -> 0 <= offsetOf (y_value y) (f_segs f) /\ offsetOf (y_value y) (f_segs f) + y_size y < 2 ^ 64 /\ 0 <= y_size y.
Proof.
  intros f y (W1 & W2 & W3) Hy. destruct (W3 y Hy) as (V & S0 & S1 & [(g & G1 & G2 & G3 & G4)|N]).
  - destruct (offsetOf_spec (y_value y) (f_segs f) W1 V) as [(h & H1 & H2 & H3 & H4)|[X E]]; [|exfalso; eapply X; eauto].
    assert (g = h) by (eapply W2; eauto). subst h. destruct (W1 g G1). unfold inSeg in G3. lia.
  - destruct (offsetOf_spec (y_value y) (f_segs f) W1 V) as [(h & H1 & H2 & H3 & H4)|[X E]]; [exfalso; eapply N; eauto|]. lia.
Qed.
Lemma last_in : forall f n y, lastFunction f n y -> In y (symbols f).
Proof. intros f n y (l & r & -> & _). apply in_or_app. right. left. reflexivity. Qed.
Lemma cache_spec : forall f name, let c := load f [] in
  (exists y, lastFunction f name y /\ get_ name c = Some (entry f y)) \/ ((forall y, In y (symbols f) -> isFunction y -> y_name y <> name) /\ get_ name c = None).
Proof.
  intros f name c. subst c. rewrite load_eq. destruct (load_get f [] name (symbols f)) as [(a & b & y & E & A1 & A2 & A3 & A4)|[A1 A2]]; [left|right].
  - exists y. split; [exists a, b; auto|exact A4].
  - split; [exact A1|exact A2].
Qed.
Lemma last_unique : forall f n y z, lastFunction f n y -> lastFunction f n z -> y = z.
Proof.
  intros f n y z (l & r & E & N & F & L) (l' & r' & E' & N' & F' & L'). rewrite E in E'. clear E. revert l' E'.
  induction l as [|x l IH]; intros [|x' l'] E'; cbn in E'; injection E' as E1 E2; subst; auto.
  - exfalso. apply (L z); auto. apply in_or_app. right. left. reflexivity.
  - exfalso. apply (L' y); auto. apply in_or_app. right. left. reflexivity.
  - eapply IH; eauto.
Qed.

(** ** C86 *)

(** The probe is placed where the instruction [off] bytes into the last function of that name
    is loaded from. *)
Theorem C86_offset : forall f name off ex r, wfFile f -> 0 <= off ->
  address (Parsed f) OpenExecutable name 0 off = (ex, Ok r) ->
  exists y, lastFunction f name y /\ off < y_size y /\ (loadedFrom f (y_value y + off) r \/ notLoaded f (y_value y) /\ r = y_value y + off).
Proof.
  intros f name off ex r W O H. unfold address in H. cbn -[load] in H.
  destruct (cache_spec f name) as [(y & L & E)|[_ E]]; rewrite E in H; [|discriminate]. cbn in H.
  destruct (offsetOf (y_value y) (f_segs f) =? 0); [discriminate|]. destruct (Z.leb_spec (y_size y) off); [discriminate|]. injection H as _ <-.
  exists y. split; [exact L|]. split; [assumption|]. pose proof (last_in _ _ _ L) as Hy. destruct (range_spec f y W Hy) as (R1 & R2 & R3).
  unfold u64, wrapu. rewrite Z.mod_small by lia. destruct (startsAt_spec f y W Hy) as [[(g & G1 & G2 & G3 & G4)|[N E1]] _]; [left|right].
  - exists g. split; [exact G1|]. split; [exact G2|]. split; [|lia]. destruct W as (W1 & W2 & W3). destruct (W3 y Hy) as (V & _ & _ & [(h & H1 & H2 & H3 & H4)|N]); [|exfalso; eapply N; eauto].
    assert (g = h) by (eapply W2; eauto). subst h. unfold inSeg in *. lia.
  - split; [exact N|]. lia.
Qed.
(** What is found and what is refused *)
Theorem C86_result : forall f name off, wfFile f -> 0 <= off ->
  match snd (address (Parsed f) OpenExecutable name 0 off) with
  | Ok _ => exists y, lastFunction f name y /\ off < y_size y /\ ~ startsAt f y 0
  | Err ENoSymbol => forall y, In y (symbols f) -> isFunction y -> y_name y <> name
  | Err ENotSupported => exists y, lastFunction f name y /\ startsAt f y 0
  | Err ERange => exists y, lastFunction f name y /\ y_size y <= off
  | Err _ => False
  end.
Proof.
  intros f name off W O. unfold address. cbn -[load]. destruct (cache_spec f name) as [(y & L & E)|[N E]]; rewrite E; [|exact N]. cbn.
  pose proof (last_in _ _ _ L) as Hy. destruct (startsAt_spec f y W Hy) as [S1 S2].
  destruct (Z.eqb_spec (offsetOf (y_value y) (f_segs f)) 0) as [Z0|Z0]; cbn; [exists y; split; [exact L|rewrite <- Z0; exact S1]|].
  destruct (Z.leb_spec (y_size y) off); cbn; exists y; split; auto. split; [assumption|]. intro X. apply S2 in X. congruence.
Qed.
(** A given address is used as it is, without reading the file. *)
Theorem C86_given : forall p ex name a off, 0 < a -> 0 <= off -> a + off < 2 ^ 64 -> address p ex name a off = (ex, Ok (a + off)).
Proof.
  intros p ex name a off A O B. unfold address. destruct (Z.ltb_spec 0 a); [|lia]. unfold u64, wrapu. rewrite Z.mod_small by lia. reflexivity.
Qed.

(** ** The other direction *)

(** The function found at an address contains it, whatever the order of the map; a probe at
    the result is at that address. *)
Theorem C86_symbol : forall f order a ex n off, wfFile f -> (forall c, Permutation (order c) c) ->
  Symbol (Parsed f) order OpenExecutable a = (ex, Ok (n, off)) ->
  (exists y s, lastFunction f n y /\ startsAt f y s /\ s <= a < s + y_size y /\ off = a - s) /\
  forall p, match snd (address p ex n 0 off) with Ok r => r = a | Err e => e = ENotSupported /\ a = off end.
Proof.
  intros f order a ex n off W P H. unfold Symbol in H. cbn -[load] in H.
  destruct (find _ _) as [[m s]|] eqn:F; [|discriminate]. injection H as <- <- <-. apply find_some in F. destruct F as [F1 F2]. cbn in F2.
  apply (Permutation_in _ (P (load f []))) in F1.
  assert (ND : NoDup (map fst (load f []))) by (rewrite load_eq; apply load_keys; constructor).
  apply get_in in F1; [|exact ND]. destruct (cache_spec f m) as [(y & L & E)|[_ E]]; rewrite E in F1; [|discriminate]. injection F1 as <-.
  pose proof (last_in _ _ _ L) as Hy. destruct (startsAt_spec f y W Hy) as [S1 S2]. destruct (range_spec f y W Hy) as (R1 & R2 & R3).
  unfold contains, entry in F2. cbn in F2. assert (U : u64 (offsetOf (y_value y) (f_segs f) + y_size y) = offsetOf (y_value y) (f_segs f) + y_size y) by (unfold u64, wrapu; apply Z.mod_small; lia).
  rewrite U in F2. apply andb_true_iff in F2. destruct F2 as [F2 F3]. apply Z.leb_le in F2. apply Z.ltb_lt in F3.
  assert (D : u64 (a - addr (entry f y)) = a - offsetOf (y_value y) (f_segs f)) by (cbn; unfold u64, wrapu; apply Z.mod_small; lia). rewrite D. split.
  - exists y, (offsetOf (y_value y) (f_segs f)). auto.
  - intro p. unfold address. cbn -[load]. rewrite E. cbn. destruct (Z.eqb_spec (offsetOf (y_value y) (f_segs f)) 0) as [Z0|Z0]; cbn; [split; [reflexivity|lia]|].
    destruct (Z.leb_spec (y_size y) (a - offsetOf (y_value y) (f_segs f))); [lia|]. cbn. unfold u64, wrapu. rewrite Z.mod_small; lia.
Qed.
(** No function is found only if there is none. *)
Theorem C86_no_symbol : forall f order a ex e, wfFile f -> (forall c, Permutation (order c) c) ->
  Symbol (Parsed f) order OpenExecutable a = (ex, Err e) ->
  e = ENoSymbol /\ forall n y s, lastFunction f n y -> startsAt f y s -> ~ s <= a < s + y_size y.
Proof.
  intros f order a ex e W P H. unfold Symbol in H. cbn -[load] in H. destruct (find _ _) as [[m s]|] eqn:F; [discriminate|]. injection H as _ <-. split; [reflexivity|].
  intros n y s L S X. pose proof (last_in _ _ _ L) as Hy. destruct (startsAt_spec f y W Hy) as [S1 S2]. apply S2 in S. subst s. destruct (range_spec f y W Hy) as (R1 & R2 & R3).
  assert (I : In (n, entry f y) (order (load f []))).
  { apply (Permutation_in _ (Permutation_sym (P (load f [])))). apply get_in; [rewrite load_eq; apply load_keys; constructor|].
    destruct (cache_spec f n) as [(z & L' & E)|[N _]]; [rewrite (last_unique _ _ _ _ L L'); exact E|]. destruct L as (l & r & _ & E & Fn & _). exfalso. eapply N; eauto. }
  pose proof (find_none _ _ F _ I) as C. unfold contains, entry in C. cbn in C.
  assert (U : u64 (offsetOf (y_value y) (f_segs f) + y_size y) = offsetOf (y_value y) (f_segs f) + y_size y) by (unfold u64, wrapu; apply Z.mod_small; lia).
  rewrite U in C. apply andb_false_iff in C. lia.
Qed.

(** ** Many symbols *)
Definition mentions (symbols : option (list string)) (addresses offsets : option (list Z)) (i : nat) : string * Z * Z :=
  (match symbols with Some l => nth i l EmptyString | None => EmptyString end,
   match addresses with Some l => nth i l 0 | None => 0 end, match offsets with Some l => nth i l 0 | None => 0 end).
(** ** What is read stays *)
Inductive query := QAddress (name : string) (a off : Z) | QSymbol (order : cache -> cache) (a : Z).
Definition answer (p : parsed) (ex : exe) (q : query) : exe * (res failure Z + res failure (string * Z)) :=
  match q with
  | QAddress n a off => let '(ex, r) := address p ex n a off in (ex, inl r)
  | QSymbol order a => let '(ex, r) := Symbol p order ex a in (ex, inr r)
  end.
Fixpoint session (ex : exe) (l : list (parsed * query)) : list (res failure Z + res failure (string * Z)) :=
  match l with
  | [] => []
  | (p, q) :: r => let '(ex, x) := answer p ex q in x :: session ex r
  end.
Lemma answer_once : forall p q c, answer p (Exe true c) q = (Exe true c, snd (answer p (Exe true c) q)).
Proof.
  intros p [n a off|order a] c; cbn.
  - unfold address. destruct (0 <? a); [reflexivity|]. cbn. destruct (get_ n c) as [s|]; [|reflexivity]. destruct (addr s =? 0); [reflexivity|]. destruct (size s <=? off); reflexivity.
  - unfold Symbol. cbn. destruct (find _ _) as [[n s]|]; reflexivity.
Qed.
Lemma answer_same : forall p f q, snd (answer p (Exe true (load f [])) q) = snd (answer (Parsed f) OpenExecutable q).
Proof.
  intros p f [n a off|order a]; cbn -[load].
  - unfold address. destruct (0 <? a); [reflexivity|]. cbn -[load]. destruct (get_ n (load f [])) as [s|]; [|reflexivity]. destruct (addr s =? 0); [reflexivity|]. destruct (size s <=? off); reflexivity.
  - unfold Symbol. cbn -[load]. destruct (find _ _) as [[n s]|]; reflexivity.
Qed.
Lemma session_once : forall f l, session (Exe true (load f [])) l = map (fun x => snd (answer (Parsed f) OpenExecutable (snd x))) l.
Proof.
  intros f l. induction l as [|[p q] l IH]; [reflexivity|]. cbn [session map snd]. rewrite answer_once, answer_same, IH. reflexivity.
Qed.
(** The symbols are those of the file when they were first asked for: all later answers are as if
    the file had not changed. *)
Definition needsFile (q : query) : bool := match q with QAddress _ a _ => a <=? 0 | QSymbol _ _ => true end.
Theorem C86_once : forall f l1 q l2, Forall (fun x => needsFile (snd x) = false) l1 -> needsFile q = true ->
  session OpenExecutable (l1 ++ (Parsed f, q) :: l2) = map (fun x => snd (answer (Parsed f) OpenExecutable (snd x))) (l1 ++ (Parsed f, q) :: l2).
Proof.
  intros f l1 q l2 H Q. induction l1 as [|[p q1] l1 IH]; cbn [app].
  - assert (E : answer (Parsed f) OpenExecutable q = (Exe true (load f []), snd (answer (Parsed f) OpenExecutable q))).
    { destruct q as [n a off|order a]; cbn -[load] in *.
      - unfold address. destruct (Z.ltb_spec 0 a); [lia|]. cbn -[load]. destruct (get_ n (load f [])) as [s|]; [|reflexivity]. destruct (addr s =? 0); [reflexivity|]. destruct (size s <=? off); reflexivity.
      - unfold Symbol. cbn -[load]. destruct (find _ _) as [[n s]|]; reflexivity. }
    cbn [session map snd]. rewrite E, session_once. reflexivity.
  - inversion H as [|x xs N1 N2]; subst. cbn in N1. destruct q1 as [n a off|order a]; [|discriminate]. cbn in N1.
    cbn [session map snd answer]. unfold address. destruct (Z.ltb_spec 0 a); [|lia]. rewrite (IH N2). reflexivity.
Qed.
(** Only the first caller learns that the file can't be read; later ones that the symbol is
    unknown, even if the file can be read by then. *)
Theorem C86_errors_refuted : forall f name, session OpenExecutable [(Unreadable, QAddress name 0 0); (Parsed f, QAddress name 0 0)] = [inl (Err ELoad); inl (Err ENoSymbol)].
Proof. reflexivity. Qed.

Lemma addressLoop_spec : forall f syms addrs offs is ex acc, ex = OpenExecutable \/ ex = Exe true (load f []) ->
  match snd (addressLoop (Parsed f) ex syms addrs offs is acc) with
  | Ok rs => exists tl, rs = acc ++ tl /\ Forall2 (fun i r => let '(n, a, o) := mentions syms addrs offs i in snd (address (Parsed f) OpenExecutable n a o) = Ok r) is tl
  | Err e => exists i, In i is /\ let '(n, a, o) := mentions syms addrs offs i in snd (address (Parsed f) OpenExecutable n a o) = Err e
  end.
Proof.
  intros f syms addrs offs. induction is as [|i is IH]; intros ex acc EX; cbn -[load address]; [exists []; rewrite app_nil_r; split; [reflexivity|constructor]|].
  assert (A : forall n a o, exists ex', (ex' = OpenExecutable \/ ex' = Exe true (load f [])) /\ address (Parsed f) ex n a o = (ex', snd (address (Parsed f) OpenExecutable n a o))).
  { intros n a o. destruct EX as [-> | ->].
    - unfold address. destruct (0 <? a); [eauto|]. cbn -[load]. exists (Exe true (load f [])). split; [auto|]. destruct (get_ n (load f [])) as [s|]; [|reflexivity]. destruct (addr s =? 0); [reflexivity|]. destruct (size s <=? o); reflexivity.
    - exists (Exe true (load f [])). split; [auto|]. pose proof (answer_once (Parsed f) (QAddress n a o) (load f [])) as X. pose proof (answer_same (Parsed f) f (QAddress n a o)) as Y. cbn -[load address] in X, Y.
      destruct (address (Parsed f) (Exe true (load f [])) n a o) as [e1 r1]. destruct (address (Parsed f) OpenExecutable n a o) as [e2 r2]. cbn in *. injection X as ->. injection Y as ->. reflexivity. }
  destruct (A (at_ EmptyString syms i) (at_ 0 addrs i) (at_ 0 offs i)) as (ex' & EX' & E). rewrite E.
  assert (M : mentions syms addrs offs i = (at_ EmptyString syms i, at_ 0 addrs i, at_ 0 offs i)) by reflexivity.
  destruct (snd (address (Parsed f) OpenExecutable (at_ EmptyString syms i) (at_ 0 addrs i) (at_ 0 offs i))) as [r|e] eqn:R.
  - specialize (IH ex' (acc ++ [r]) EX'). destruct (snd (addressLoop (Parsed f) ex' syms addrs offs is (acc ++ [r]))) as [rs|e].
    + destruct IH as (tl & -> & F2). exists (r :: tl). rewrite <- app_assoc. split; [reflexivity|]. constructor; [exact R|exact F2].
    + destruct IH as (j & Hj & X). exists j. split; [right; exact Hj|exact X].
  - cbn [snd]. exists i. split; [left; reflexivity|]. exact R.
Qed.
Lemma F2_len : forall A B (R : A -> B -> Prop) a b, Forall2 R a b -> List.length a = List.length b.
Proof. intros A B R a b H. induction H; cbn; congruence. Qed.
(** With many symbols, the i-th result is that for the i-th symbol, address and offset; lists
    that are given have the same length. *)
Theorem C86_multi : forall f syms addrs offs,
  match snd (addresses (Parsed f) OpenExecutable syms addrs offs) with
  | Ok rs => (0 < List.length rs)%nat /\ (forall l, syms = Some l -> List.length l = List.length rs) /\ (forall l, addrs = Some l -> List.length l = List.length rs) /\
      (forall l, offs = Some l -> List.length l = List.length rs) /\ (syms <> None \/ addrs <> None) /\
      forall i, (i < List.length rs)%nat -> let '(n, a, o) := mentions syms addrs offs i in snd (address (Parsed f) OpenExecutable n a o) = Ok (nth i rs 0)
  | Err EInvalid => (match syms, addrs with Some (_ :: _), _ | _, Some (_ :: _) => False | _, _ => True end) \/
      exists n m, n <> m /\ (syms <> None /\ len syms = n \/ addrs <> None /\ len addrs = n \/ offs <> None /\ len offs = n) /\ (len syms = m \/ len addrs = m)
  | Err e => exists i, let '(n, a, o) := mentions syms addrs offs i in snd (address (Parsed f) OpenExecutable n a o) = Err e
  end.
Proof.
  intros f syms addrs offs. unfold addresses. set (n := if Nat.eqb (len syms) 0 then len addrs else len syms).
  destruct (Nat.eqb_spec n 0) as [N0|N0].
  - cbn. left. subst n. destruct (Nat.eqb_spec (len syms) 0) as [S0|S0]; [|congruence]. destruct syms as [[|]|]; cbn in S0; try discriminate; destruct addrs as [[|]|]; cbn in N0; try discriminate; exact I.
  - assert (NM : len syms = n \/ len addrs = n) by (subst n; destruct (Nat.eqb (len syms) 0); auto).
    destruct (wrong syms n || wrong addrs n || wrong offs n) eqn:WR.
    + cbn. right. rewrite !orb_true_iff in WR.
      assert (WS : forall A (o : option (list A)), wrong o n = true -> o <> None /\ len o <> n).
      { intros A [l|] X; [|discriminate]. cbn in *. apply negb_true_iff, Nat.eqb_neq in X. split; [discriminate|exact X]. }
      destruct WR as [[WR|WR]|WR]; apply WS in WR; destruct WR as [W1 W2]; eexists; exists n; (split; [exact W2|split; [|exact NM]]); auto.
    + rewrite !orb_false_iff in WR. destruct WR as [[WA WB] WC].
      assert (WS : forall A (o : option (list A)), wrong o n = false -> forall l, o = Some l -> List.length l = n).
      { intros A o X l ->. cbn in X. apply negb_false_iff, Nat.eqb_eq in X. exact X. }
      pose proof (addressLoop_spec f syms addrs offs (seq 0 n) OpenExecutable [] (or_introl eq_refl)) as L.
      destruct (snd (addressLoop (Parsed f) OpenExecutable syms addrs offs (seq 0 n) [])) as [rs|e].
      * destruct L as (tl & E & F2). cbn in E. subst tl.
        assert (LN : List.length rs = n) by (clear - F2; apply F2_len in F2; rewrite seq_length in F2; auto).
        rewrite LN. split; [lia|]. split; [eauto|]. split; [eauto|]. split; [eauto|]. split; [destruct syms; [left; discriminate|right; destruct addrs; [discriminate|subst n; cbn in N0; congruence]]|].
        intros i Hi. assert (G : forall k l rs', Forall2 (fun i r => let '(n, a, o) := mentions syms addrs offs i in snd (address (Parsed f) OpenExecutable n a o) = Ok r) (seq k l) rs' ->
          forall i, (i < l)%nat -> let '(n, a, o) := mentions syms addrs offs (k + i)%nat in snd (address (Parsed f) OpenExecutable n a o) = Ok (nth i rs' 0)).
        { clear. intros k l. revert k. induction l as [|l IH]; intros k rs' H i Hi; [lia|]. cbn in H. inversion H as [|x y xs ys X1 X2]; subst. destruct i as [|i]; [rewrite Nat.add_0_r; exact X1|].
          specialize (IH _ _ X2 i ltac:(lia)). replace (k + S i)%nat with (S k + i)%nat by lia. exact IH. }
        exact (G 0%nat n rs F2 i Hi).
      * destruct L as (i & _ & X). destruct e; try (exists i; exact X).
        exfalso. destruct (mentions syms addrs offs i) as [[nm a] o]. unfold address in X. destruct (0 <? a); [discriminate|]. cbn -[load] in X.
        destruct (get_ nm (load f [])) as [s|]; [|discriminate]. destruct (addr s =? 0); [discriminate|]. destruct (size s <=? o); discriminate.
Qed.

(** ** Example: two functions in a segment mapped from offset 0x1000 to 0x401000, a symbol of a
    library, and two functions of the same name *)
Section Example.
Local Open Scope string_scope.
Definition fl : file := File
  [ESym "main" 18 0x401100 0x50; ESym "data" 17 0x401100 8; ESym "f" 18 0x401200 16; ESym "f" 2 0x401300 16]
  [ESym "puts" 18 0 0]
  [Seg 6 4 64 0x400040 0x200; Seg 1 4 0 0x400000 0x500; Seg 1 5 0x1000 0x401000 0x1000; Seg 1 6 0x2000 0x403000 0x100].
Example C86_ex_wf : wfFile fl.
Proof.
  split; [|split].
  - intros g H. cbn in H. repeat (destruct H as [<-|H]; [cbn; lia|]). destruct H.
  - intros g h v Hg Hh Cg Ch _ _.
    assert (X : forall g, In g (f_segs fl) -> isCode g -> g = Seg 1 5 0x1000 0x401000 0x1000); [|rewrite (X g), (X h) by assumption; reflexivity].
    clear. intros g H C. cbn in H. repeat (destruct H as [<-|H]; [destruct C as [C1 C2]; try discriminate; try reflexivity|]). destruct H.
  - intros y H. cbn in H. assert (G : isCode (Seg 1 5 0x1000 0x401000 0x1000)) by (split; reflexivity).
    assert (I : In (Seg 1 5 0x1000 0x401000 0x1000) (f_segs fl)) by (cbn; tauto).
    repeat (destruct H as [<-|H]; [cbn [y_value y_size]; split; [lia|]; split; [lia|]; split; [lia|];
      first [left; exists (Seg 1 5 0x1000 0x401000 0x1000); split; [exact I|]; split; [exact G|]; unfold inSeg; cbn [g_vaddr g_memsz]; split; lia
            |right; intros g Hg Cg Ig; cbn in Hg; repeat (destruct Hg as [<-|Hg]; [destruct Cg as [C1 C2]; try discriminate; unfold inSeg in Ig; cbn in Ig; lia|]); destruct Hg]|]). destruct H.
Qed.
Example C86_ex : session OpenExecutable
  [ (Unreadable, QAddress "x" 0x10 5); (Parsed fl, QAddress "main" 0 5); (Unreadable, QAddress "f" 0 0); (Unreadable, QAddress "f" 0 16); (Unreadable, QAddress "puts" 0 0);
    (Unreadable, QAddress "data" 0 0); (Unreadable, QSymbol (@rev _) 0x1105); (Unreadable, QSymbol (fun c => c) 0x1150) ]
  = [inl (Ok 0x15); inl (Ok 0x1105); inl (Ok 0x1300); inl (Err ERange); inl (Err ENotSupported); inl (Err ENoSymbol); inr (Ok ("main", 5)); inr (Err ENoSymbol)].
Proof. reflexivity. Qed.
Example C86_ex_multi : snd (addresses (Parsed fl) OpenExecutable (Some ["main"; "f"]) None (Some [1; 2])) = Ok [0x1101; 0x1302].
Proof. reflexivity. Qed.
(** A symbol and an address may both be given; then the address counts. *)
Theorem C86_exclusive_refuted : snd (addresses (Parsed fl) OpenExecutable (Some ["main"; "f"]) (Some [0x77; 0]) None) = Ok [0x77; 0x1300].
Proof. reflexivity. Qed.
End Example.
Print Assumptions C86_offset.
Print Assumptions C86_result.
Print Assumptions C86_given.
Print Assumptions C86_symbol.
Print Assumptions C86_no_symbol.
Print Assumptions C86_once.
Print Assumptions C86_multi.
Print Assumptions C86_errors_refuted.
Print Assumptions C86_exclusive_refuted.
