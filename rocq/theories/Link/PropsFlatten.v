(** C45: linking of bpf-to-bpf calls. *)
From Coq Require Import String.
From Verif Require Import Base.GoInt Asm.Model Asm.Spec Asm.Proof Asm.ProofStream Asm.ProofOps Asm.Props Link.Flatten.
Open Scope Z_scope.

(** *** Specification *)
Definition body (progs : programs) (f : string) (l : list instr) : Prop := lookup f progs = Some l.
(** the instructions contain an unresolved call of, or take the address of, the function [f] *)
Definition calls (l : list instr) (f : string) : Prop :=
  f <> EmptyString /\ exists i, In i l /\ Constant i = -1 /\ Reference i = f /\
    ((is_call (OpCode i) /\ Src i = 1) \/ (is_dword (OpCode i) /\ Src i = 4)).
(** [f] is called by [name], directly or indirectly *)
Inductive reaches (progs : programs) (name : string) : string -> Prop :=
| R_direct l f : body progs name l -> calls l f -> reaches progs name f
| R_indirect g l f : reaches progs name g -> body progs g l -> calls l f -> reaches progs name f.

Lemma pending_call i : isPendingCall i = true <-> Reference i <> EmptyString /\ Constant i = -1 /\ ((is_call (OpCode i) /\ Src i = 1) \/ (is_dword (OpCode i) /\ Src i = 4)).
Proof.
  unfold isPendingCall, IsFunctionReference, IsFunctionCall, IsLoadOfFunctionPointer, is_dword, PseudoCall, PseudoFunc. rewrite IsDWordLoad_eq.
  pose proof (JumpOp_call (OpCode i)) as J. destruct (String.eqb_spec (Reference i) EmptyString); cbn [negb andb]; [rewrite andb_false_r; cbn; intuition congruence|].
  destruct (JumpOp (OpCode i) =? Call); [assert (is_call (OpCode i)) by tauto|assert (~ is_call (OpCode i)) by (intros C; apply J in C; discriminate)];
  destruct (Z.eqb_spec (Src i) 1), (Z.eqb_spec (OpCode i) 24), (Z.eqb_spec (Src i) 4), (Z.eqb_spec (Constant i) (-1)); cbn [andb orb]; split; intros; try tauto; try discriminate; intuition congruence.
Qed.
Lemma refs_spec l f : In f (FunctionReferences l) <-> calls l f.
Proof.
  unfold FunctionReferences. rewrite (proj1 (proj2 (sort_strings_spec _))). rewrite (proj2 (call_set_spec l [] ltac:(constructor))). unfold calls. split.
  - intros [[]|(i & Hi & <- & P)]. apply pending_call in P as (P1 & P2 & P3). split; [exact P1|]. exists i. auto.
  - intros (N & i & Hi & C & <- & P). right. exists i. split; [exact Hi|]. split; [reflexivity|]. apply pending_call. auto.
Qed.

Lemma existsb_In ref linked : existsb (String.eqb ref) linked = true <-> In ref linked.
Proof. rewrite existsb_exists. split; [intros (x & Hx & E); apply String.eqb_eq in E; now subst|intros H; exists ref; split; [exact H|apply String.eqb_refl]]. Qed.

(** *** The loop *)
Definition weight (progs0 progs : programs) (linked : list string) : nat :=
  fold_right (fun p n => (if existsb (String.eqb (fst p)) linked then 0 else List.length (FunctionReferences (snd p))) + n)%nat 0%nat progs.
Lemma weight_link progs0 progs ref linked l : lookup ref progs = Some l -> existsb (String.eqb ref) linked = false ->
  (weight progs0 progs (ref :: linked) + List.length (FunctionReferences l) <= weight progs0 progs linked)%nat.
Proof.
  unfold weight. induction progs as [|(n, l0) progs IH]; [discriminate|]. cbn [lookup fold_right fst snd existsb]. intros E N.
  assert (Mono : (fold_right (fun p n => (if (String.eqb (fst p) ref || existsb (String.eqb (fst p)) linked)%bool then 0 else List.length (FunctionReferences (snd p))) + n) 0 progs <=
    fold_right (fun p n => (if existsb (String.eqb (fst p)) linked then 0 else List.length (FunctionReferences (snd p))) + n) 0 progs)%nat).
  { clear. induction progs as [|(n, l) progs IH]; cbn [fold_right fst snd]; [lia|]. destruct (String.eqb n ref), (existsb (String.eqb n) linked); cbn [orb]; lia. }
  destruct (String.eqb_spec ref n) as [<-|Ne].
  - injection E as <-. rewrite String.eqb_refl, N. cbn [orb]. lia.
  - specialize (IH E N). rewrite String.eqb_sym. destruct (String.eqb_spec ref n); [congruence|]. cbn [orb]. destruct (existsb (String.eqb n) linked); cbn [existsb] in IH |- *; lia.
Qed.

Record Inv (progs : programs) (name : string) (base insns : list instr) (pending order : list string) : Prop := {
  v_insns : insns = base ++ concat (map (fun f => match lookup f progs with Some l => l | None => [] end) order);
  v_nodup : NoDup order;
  v_present : forall f, In f order -> lookup f progs <> None;
  v_reach : forall f, In f order \/ In f pending -> reaches progs name f;
  v_closed : forall g l f, g = name \/ In g order -> body progs g l -> calls l f -> In f order \/ In f pending \/ lookup f progs = None }.
Lemma loop_ok progs name base : body progs name base -> forall fuel insns pending linked order, (forall f, In f linked <-> In f order) ->
  Inv progs name base insns pending order -> (List.length pending + weight progs progs linked < fuel)%nat ->
  exists res order', flatten_loop fuel progs insns pending linked = Some res /\ Inv progs name base res [] order'.
Proof.
  intros B. induction fuel as [|fuel IH]; intros insns pending linked order HL V F; [lia|]. cbn [flatten_loop]. destruct pending as [|ref pending]; [eauto|]. cbn [List.length] in F.
  destruct (existsb (String.eqb ref) linked) eqn:Ex.
  - apply (IH insns pending linked order HL); [|lia]. apply existsb_In in Ex. apply HL in Ex. destruct V as [V1 V2 V3 V4 V5]. constructor; auto.
    + intros f [H|H]; apply V4; [auto|right; now right].
    + intros g l f Hg Hb Hc. destruct (V5 g l f Hg Hb Hc) as [H|[[<-|H]|H]]; auto.
  - destruct (lookup ref progs) as [l|] eqn:El.
    + apply (IH (insns ++ l) (pending ++ refs_of progs ref) (ref :: linked) (order ++ [ref])).
      * intros f. cbn [In]. rewrite in_app_iff, HL. cbn [In]. tauto.
      * assert (Nin : ~ In ref order) by (rewrite <- HL, <- existsb_In, Ex; discriminate). assert (Rr : reaches progs name ref) by (apply (v_reach _ _ _ _ _ _ V); right; now left).
        destruct V as [V1 V2 V3 V4 V5]. unfold refs_of. rewrite El. constructor.
        -- rewrite V1, map_app, concat_app. cbn [map concat]. rewrite El, app_nil_r. now rewrite app_assoc.
        -- apply NoDup_Add with (a := ref) (l := order); [|split; assumption]. rewrite <- (app_nil_r order) at 1. apply Add_app.
        -- intros f H. apply in_app_or in H as [H|[<-|[]]]; [auto|congruence].
        -- intros f [H|H]; apply in_app_or in H as [H|H].
           ++ apply V4. now left.
           ++ destruct H as [<-|[]]. exact Rr.
           ++ apply V4. right. now right.
           ++ apply refs_spec in H. eapply R_indirect; [exact Rr|exact El|exact H].
        -- intros g lg f Hg Hb Hc. rewrite !in_app_iff. 
           assert (X : (g = name \/ In g order) \/ g = ref) by (destruct Hg as [->|Hg]; [auto|apply in_app_or in Hg as [Hg|[<-|[]]]; auto]). destruct X as [X| ->].
           ++ destruct (V5 g lg f X Hb Hc) as [H|[[<-|H]|H]]; auto. left. right. now left.
           ++ right. left. right. apply refs_spec. unfold body in Hb. rewrite El in Hb. injection Hb as <-. exact Hc.
      * unfold refs_of. rewrite El. rewrite app_length. pose proof (weight_link progs progs ref linked l El Ex). lia.
    + apply (IH insns pending linked order HL); [|lia]. destruct V as [V1 V2 V3 V4 V5]. constructor; auto.
      * intros f [H|H]; apply V4; [auto|right; now right].
      * intros g l f Hg Hb Hc. destruct (V5 g l f Hg Hb Hc) as [H|[[<-|H]|H]]; auto.
Qed.
Lemma weight_nil progs0 progs : weight progs0 progs [] = fold_right (fun p n => List.length (FunctionReferences (snd p)) + n)%nat 0%nat progs.
Proof. reflexivity. Qed.
Lemma weight_lookup progs name l : lookup name progs = Some l -> (List.length (FunctionReferences l) <= fold_right (fun p n => List.length (FunctionReferences (snd p)) + n) 0 progs)%nat.
Proof. induction progs as [|(n, l0) progs IH]; [discriminate|]. cbn [lookup fold_right snd]. destruct (String.eqb name n); [intros E; injection E as ->; lia|]. intros E. specialize (IH E). lia. Qed.

(** ** C45 *)
(** For every set of programs, cyclic or not: the flattened program consists of the instructions of the program followed by
    those of every program it calls directly or indirectly, each once and in one piece.  Functions that are not in the set
    (extern functions) are left out. *)
Theorem C45_flatten : forall progs name l, body progs name l ->
  exists res order, flattenInstructions name progs = Some res /\ NoDup order /\
    (forall f, In f order <-> reaches progs name f /\ exists lf, body progs f lf) /\
    exists bodies, Forall2 (body progs) order bodies /\ res = l ++ concat bodies.
Proof.
  intros progs name l B. 
  assert (X : exists res order, flattenInstructions name progs = Some res /\ Inv progs name l res [] order).
  { unfold flattenInstructions. rewrite B. destruct (FunctionReferences l) as [|r rs] eqn:E.
    - exists l, []. split; [reflexivity|]. constructor; [cbn; now rewrite app_nil_r|constructor|intros f []|intros f [[]|[]]|].
      intros g lg f [->|[]] Hb Hc. unfold body in *. assert (lg = l) by congruence. subst lg. apply refs_spec in Hc. rewrite E in Hc. destruct Hc.
    - rewrite <- E. apply (loop_ok progs name l B) with (order := []).
      + intros f. reflexivity.
      + constructor; [cbn; now rewrite app_nil_r|constructor|intros f []| |].
        * intros f [[]|H]. apply refs_spec in H. eapply R_direct; eassumption.
        * intros g lg f [->|[]] Hb Hc. unfold body in *. assert (lg = l) by congruence. subst lg. right. left. now apply refs_spec.
      + rewrite weight_nil. pose proof (weight_lookup _ _ _ B). unfold flatten_fuel. lia. }
  destruct X as (res & order & E & [V1 V2 V3 V4 V5]). exists res, order. split; [exact E|]. split; [exact V2|]. split.
  - intros f. split.
    + intros H. split; [apply V4; now left|]. specialize (V3 f H). unfold body. destruct (lookup f progs); [eauto|congruence].
    + intros (R & lf & Bf). 
      assert (Y : forall g, reaches progs name g -> In g order \/ lookup g progs = None).
      { intros g Rg. induction Rg as [l0 g B0 C0|h l0 g Rh IH B0 C0].
        - destruct (V5 name l0 g (or_introl eq_refl) B0 C0) as [H|[[]|H]]; auto.
        - destruct IH as [IH|IH]; [|unfold body in B0; congruence]. destruct (V5 h l0 g (or_intror IH) B0 C0) as [H|[[]|H]]; auto. }
      destruct (Y f R) as [H|H]; [exact H|unfold body in Bf; congruence].
  - exists (map (fun f => match lookup f progs with Some l => l | None => [] end) order). split; [|exact V1]. clear -V3. induction order as [|f order IH]; cbn [map]; constructor.
    + unfold body. specialize (V3 f (or_introl eq_refl)). destruct (lookup f progs); congruence.
    + apply IH. intros g H. apply V3. now right.
Qed.
(** A program without references is returned unchanged. *)
Theorem C45_untouched : forall progs name l, body progs name l -> (forall f, ~ calls l f) -> flattenInstructions name progs = Some l.
Proof.
  intros progs name l B N. unfold flattenInstructions. rewrite B. destruct (FunctionReferences l) as [|r rs] eqn:E; [reflexivity|]. destruct (N r). apply refs_spec. rewrite E. now left.
Qed.

Lemma assign_lookup name l progs f : lookup f (assign name l progs) = if String.eqb f name then match lookup f progs with Some _ => Some l | None => None end else lookup f progs.
Proof.
  induction progs as [|(n, l0) progs IH]; cbn [assign lookup]; [now destruct (String.eqb f name)|]. destruct (String.eqb_spec name n) as [->|Ne]; cbn [lookup].
  - destruct (String.eqb_spec f n); reflexivity.
  - rewrite IH. destruct (String.eqb_spec f n) as [->|]; [|reflexivity]. destruct (String.eqb_spec n name); [congruence|reflexivity].
Qed.
Lemma assign_all_lookup f : forall ls progs, lookup f (fold_left (fun ps nl => assign (fst nl) (snd nl) ps) ls progs) =
  match lookup f progs with None => None | Some l => Some (fold_left (fun l nl => if String.eqb f (fst nl) then snd nl else l) ls l) end.
Proof.
  induction ls as [|(n, l) ls IH]; intros progs; cbn [fold_left fst snd]; [now destruct (lookup f progs)|]. rewrite IH, assign_lookup. destruct (String.eqb f n), (lookup f progs); reflexivity.
Qed.
(** flattenPrograms links the named programs, each against the original programs (nothing is linked twice), and leaves the
    others alone. *)
Theorem C45_programs : forall progs names, (forall n, In n names -> exists l, body progs n l) ->
  exists progs', flattenPrograms progs names = Some progs' /\
    forall f, (In f names -> lookup f progs' = flattenInstructions f progs /\ lookup f progs' <> None) /\ (~ In f names -> lookup f progs' = lookup f progs).
Proof.
  intros progs names H. unfold flattenPrograms.
  assert (X : exists ls, flatten_all names progs = Some ls /\ Forall2 (fun n nl => n = fst nl /\ flattenInstructions n progs = Some (snd nl)) names ls).
  { induction names as [|n names IH]; cbn [flatten_all]; [eauto|]. destruct (H n (or_introl eq_refl)) as (l & B). destruct (C45_flatten progs n l B) as (res & _ & Er & _). rewrite Er.
    destruct IH as (ls & -> & F); [intros; apply H; now right|]. exists ((n, res) :: ls). split; [reflexivity|]. constructor; [cbn; auto|exact F]. }
  destruct X as (ls & -> & F). eexists. split; [reflexivity|]. intros f. rewrite assign_all_lookup. split.
  - intros Hf. destruct (H f Hf) as (l & B). rewrite B. split; [|discriminate]. clear B H. revert l. revert Hf. induction F as [|n [n' l'] names ls (-> & En) F IH]; intros Hf l; [destruct Hf|].
    cbn [fold_left fst snd] in *. destruct (In_dec string_dec f names) as [Hi|Hi].
    + apply IH. exact Hi.
    + destruct Hf as [->|Hf]; [|contradiction]. rewrite String.eqb_refl, En. f_equal. clear -F Hi. revert l'. induction F as [|n [n'' l''] names ls (-> & _) F IH]; intros l'; [reflexivity|]. cbn [fold_left fst snd] in *.
      destruct (String.eqb_spec f n'') as [->|]; [destruct Hi; now left|]. apply IH. intros H. apply Hi. now right.
  - intros Hf. destruct (lookup f progs) as [l|]; [|reflexivity]. f_equal. clear -F Hf. revert l. induction F as [|n [n' l'] names ls (-> & _) F IH]; intros l; [reflexivity|]. cbn [fold_left fst snd] in *.
    destruct (String.eqb_spec f n') as [->|]; [destruct Hf; now left|]. apply IH. intros H. apply Hf. now right.
Qed.

(** *** The flattened program can be resolved *)
(** a function as read from an ELF: its name is the symbol of its first instruction, and there are no other symbols *)
Definition function (n : string) (l : list instr) : Prop := n <> EmptyString /\ exists i l', l = i :: l' /\ Symbol i = n /\ Forall (fun j => Symbol j = EmptyString) l'.
Definition syms (l : list instr) : list string := filter (fun s => negb (String.eqb s EmptyString)) (map Symbol l).
Lemma syms_In l a i : nth_error l a = Some i -> Symbol i <> EmptyString -> In (Symbol i) (syms l).
Proof. intros H N. apply filter_In. split; [apply in_map; eapply nth_error_In; eassumption|]. destruct (String.eqb_spec (Symbol i) EmptyString); [contradiction|reflexivity]. Qed.
Lemma syms_unique l : NoDup (syms l) -> unique_symbols l.
Proof.
  induction l as [|x l IH]; intros N a b i j Ha Hb Ni E; [destruct a; discriminate Ha|].
  assert (Nl : NoDup (syms l)).
  { unfold syms in *. cbn [map filter] in N. destruct (negb (String.eqb (Symbol x) EmptyString)); [now inversion N|exact N]. }
  assert (H0 : forall c k, nth_error l c = Some k -> Symbol x <> EmptyString -> Symbol x <> Symbol k).
  { intros c k Hk Nx Ex. unfold syms in N. cbn [map filter] in N. destruct (String.eqb_spec (Symbol x) EmptyString); [contradiction|]. cbn [negb] in N. inversion N as [|? ? Nin _]; subst. apply Nin.
    rewrite Ex. eapply syms_In; [exact Hk|congruence]. }
  destruct a as [|a], b as [|b]; cbn [nth_error] in Ha, Hb; [reflexivity|..].
  - injection Ha as ->. destruct (H0 b j Hb Ni E).
  - injection Hb as ->. symmetry in E. destruct (H0 a i Ha); congruence.
  - f_equal. eapply IH; eassumption.
Qed.
Lemma syms_function n l : function n l -> syms l = [n].
Proof.
  intros (N & i & l' & -> & <- & F). unfold syms. cbn [map filter]. destruct (String.eqb_spec (Symbol i) EmptyString); [contradiction|]. cbn [negb]. f_equal.
  induction F as [|j l' Hj F IH]; [reflexivity|]. cbn [map filter]. rewrite Hj. cbn. exact IH.
Qed.
Lemma syms_concat names bodies : Forall2 function names bodies -> syms (concat bodies) = names.
Proof.
  induction 1 as [|n l names bodies Hn F IH]; [reflexivity|]. cbn [concat]. unfold syms in *. rewrite map_app, filter_app, IH. pose proof (syms_function n l Hn) as E. unfold syms in E. now rewrite E.
Qed.
Lemma concat_block names bodies f : Forall2 function names bodies -> forall progs : programs, Forall2 (body progs) names bodies -> In f names ->
  exists t lf rest, body progs f lf /\ skipn t (concat bodies) = lf ++ rest /\ defines (concat bodies) f t.
Proof.
  intros F progs B. revert B. induction F as [|n l names bodies Hn F IH]; intros B H; [destruct H|]. inversion B; subst. destruct H as [->|H].
  - exists 0%nat, l, (concat bodies). split; [assumption|]. split; [reflexivity|]. destruct Hn as (_ & i & l' & -> & E & _). exists i. split; [reflexivity|exact E].
  - destruct (IH H5 H) as (t & lf & rest & Bf & S & (i & Hi & Es)). exists (List.length l + t)%nat, lf, rest. split; [exact Bf|]. split.
    + cbn [concat]. rewrite skipn_app, skipn_all2 by lia. cbn [app]. now replace (List.length l + t - List.length l)%nat with t by lia.
    + exists i. split; [|exact Es]. cbn [concat]. rewrite nth_error_app2 by lia. now replace (List.length l + t - List.length l)%nat with t by lia.
Qed.

(** If every program is a function, its unresolved references are calls of programs in the set, and the program doesn't
    call itself, then resolving the references of the flattened program succeeds; by C07_references_land every call then
    leads to the symbol, which is the start of the instructions of the callee. *)
Theorem C45_resolves : forall progs name l res l2 e,
  (forall n ln, body progs n ln -> function n ln) ->
  (forall n ln i, body progs n ln -> In i ln -> pending_imm i \/ pending_off i -> calls [i] (Reference i) /\ exists lf, body progs (Reference i) lf) ->
  body progs name l -> ~ reaches progs name name -> flattenInstructions name progs = Some res -> Z.of_nat (List.length res) < 2 ^ 62 ->
  encodeFunctionReferences res = (l2, e) ->
  e = None /\ unique_symbols res /\
  forall i f, In i res -> calls [i] f -> (exists lf, body progs f lf) -> exists t lf rest, body progs f lf /\ defines res f t /\ skipn t res = lf ++ rest.
Proof.
  intros progs name l res l2 e Hf Hp B Nr E L En. destruct (C45_flatten progs name l B) as (res' & order & E' & Nd & Or & bodies & Bs & Er). rewrite E in E'. injection E' as <-.
  set (names := name :: order). assert (Bn : Forall2 (body progs) names (l :: bodies)) by (constructor; assumption).
  assert (Fn : Forall2 function names (l :: bodies)) by (clear -Bn Hf; induction Bn; constructor; auto).
  assert (Ec : res = concat (l :: bodies)) by exact Er.
  assert (Ndn : NoDup names) by (constructor; [rewrite Or; tauto|exact Nd]).
  assert (Un : unique_symbols res) by (apply syms_unique; rewrite Ec, (syms_concat _ _ Fn); exact Ndn).
  assert (Owner : forall i, In i res -> exists g lg, In g names /\ body progs g lg /\ In i lg).
  { intros i Hi. rewrite Ec in Hi. clear -Hi Bn. revert Hi. induction Bn as [|n ln ns bs Hn F IH]; cbn [concat]; [intros []|]. intros Hi. apply in_app_or in Hi as [Hi|Hi].
    - exists n, ln. split; [now left|auto].
    - destruct (IH Hi) as (g & lg & A & C). exists g, lg. split; [now right|exact C]. }
  assert (Called : forall i f, In i res -> calls [i] f -> (exists lf, body progs f lf) -> In f names).
  { intros i f Hi (Nf & j & [<-|[]] & C) Bf. destruct (Owner i Hi) as (g & lg & Hg & Bg & Ig). right. apply Or. split; [|exact Bf].
    assert (Cl : calls lg f) by (split; [exact Nf|exists i; auto]). destruct Hg as [<-|Hg]; [eapply R_direct; eassumption|]. apply Or in Hg as (Rg & _). eapply R_indirect; eassumption. }
  assert (Block : forall f, In f names -> exists t lf rest, body progs f lf /\ defines res f t /\ skipn t res = lf ++ rest).
  { intros f H. rewrite Ec. destruct (concat_block _ _ f Fn progs Bn H) as (t & lf & rest & A & C & D). exists t, lf, rest. auto. }
  split; [|split; [exact Un|]].
  - destruct e as [e|]; [|reflexivity]. exfalso. destruct (C07_errors res l2 e L En) as [(_ & _ & N)|(_ & _ & i & Hi & P & N)]; [contradiction|].
    destruct (Owner i Hi) as (g & lg & _ & Bg & Ig). destruct (Hp g lg i Bg Ig P) as (C & Bf). destruct (Block _ (Called i _ Hi C Bf)) as (t & _ & _ & _ & D & _). exact (N t D).
  - intros i f Hi C Bf. apply Block. eapply Called; eassumption.
Qed.

(** A program that calls itself gets its own instructions a second time, so that its symbols are defined twice and it can't
    be loaded: the property does not extend to recursive programs. *)
Definition self : programs := [("self"%string, [set_sym (set_ref (set_cons (mkIns 0x85 0 1 0 (-1) EmptyString EmptyString None) (-1)) "self") "self"; Return])].
Theorem C45_recursion_refuted : exists l res, body self "self" l /\ function "self" l /\ reaches self "self" "self" /\
  flattenInstructions "self" self = Some res /\ res = l ++ l /\ snd (encodeFunctionReferences res) = Some EDuplicate.
Proof.
  eexists _, _. split; [reflexivity|]. split; [split; [discriminate|]; eexists _, _; split; [reflexivity|]; split; [reflexivity|]; repeat constructor|]. split.
  - eapply R_direct; [reflexivity|]. split; [discriminate|]. eexists. split; [left; reflexivity|]. repeat split. left. split; [unfold is_call, cls; cbn; lia|reflexivity].
  - split; [reflexivity|]. split; vm_compute; reflexivity.
Qed.
(** entry calls a; a and b call each other; b calls an extern function *)
Definition fn (name : string) (callees : list string) : string * list instr :=
  (name, set_sym (LoadImm 0 1 DWord) name :: map (fun c => set_ref (mkIns 0x85 0 1 0 (-1) EmptyString EmptyString None) c) callees ++ [Return]).
Definition some_progs : programs := [fn "b" ["ext"; "a"]%string; fn "entry" ["a"; "a"]%string; fn "unused" []; fn "a" ["b"]%string].
Example C45_example : exists le la lb, body some_progs "entry" le /\ body some_progs "a" la /\ body some_progs "b" lb /\
  flattenInstructions "entry" some_progs = Some (le ++ la ++ lb) /\ ~ reaches some_progs "entry" "entry" /\ forall n ln, body some_progs n ln -> function n ln.
Proof.
  eexists _, _, _. split; [reflexivity|]. split; [reflexivity|]. split; [reflexivity|]. split; [vm_compute; reflexivity|]. split.
  - assert (H : forall f, reaches some_progs "entry" f -> f <> "entry"%string).
    { assert (Q : forall n ln f, body some_progs n ln -> calls ln f -> f <> "entry"%string).
      { intros n ln f Hb Hc. apply refs_spec in Hc. unfold body, some_progs, fn in Hb. cbn [lookup] in Hb.
        repeat match type of Hb with (if ?b then _ else _) = _ => destruct b; [injection Hb as <-; vm_compute in Hc; intros ->; intuition discriminate|] end. discriminate Hb. }
      intros f R. destruct R; eapply Q; eassumption. }
    intros R. exact (H _ R eq_refl).
  - intros n ln Hb. unfold body, some_progs, fn in Hb. cbn [lookup] in Hb.
    repeat match type of Hb with (if String.eqb n ?s then _ else _) = _ => destruct (String.eqb_spec n s) as [->|_]; [injection Hb as <-; split; [discriminate|]; eexists _, _; split; [reflexivity|]; split; [reflexivity|]; repeat constructor|] end. discriminate Hb.
Qed.
