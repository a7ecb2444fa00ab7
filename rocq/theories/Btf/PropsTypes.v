(** C34 and C37: traversal and size of type graphs. *)
From Coq Require Import ZArith List Lia Bool.
From Verif.Base Require Import GoInt ListExtra.
From Verif.Btf Require Import Types TypesSpec TypesProof.
Import ListNotations.
Open Scope Z_scope.

(** ** C34 *)
(** Traversal of a finite, possibly cyclic graph without nil types terminates normally. *)
Theorem C34_terminates : forall h visited root, complete h root ->
  exists visited' out, postorder h visited root = Some (visited', out).
Proof.
  intros h visited root C. destruct (visit_total h root C (postorder_fuel h) visited root) as (v & o & E & _); [constructor| |eauto].
  unfold postorder_fuel. pose proof (unvisited_max h visited). lia.
Qed.

Lemma closed_reach h vis : (forall x c, In x vis -> edge h x c -> In c vis) -> forall x y, reach h x y -> In x vis -> In y vis.
Proof. intros C x y R. induction R; eauto. Qed.

(** It yields every type reachable from the root exactly once, and a type's descendants before the type itself
    unless they lie on a common cycle. *)
Theorem C34_postorder : forall h root visited' out, postorder h [] root = Some (visited', out) ->
  NoDup (types out) /\
  (forall x, In x (types out) <-> reach h root x) /\
  (forall before x after c, out = before ++ IType x :: after -> edge h x c -> In c (types before) \/ reach h c x).
Proof.
  intros h root vis' out E. destruct (visit_good h _ _ _ _ _ E) as ([S N D C P] & R & RE & O & _).
  split; [exact D|]. split.
  - intros x. split; [apply RE|]. intros Hr.
    assert (K : In x vis'); [|apply S in K; destruct K as [[]|K]; exact K].
    apply (closed_reach h vis') with (x := root); [|exact Hr|exact R].
    intros y c Hy. apply S in Hy. destruct Hy as [[]|Hy]. now apply C.
  - intros l1 x l2 c Eo Ed. destruct (O [] [] ltac:(intros ? []) ltac:(intros ? []) l1 x l2 c Eo Ed) as [K|[[]|K]]; auto.
Qed.

(** A traversal that shares the visited set of earlier complete traversals yields exactly what is new. *)
Theorem C34_resumed : forall h visited root visited' out,
  (forall x c, In x visited -> edge h x c -> In c visited) ->
  postorder h visited root = Some (visited', out) ->
  NoDup (types out) /\ (forall x, In x (types out) <-> reach h root x /\ ~ In x visited) /\
  (forall x, In x visited' <-> In x visited \/ reach h root x) /\
  (forall x c, In x visited' -> edge h x c -> In c visited').
Proof.
  intros h vis root vis' out Cl E. destruct (visit_good h _ _ _ _ _ E) as ([S N D C P] & R & RE & _).
  assert (Cl' : forall x c, In x vis' -> edge h x c -> In c vis').
  { intros y c Hy He. apply S in Hy. destruct Hy as [Hy|Hy]; [apply S; left; eauto|eauto]. }
  assert (Rv : forall x, reach h root x -> In x vis') by (intros x Hx; eapply closed_reach; eassumption).
  split; [exact D|]. split; [|split; [|exact Cl']].
  - intros x. split; [intros H; split; auto|]. intros (H & K). specialize (Rv x H). apply S in Rv. tauto.
  - intros x. split; [intros H; apply S in H; destruct H; auto|intros [H|H]; [apply S; auto|auto]].
Qed.

(** Every decl tag of every yielded type is yielded exactly once, after which its owner follows. *)
Theorem C34_tags : forall h root visited' out, postorder h [] root = Some (visited', out) ->
  (forall x, reach h root x -> owned x out = tags_at h x) /\
  (forall x, ~ reach h root x -> owned x out = []) /\
  (forall before o v k after, out = before ++ ITag o v k :: after -> In o (types after)).
Proof.
  intros h root vis' out E. pose proof (C34_postorder h root vis' out E) as (_ & Hr & _).
  destruct (visit_good h _ _ _ _ _ E) as ([S N D C P] & R & RE & O & T & W).
  assert (T1 : forall x, reach h root x -> owned x out = tags_at h x).
  { intros x Hx. apply Hr, ref_in_In in Hx. rewrite T, Hx. reflexivity. }
  assert (T2 : forall x, ~ reach h root x -> owned x out = []).
  { intros x Hx. rewrite T. destruct (ref_in x (types out)) eqn:I; [|reflexivity]. apply ref_in_In, Hr in I. contradiction. }
  split; [exact T1|]. split; [exact T2|]. intros l1 o v k l2 Eo. destruct (W l1 o v k l2 Eo) as [->|H]; [|exact H].
  exfalso. assert (Ho : owned RNil out <> []).
  { rewrite Eo, owned_app. cbn [owned flat_map]. destruct (ref_eq_dec RNil RNil); [|congruence]. intros X. apply app_eq_nil in X as [_ X]. discriminate X. }
  apply Ho. rewrite T. destruct (ref_in RNil (types out)) eqn:I; [|reflexivity]. apply ref_in_In, P in I. destruct I as (cs' & Z). discriminate Z.
Qed.

(** struct list { struct list *next; int v; } with a tag on v *)
Definition ex_heap : heap :=
  [NStruct [108] 16 [mkMember [110] (RPtr 1) 0 0 []; mkMember [118] (RPtr 2) 64 0 [[116]]] [];
   NPtr (RPtr 0); NInt [105] 4 1].
Example C34_example : complete ex_heap (RPtr 0) /\
  postorder ex_heap [] (RPtr 0) = Some ([RPtr 2; RPtr 1; RPtr 0], [IType (RPtr 1); IType (RPtr 2); ITag (RPtr 0) [116] 1; IType (RPtr 0)]).
Proof.
  split; [|reflexivity]. intros x R.
  assert (K : In x [RPtr 0; RPtr 1; RPtr 2]).
  { apply (closed_reach ex_heap [RPtr 0; RPtr 1; RPtr 2]) with (x := RPtr 0); [|exact R|now left].
    intros y c Hy (n & E & I). cbn [In] in Hy. destruct Hy as [<-|[<-|[<-|[]]]]; inversion E; subst n; cbn in I |- *; tauto. }
  cbn [In] in K. destruct K as [<-|[<-|[<-|[]]]]; cbn; lia.
Qed.

(** ** C37 *)
Lemma quot_bound n k : 0 < n <= maxInt64 -> 0 <= k -> (k >? Z.quot maxInt64 n) = (n * k >? maxInt64).
Proof.
  intros Hn Hk. unfold maxInt64 in *. rewrite Z.quot_div_nonneg by lia.
  destruct (Z.gtb_spec k (9223372036854775807 / n)), (Z.gtb_spec (n * k) 9223372036854775807); try reflexivity; exfalso.
  - pose proof (Z.div_le_lower_bound 9223372036854775807 n k ltac:(lia) ltac:(lia)). lia.
  - pose proof (Z.mul_div_le 9223372036854775807 n ltac:(lia)). nia.
Qed.
Lemma i64_id x : 0 <= x <= maxInt64 -> i64 x = x.
Proof. intros H. apply sext_id; [lia|]. unfold in_s, maxInt64 in *. change (2 ^ (64 - 1)) with 9223372036854775808. lia. Qed.
Lemma mul_step n k : 0 <= n <= maxInt64 -> in_u 32 k ->
  ((n >? 0) && (k >? Z.quot maxInt64 n) = true /\ maxInt64 < n * k) \/
  ((n >? 0) && (k >? Z.quot maxInt64 n) = false /\ 0 <= n * k <= maxInt64 /\ i64 (n * k) = n * k).
Proof.
  intros Hn Hk. unfold in_u in Hk. destruct (Z.gtb_spec n 0) as [P|P]; cbn [andb].
  - rewrite quot_bound by lia. destruct (Z.gtb_spec (n * k) maxInt64); [left; split; [reflexivity|lia]|right].
    split; [reflexivity|]. assert (0 <= n * k) by nia. split; [lia|apply i64_id; lia].
  - right. assert (n = 0) by lia. subst. rewrite Z.mul_0_l. split; [reflexivity|]. split; [unfold maxInt64; lia|apply i64_id; unfold maxInt64; lia].
Qed.

(** the four ways a type can be looked at *)
Lemma deref_u32 h r n : heap_u32 h -> deref h r = Some n -> node_u32 n.
Proof. intros H E. destruct r as [| |a]; try discriminate. apply nth_error_In in E. unfold heap_u32 in H. rewrite Forall_forall in H. auto. Qed.
Lemma has_size_range h r d z : heap_u32 h -> has_size h r d z -> 0 <= z.
Proof.
  intros H S. induction S; try lia; try (pose proof (deref_u32 _ _ _ H H0) as U; cbn [node_u32] in U; unfold in_u in U; lia).
Qed.
Lemma sizeof_loop_sound h : heap_u32 h -> forall f r n s, 0 <= n <= maxInt64 -> sizeof_loop f h r n = Ok s ->
  exists d z, (d <= f)%nat /\ has_size h r d z /\ s = n * z /\ 0 <= s <= maxInt64.
Proof.
  intros H. induction f as [|f IH]; intros r n s Hn E; [discriminate E|]. cbn [sizeof_loop] in E.
  assert (Leaf : forall elem, in_u 32 elem -> has_size h r 1 elem ->
    (if (n >? 0) && (elem >? Z.quot maxInt64 n) then Err Overflow else Ok (i64 (n * elem))) = Ok s ->
    exists d z, (d <= S f)%nat /\ has_size h r d z /\ s = n * z /\ 0 <= s <= maxInt64).
  { intros elem Hu Hs X. destruct (mul_step n elem Hn Hu) as [(Eb & _)|(Eb & B & Ei)]; rewrite Eb in X; [discriminate|].
    rewrite Ei in X. inversion X; subst s. exists 1%nat, elem. split; [lia|]. auto. }
  assert (Through : forall t, (forall d z, has_size h t d z -> has_size h r (S d) z) -> sizeof_loop f h t n = Ok s ->
    exists d z, (d <= S f)%nat /\ has_size h r d z /\ s = n * z /\ 0 <= s <= maxInt64).
  { intros t Ht X. apply IH in X; [|exact Hn]. destruct X as (d & z & L & Hs & R). exists (S d), z. split; [lia|]. split; [auto|exact R]. }
  destruct (deref h r) as [n0|] eqn:D.
  2:{ destruct r as [| |a]; cbn [sizer] in E.
      - unfold qualify in E. rewrite D in E. discriminate E.
      - apply (Leaf 0); [unfold in_u; lia|constructor|exact E].
      - rewrite D in E. unfold qualify in E. rewrite D in E. discriminate E. }
  pose proof (deref_u32 _ _ _ H D) as U.
  destruct r as [| |a]; try discriminate D.
  destruct n0; cbn [node_u32] in U; cbn [sizer] in E; rewrite ?D in E; unfold qualify in E; rewrite ?D in E; try discriminate E;
    try (match type of E with (if (_ >? _) && (?k >? _) then Err Overflow else Ok (i64 _)) = _ => apply (Leaf k); [exact U || (unfold in_u; lia)|econstructor; exact D|exact E] end);
    try (match type of E with sizeof_loop _ _ ?t _ = _ => apply (Through t); [intros; econstructor; eassumption|exact E] end).
  (* array *)
  destruct (mul_step n nelems Hn U) as [(Eb & _)|(Eb & B & Ei)]; rewrite Eb in E; [discriminate|]. rewrite Ei in E.
  apply IH in E; [|exact B]. destruct E as (d & z & L & Hs & -> & R). exists (S d), (nelems * z). split; [lia|].
  split; [econstructor; eassumption|]. split; [lia|]. rewrite <- Z.mul_assoc in *. exact R.
Qed.
Lemma sizeof_loop_complete h : heap_u32 h -> forall r d z, has_size h r d z -> forall f n, 0 <= n <= maxInt64 -> (d <= f)%nat ->
  sizeof_loop f h r n = Ok (n * z) \/ (sizeof_loop f h r n = Err Overflow /\ (n * z = 0 \/ maxInt64 < n * z)).
Proof.
  intros H r d z S. induction S; intros f n Hn L; (destruct f as [|f]; [lia|]); cbn [sizeof_loop].
  1:{ cbn [deref sizer]. destruct (mul_step n 0 Hn) as [(Eb & B)|(Eb & B & Ei)]; [unfold in_u; lia| |]; rewrite Eb; [right; split; [reflexivity|lia]|rewrite Ei; left; reflexivity]. }
  all: match goal with D : deref _ ?rr = Some _, HH : heap_u32 _ |- _ => pose proof (deref_u32 _ _ _ HH D) as U; cbn [node_u32] in U; rewrite D;
       destruct rr as [| |a]; try discriminate D; cbn [sizer]; rewrite ?D; unfold qualify; rewrite ?D end;
    try (apply IHS; [exact Hn|lia]);
    try (match goal with |- (if (_ >? _) && (?k >? _) then Err Overflow else Ok (i64 _)) = _ \/ _ =>
         destruct (mul_step n k Hn) as [(Eb & B)|(Eb & B & Ei)]; [exact U || (unfold in_u; lia)| |]; rewrite Eb; [right; split; [reflexivity|lia]|rewrite Ei; left; reflexivity] end).
  destruct (mul_step n k Hn U) as [(Eb & B)|(Eb & B & Ei)]; rewrite Eb.
  - right. split; [reflexivity|]. pose proof (has_size_range _ _ _ _ H S). destruct (Z.eq_dec z 0); [left; nia|right]. rewrite Z.mul_assoc. nia.
  - rewrite Ei. replace (n * (k * z)) with (n * k * z) by lia. apply IHS; [exact B|lia].
Qed.

Lemma Sizeof_loop h r : exists f, f = 32%nat /\ Sizeof h r = sizeof_loop f h r 1.
Proof. exists maxResolveDepth. split; reflexivity. Qed.
(** Whatever Sizeof returns is the exact size, found within the permitted depth, and fits an int. *)
Theorem C37_exact : forall h r s, heap_u32 h -> Sizeof h r = Ok s ->
  exists d, (d <= 32)%nat /\ has_size h r d s /\ 0 <= s <= maxInt64.
Proof.
  intros h r s H E. destruct (Sizeof_loop h r) as (f & Ef & E'). rewrite E' in E. clear E'.
  apply sizeof_loop_sound in E; [|exact H|unfold maxInt64; lia]. destruct E as (d & z & L & S & -> & B).
  exists d. rewrite Z.mul_1_l in *. subst f. auto.
Qed.
(** A type which has a non-zero size within the depth limit is sized correctly, or reported as an overflow if it does
    not fit an int; in no case is a wrapped value returned. *)
Theorem C37_complete : forall h r d s, heap_u32 h -> has_size h r d s -> (d <= 32)%nat ->
  (0 < s <= maxInt64 -> Sizeof h r = Ok s) /\ (maxInt64 < s -> Sizeof h r = Err Overflow) /\
  (s = 0 -> Sizeof h r = Ok 0 \/ Sizeof h r = Err Overflow).
Proof.
  intros h r d s H S L. pose proof (C37_exact h r s H) as X. destruct (Sizeof_loop h r) as (f & Ef & E').
  destruct (sizeof_loop_complete h H r d s S f 1) as [E|(E & C)]; [unfold maxInt64; lia|lia| |];
    rewrite E' in *; clear E'; rewrite E, ?Z.mul_1_l in *.
  - split; [auto|]. split; [|intros ->; auto]. intros B. exfalso. destruct (X eq_refl) as (_ & _ & _ & R). lia.
  - split; [lia|]. split; auto.
Qed.
(** The size is unique, and unsized or too deeply nested types (in particular cyclic ones) are errors. *)
Theorem C37_unique : forall h r d d' s s', has_size h r d s -> has_size h r d' s' -> d = d' /\ s = s'.
Proof.
  intros h r d d' s s' S. revert d' s'. induction S; intros d' s' S'; inversion S'; subst;
    repeat match goal with A : deref h ?r = Some _, B : deref h ?r = Some _ |- _ => rewrite A in B; inversion B; subst; clear B end;
    try (match goal with A : deref h RVoid = _ |- _ => discriminate A end);
    try (split; reflexivity);
    match goal with A : has_size h _ _ _ |- _ => destruct (IHS _ _ A) as (-> & ->); split; reflexivity end.
Qed.
Theorem C37_error : forall h r, heap_u32 h -> (forall d s, has_size h r d s -> (32 < d)%nat) -> exists e, Sizeof h r = Err e.
Proof.
  intros h r H N. destruct (Sizeof h r) as [s|e] eqn:E; [|eauto]. apply C37_exact in E; [|exact H]. destruct E as (d & L & S & _).
  apply N in S. lia.
Qed.
(** One type wraps another: typedefs, qualifiers and array elements. *)
Definition wraps (h : heap) (x y : ref) : Prop :=
  (exists s tags, deref h x = Some (NTypedef s y tags)) \/ deref h x = Some (NVolatile y) \/ deref h x = Some (NConst y) \/
  deref h x = Some (NRestrict y) \/ (exists v, deref h x = Some (NTypeTag y v)) \/ (exists i k, deref h x = Some (NArray i y k)).
(** A type that contains itself without indirection has no size. *)
Theorem C37_cyclic : forall h (P : ref -> Prop) r, heap_u32 h -> (forall x, P x -> exists y, wraps h x y /\ P y) -> P r ->
  exists e, Sizeof h r = Err e.
Proof.
  intros h P r H W Pr. apply C37_error; [exact H|]. intros d s S. exfalso. induction S.
  1:{ destruct (W _ Pr) as (y & [(?&?&E)|[E|[E|[E|[(?&E)|(?&?&E)]]]]] & _); discriminate E. }
  all: destruct (W _ Pr) as (y & [(?&?&E)|[E|[E|[E|[(?&E)|(?&?&E)]]]]] & Py); rewrite E in *;
    match goal with A : Some _ = Some _ |- _ => inversion A; subst end; auto.
Qed.
Example C37_cyclic_example : let h := [NTypedef [116] (RPtr 1) []; NConst (RPtr 0)] in
  heap_u32 h /\ (forall x, x = RPtr 0 \/ x = RPtr 1 -> exists y, wraps h x y /\ (y = RPtr 0 \/ y = RPtr 1)) /\ Sizeof h (RPtr 0) = Err TooDeep.
Proof.
  cbv zeta. split; [repeat constructor|]. split; [|reflexivity]. intros x [->| ->].
  - exists (RPtr 1). split; [left; exists [116], []; reflexivity|auto].
  - exists (RPtr 0). split; [right; right; left; reflexivity|auto].
Qed.
(** Caveat: a zero sized array of arrays whose outer dimensions overflow is reported as an error. *)
Definition zero_heap : heap :=
  [NInt [] 0 0; NArray (RPtr 0) (RPtr 0) 4294967295; NArray (RPtr 0) (RPtr 1) 4294967295; NArray (RPtr 0) (RPtr 2) 4294967295].
Theorem C37_zero_size_overflow_refuted : heap_u32 zero_heap /\ has_size zero_heap (RPtr 3) 4 0 /\ Sizeof zero_heap (RPtr 3) = Err Overflow.
Proof.
  split; [repeat constructor; unfold in_u; cbn; lia|]. split; [|reflexivity].
  apply (hs_array zero_heap (RPtr 3) (RPtr 0) (RPtr 2) 4294967295 3 0 eq_refl). apply (hs_array zero_heap (RPtr 2) (RPtr 0) (RPtr 1) 4294967295 2 0 eq_refl).
  apply (hs_array zero_heap (RPtr 1) (RPtr 0) (RPtr 0) 4294967295 1 0 eq_refl). eapply hs_int. reflexivity.
Qed.
Example C37_example : let h := [NInt [105] 4 1; NTypedef [116] (RPtr 0) []; NArray (RPtr 0) (RPtr 1) 3; NConst (RPtr 2); NArray (RPtr 0) (RPtr 3) 5] in
  heap_u32 h /\ has_size h (RPtr 4) 5 60 /\ Sizeof h (RPtr 4) = Ok 60.
Proof.
  cbv zeta. split; [repeat constructor; unfold in_u; cbn; lia|]. split; [|reflexivity].
  set (h := [_; _; _; _; _]). apply (hs_array h (RPtr 4) (RPtr 0) (RPtr 3) 5 4 12 eq_refl), (hs_const h (RPtr 3) (RPtr 2) 3 12 eq_refl), (hs_array h (RPtr 2) (RPtr 0) (RPtr 1) 3 2 4 eq_refl), (hs_typedef h (RPtr 1) [116] (RPtr 0) [] 1 4 eq_refl), (hs_int h (RPtr 0) [105] 4 1 eq_refl).
Qed.
