(** C48, C49: internal/deque.go and internal/math.go. *)
From Coq Require Import ZArith List Lia Bool.
From Verif.Base Require Import GoInt ListExtra.
From Verif.Internal Require Import Deque DequeProof Math MathProof.
Import ListNotations.
Open Scope Z_scope.

(** ** C48: every sequence of operations on the zero value of Deque returns what the same
    operations on a list return, for every element type; [None] (a panic) never happens.
    [sizes_ok] only says that the queue stays below 2^60 elements. *)
Theorem C48_deque_is_list : forall (A : Type) (zero : A) (ops : list (dop A)),
  sizes_ok zero [] ops -> deque_run zero empty_deque ops = Some (list_run zero [] ops).
Proof. intros A zero ops H. apply run_ok; [apply (rep_start 0)|exact H]. Qed.

(** The same from any counter value, so for any wrap of the 64 bit counters. *)
Theorem C48_any_counter : forall (A : Type) (zero : A) (r : Z) (ops : list (dop A)),
  sizes_ok zero [] ops -> deque_run zero (mkDeque [] (u64 r) (u64 r) 0) ops = Some (list_run zero [] ops).
Proof. intros A zero r ops H. apply run_ok; [apply rep_start|exact H]. Qed.

(** Empty reports exactly whether the list is empty. *)
Theorem C48_empty : forall (A : Type) (zero : A) (ops : list (dop A)),
  sizes_ok zero [] ops ->
  exists d, deque_final zero empty_deque ops = Some d /\
            (Empty d = true <-> list_final zero [] ops = []).
Proof.
  intros A zero ops H. destruct (final_ok zero ops empty_deque [] (rep_start 0) H) as (d & E & R).
  exists d. split; [exact E|]. rewrite (empty_ok _ _ R). destruct (list_final zero [] ops); split; congruence.
Qed.

(** A run that wraps inside the 8 element buffer and then grows while wrapped. *)
Definition ex_ops : list (dop nat) :=
  map OPush (seq 1 6) ++ [OShift; OShift; OShift; OShift] ++ map OPush (seq 7 12) ++
  [OPop; OShift; OShift; OGrow 40; OShift; OPop; OReset; OShift; OPush 99%nat; OPop; OPop].
Example C48_example :
  sizes_ok O [] ex_ops /\
  deque_run O empty_deque ex_ops = Some (list_run O [] ex_ops) /\
  filter (fun o => match o with Some _ => true | _ => false end) (list_run O [] ex_ops) =
    map Some [1; 2; 3; 4; 18; 5; 6; 7; 17; 0; 99; 0]%nat.
Proof. vm_compute. repeat split; congruence || discriminate. Qed.

(** ** C49 *)
(** For every Go integer type, n >= 0 and a > 0 such that n+a is representable: the least multiple. *)
Theorem C49_align : forall t n a, go_int t -> 0 <= n -> 0 < a -> in_ity t (n + a) ->
  (a | Align t n a) /\ n <= Align t n a /\ (forall m, (a | m) -> n <= m -> Align t n a <= m).
Proof. exact align_ok. Qed.

(** Negative inputs are accepted by the signed instances but are not rounded up to the least multiple. *)
Theorem C49_align_negative_refuted :
  let int32 := mkIty 32 true in
  in_ity int32 (-8) /\ in_ity int32 (-8 + 4) /\ (4 | -8) /\ Align int32 (-8) 4 = -4 /\
  ~ (forall m, (4 | m) -> -8 <= m -> Align int32 (-8) 4 <= m).
Proof.
  cbv zeta. assert (E : Align (mkIty 32 true) (-8) 4 = -4) by reflexivity. rewrite E. repeat split; try (unfold in_ity, in_s; cbn; lia).
  - exists (-2). reflexivity.
  - intros H. specialize (H (-8) ltac:(exists (-2); reflexivity)). lia.
Qed.

Theorem C49_ispow : forall t n, go_int t -> 0 <= n -> in_ity t n ->
  IsPow t n = true <-> exists k, 0 <= k /\ n = 2 ^ k.
Proof. exact ispow_ok. Qed.

(** For the signed types the minimum value is reported as a power of two. *)
Theorem C49_ispow_minint_refuted : forall w, w = 8 \/ w = 16 \/ w = 32 \/ w = 64 ->
  in_ity (mkIty w true) (- 2 ^ (w - 1)) /\ IsPow (mkIty w true) (- 2 ^ (w - 1)) = true /\
  ~ exists k, 0 <= k /\ - 2 ^ (w - 1) = 2 ^ k.
Proof.
  intros w H. split; [|split].
  - destruct H as [->|[->|[->| ->]]]; vm_compute; split; congruence.
  - destruct H as [->|[->|[->| ->]]]; reflexivity.
  - intros (k & Hk & E). pose proof (pow2_pos k Hk). pose proof (pow2_pos (w - 1) ltac:(lia)). lia.
Qed.

(** Every negative number other than the minimum is rejected. *)
Theorem C49_ispow_negative : forall t n, go_int t -> signed t = true -> - 2 ^ (width t - 1) < n < 0 -> IsPow t n = false.
Proof.
  intros t n Hg Hs Hn. unfold IsPow. destruct (Z.eqb_spec n 0); [reflexivity|]. cbn [negb andb].
  rewrite wrap_id; [|assumption|unfold in_ity; rewrite Hs; unfold in_s; lia].
  apply Z.eqb_neq. intros E. assert (L : Z.land n (n - 1) < 0) by (apply Z.land_neg; lia). lia.
Qed.

(** Between clamps into [min a b, max a b]. *)
Theorem C49_between : forall v a b,
  Z.min a b <= Between v a b <= Z.max a b /\
  (Z.min a b <= v <= Z.max a b -> Between v a b = v) /\
  (v < Z.min a b -> Between v a b = Z.min a b) /\ (Z.max a b < v -> Between v a b = Z.max a b).
Proof. intros v a b. unfold Between. destruct (Z.gtb_spec a b); lia. Qed.

Example C49_example : go_int (mkIty 64 true) /\ in_ity (mkIty 64 true) (13 + 8) /\ Align (mkIty 64 true) 13 8 = 16 /\
  Align (mkIty 8 false) 240 16 = 240 /\ IsPow (mkIty 16 false) 32768 = true /\ IsPow (mkIty 64 true) 24 = false /\
  Between 5 9 7 = 7.
Proof. unfold go_int, in_ity, in_s; cbn; repeat split; try lia; auto. Qed.
