(** Proofs about instruction streams. *)
From Coq Require Import String Sorted.
From Verif Require Import Base.GoInt Asm.Model Asm.Spec Asm.Proof Asm.ProofCodec.
Open Scope Z_scope.

(** ** C03: sizes *)
Lemma slots_raw i : rawInstructions (OpCode i) = slots i.
Proof. unfold rawInstructions, slots. rewrite IsDWordLoad_eq. reflexivity. Qed.

Lemma slots_range i : 1 <= slots i <= 2.
Proof. unfold slots. destruct (_ =? _); lia. Qed.

Lemma Size_slots i : Size i = 8 * slots i.
Proof. unfold Size, InstructionSize. rewrite slots_raw. pose proof (slots_range i).
  unfold u64, wrapu. apply Z.mod_small. lia. Qed.

Lemma Marshal_size native bo i bs n :
  Marshal native bo i = Ok (bs, n) -> n = Z.of_nat (length bs) /\ n = 8 * slots i.
Proof.
  intros H. destruct (Marshal_inv _ _ _ _ _ H) as (op & off & imm & c & _ & _ & _ & _ & H1 & H2).
  unfold slots. destruct (Z.eqb_spec (OpCode i) 0x18) as [E|E].
  - destruct (H2 E) as (-> & ->). rewrite app_length, !raw_bytes_length. lia.
  - destruct (H1 E) as (-> & ->). rewrite raw_bytes_length. lia.
Qed.

Lemma total_slots_range l : Z.of_nat (length l) <= total_slots l <= 2 * Z.of_nat (length l).
Proof. induction l as [|i l IH]; cbn [total_slots length]; [lia|]. pose proof (slots_range i). lia. Qed.

Lemma InsnsSize_eq l : InsnsSize l = (8 * total_slots l) mod 2 ^ 64.
Proof.
  unfold InsnsSize.
  enough (H : forall acc, fold_left (fun sum i => u64 (sum + Size i)) l acc mod 2 ^ 64
                          = (acc + 8 * total_slots l) mod 2 ^ 64).
  { destruct l as [|i l]; [reflexivity|].
    specialize (H 0). rewrite Z.add_0_l in H. rewrite <- H. symmetry. apply Z.mod_small.
    cbn [fold_left]. pose proof (wrapu_range 64 (0 + Size i) ltac:(lia)) as Ha. fold u64 in Ha.
    revert Ha. generalize (u64 (0 + Size i)). unfold in_u. clear.
    induction l as [|j l IH]; cbn [fold_left]; intros a Ha; [exact Ha|].
    apply IH. apply wrapu_range; lia. }
  induction l as [|i l IH]; cbn [fold_left total_slots]; intros acc.
  - f_equal; lia.
  - rewrite IH, Size_slots. unfold u64, wrapu. rewrite Z.add_mod_idemp_l by lia. f_equal; lia.
Qed.

Lemma marshalAll_size native bo l bs :
  marshalAll native bo l = (bs, None) -> Z.of_nat (length bs) = 8 * total_slots l.
Proof.
  revert bs; induction l as [|i l IH]; cbn [marshalAll total_slots]; intros bs H.
  - inversion H. reflexivity.
  - destruct (Marshal native bo i) as [[b n]|e] eqn:Hm; [|discriminate].
    destruct (marshalAll native bo l) as [bs' r]. inversion H; subst.
    destruct (Marshal_size _ _ _ _ _ Hm) as (E1 & E2). specialize (IH _ eq_refl).
    rewrite app_length. lia.
Qed.

(** ** C04: decoding streams *)
Lemma Unmarshal_nil bo p : Unmarshal bo p [] = Err EOF.
Proof. reflexivity. Qed.

Lemma Unmarshal_shrinks bo p r i r' : Unmarshal bo p r = Ok (i, r') -> (length r' < length r)%nat.
Proof.
  unfold Unmarshal. destruct (read_full 8 r) as [[d r1]|] eqn:H1; [|discriminate].
  apply read_full_inv in H1 as [-> Hd]; [|lia].
  destruct (unmarshalOp _ _); [|discriminate]. destruct (negb _).
  - intros E; inversion E; subst. rewrite app_length; lia.
  - destruct (read_full 8 r1) as [[d2 r2]|] eqn:H2; [|discriminate].
    apply read_full_inv in H2 as [-> Hd2]; [|lia].
    destruct (negb _); [discriminate|]. intros E; inversion E; subst. rewrite !app_length; lia.
Qed.

Lemma Unmarshal_EOF bo p r : Unmarshal bo p r = Err EOF -> r = [].
Proof.
  unfold Unmarshal. destruct r as [|x r]; [reflexivity|].
  unfold read_full. destruct (Nat.ltb _ _); [discriminate|].
  destruct (unmarshalOp _ _) as [i|e] eqn:Hu.
  - destruct (negb _); [discriminate|]. destruct (skipn 8 (x :: r)); [discriminate|].
    destruct (Nat.ltb _ _); [discriminate|]. destruct (negb _); discriminate.
  - intros E; inversion E; subst e. exfalso.
    unfold unmarshalOp in Hu. destruct (IsBuiltinCall _).
    + destruct (_ >=? _); [|discriminate]. destruct (EncodeConstant _ _); discriminate.
    + destruct (IsALU _); [discriminate|]. destruct (_ && _); discriminate.
Qed.

Lemma appendInstructions_total bo p fuel acc r :
  (length r < fuel)%nat -> exists x, appendInstructions fuel bo p acc r = Some x.
Proof.
  revert acc r; induction fuel as [|fuel IH]; intros acc r H; [lia|].
  cbn [appendInstructions]. destruct (Unmarshal bo p r) as [[i r']|e] eqn:Hu.
  - apply IH. pose proof (Unmarshal_shrinks _ _ _ _ _ Hu). lia.
  - destruct e; eauto.
Qed.

Lemma stream_bytes_app bo ws ws' : stream_bytes bo (ws ++ ws') = stream_bytes bo ws ++ stream_bytes bo ws'.
Proof. unfold stream_bytes. now rewrite map_app, concat_app. Qed.

Lemma appendInstructions_ok bo p fuel acc r l :
  bytes_ok r -> appendInstructions fuel bo p acc r = Some (Ok l) ->
  exists l' wss, l = acc ++ l' /\ Forall2 (decoded p) l' wss /\
                 Forall (Forall raw_ok) wss /\ r = stream_bytes bo (concat wss).
Proof.
  revert acc r; induction fuel as [|fuel IH]; intros acc r Hb H; [discriminate|].
  cbn [appendInstructions] in H. destruct (Unmarshal bo p r) as [[i r']|e] eqn:Hu.
  - destruct (Unmarshal_inv _ _ _ _ _ Hb Hu) as (w & ws & Hr & Hok & Hb' & Hd).
    destruct (IH _ _ Hb' H) as (l' & wss & -> & HF & HO & ->).
    exists (i :: l'), ((w :: ws) :: wss). repeat split.
    + now rewrite <- app_assoc.
    + constructor; [|exact HF]. destruct Hd as [[_ Hd]|(Hl & -> & ->)]; [left; exact Hd|right; eauto].
    + constructor; assumption.
    + cbn [concat]. rewrite stream_bytes_app. exact Hr.
  - destruct e; inversion H; subst. apply Unmarshal_EOF in Hu. subst r.
    exists [], []. rewrite app_nil_r. repeat split; constructor.
Qed.

Lemma stream_bytes_length bo ws : length (stream_bytes bo ws) = (8 * length ws)%nat.
Proof.
  induction ws as [|w ws IH]; [reflexivity|].
  change (stream_bytes bo (w :: ws)) with (raw_bytes bo w ++ stream_bytes bo ws).
  rewrite app_length, raw_bytes_length, IH. cbn [length]. lia.
Qed.

Lemma encodes_nonempty p i ws : encodes p i ws -> ws <> [].
Proof. destruct 1; discriminate. Qed.

Lemma appendInstructions_encodes bo p l wss :
  Forall2 (encodes p) l wss ->
  forall fuel acc, (length (stream_bytes bo (concat wss)) < fuel)%nat ->
  appendInstructions fuel bo p acc (stream_bytes bo (concat wss)) = Some (Ok (acc ++ map strip l)).
Proof.
  induction 1 as [|i ws l wss Hi HF IH]; intros fuel acc Hf.
  - destruct fuel; [cbn in Hf; lia|]. cbn [concat stream_bytes map appendInstructions].
    change (stream_bytes bo []) with (@nil Z). rewrite Unmarshal_nil, app_nil_r. reflexivity.
  - destruct fuel; [lia|]. cbn [concat] in *. rewrite stream_bytes_app in *.
    cbn [appendInstructions]. rewrite (Unmarshal_encodes p bo i ws _ Hi).
    rewrite IH.
    + cbn [map]. now rewrite <- app_assoc.
    + rewrite app_length, stream_bytes_length in Hf. destruct ws; [now apply encodes_nonempty in Hi|].
      cbn [length] in Hf. lia.
Qed.

(** ** C10: the iterator *)
Definition positions (l : list instr) : list (Z * Z * instr) :=
  map (fun ki => (Z.of_nat (fst ki), raw_offset l (fst ki), snd ki)) (combine (seq 0 (length l)) l).

Fixpoint positions_from (k o : Z) (l : list instr) : list (Z * Z * instr) :=
  match l with [] => [] | i :: l' => (k, o, i) :: positions_from (k + 1) (o + slots i) l' end.

Lemma triple_eq {A} (a a' b b' : Z) (c : A) : a = a' -> b = b' -> Some (a, b, c) = Some (a', b', c).
Proof. congruence. Qed.

Lemma positions_from_nth k o l n i :
  nth_error l n = Some i ->
  nth_error (positions_from k o l) n = Some (k + Z.of_nat n, o + raw_offset l n, i).
Proof.
  revert k o n; induction l as [|j l IH]; intros k o n H; [destruct n; discriminate|].
  destruct n as [|n].
  - cbn [nth_error positions_from raw_offset] in *. inversion H; subst. apply triple_eq; lia.
  - cbn [nth_error positions_from raw_offset] in *. rewrite (IH _ _ _ H). apply triple_eq; lia.
Qed.

Lemma positions_from_length k o l : length (positions_from k o l) = length l.
Proof. revert k o; induction l; cbn; auto. Qed.

Lemma visit_spec fuel prev k o l :
  (length l < fuel)%nat -> 0 <= o -> o + slots prev + total_slots l < 2 ^ 64 ->
  visit fuel (mkIter l (Some prev) k o) = positions_from (k + 1) (o + slots prev) l.
Proof.
  revert fuel prev k o; induction l as [|i l IH]; intros fuel prev k o Hf Ho Hs;
    (destruct fuel; [cbn in Hf; lia|]); cbn [visit Next it_rest it_ins it_index it_offset positions_from].
  - reflexivity.
  - cbn [length total_slots] in *. pose proof (slots_range prev). pose proof (slots_range i).
    pose proof (total_slots_range l).
    rewrite slots_raw. unfold u64 at 1, wrapu. rewrite Z.mod_small by lia.
    f_equal. unfold u64, wrapu. rewrite Z.mod_small by lia. apply IH; lia.
Qed.

Lemma iterate_spec l : total_slots l < 2 ^ 64 -> iterate l = positions_from 0 0 l.
Proof.
  intros H. unfold iterate, Iterate. destruct l as [|i l]; [reflexivity|].
  pose proof (slots_range i). cbn [total_slots] in H.
  assert (Hf : (length l < length (i :: l))%nat) by (cbn; lia).
  revert Hf. generalize (length (i :: l)). intros f Hf.
  cbn [visit Next it_rest it_ins it_index it_offset positions_from].
  f_equal. apply visit_spec; lia.
Qed.

Lemma small_total l : Z.of_nat (length l) < 2 ^ 62 -> total_slots l < 2 ^ 63.
Proof. pose proof (total_slots_range l). lia. Qed.

Lemma raw_offset_range l k : 0 <= raw_offset l k <= total_slots l.
Proof.
  revert k; induction l as [|i l IH]; intros [|k]; cbn [raw_offset total_slots]; try lia.
  - pose proof (total_slots_range l). pose proof (slots_range i). lia.
  - specialize (IH k). pose proof (slots_range i). lia.
Qed.

Lemma raw_offset_lt l k : (k < length l)%nat -> 0 <= raw_offset l k < total_slots l.
Proof.
  revert k; induction l as [|i l IH]; intros [|k] H; cbn [raw_offset total_slots length] in *; try lia.
  - pose proof (total_slots_range l). pose proof (slots_range i). lia.
  - specialize (IH k ltac:(lia)). pose proof (slots_range i). lia.
Qed.

(** ** C07: symbolic references *)
Lemma lookup_cons {A} k k' (v : A) m :
  lookup k ((k', v) :: m) = if String.eqb k k' then Some v else lookup k m.
Proof. reflexivity. Qed.

Lemma index_symbols_ok acc l m :
  index_symbols acc l = Ok m ->
  forall s o, lookup s m = Some o <->
    lookup s acc = Some o \/ (s <> EmptyString /\ exists k i, In (k, o, i) l /\ Symbol i = s).
Proof.
  revert acc; induction l as [|[[k0 o0] i0] l IH]; cbn [index_symbols]; intros acc H s o.
  - inversion H; subst. split; [auto|]. intros [?|(_ & ? & ? & [] & _)]; auto.
  - destruct (String.eqb_spec (Symbol i0) EmptyString) as [E|E].
    + rewrite (IH _ H s o). split; intros [?|(Hs & k & i & Hin & Hi)]; auto.
      * right. split; [auto|]. exists k, i. split; [right; auto|auto].
      * destruct Hin as [Hin|Hin]; [inversion Hin; subst; congruence|].
        right. split; [auto|]. exists k, i. auto.
    + destruct (lookup (Symbol i0) acc) eqn:Hl; [discriminate|].
      rewrite (IH _ H s o), lookup_cons.
      destruct (String.eqb_spec s (Symbol i0)) as [->|Hne].
      * split.
        -- intros [Ho|(Hs & k & i & Hin & Hi)].
           ++ inversion Ho; subst. right. split; [auto|]. exists k0, i0. split; [left; auto|auto].
           ++ right. split; [auto|]. exists k, i. split; [right; auto|auto].
        -- intros [Ho|(Hs & k & i & [Hin|Hin] & Hi)]; [congruence| |].
           ++ inversion Hin; subst. left; auto.
           ++ right. split; [auto|]. exists k, i. auto.
      * split; intros [Ho|(Hs & k & i & Hin & Hi)]; auto.
        -- right. split; [auto|]. exists k, i. split; [right; auto|auto].
        -- destruct Hin as [Hin|Hin]; [inversion Hin; subst; congruence|].
           right. split; [auto|]. exists k, i. auto.
Qed.

Lemma index_symbols_dup acc l :
  index_symbols acc l = Err EDuplicate \/
  (exists m, index_symbols acc l = Ok m /\
     (forall i, In i (map snd l) -> Symbol i <> EmptyString -> lookup (Symbol i) acc = None) /\
     unique_symbols (map snd l)).
Proof.
  revert acc; induction l as [|[[k0 o0] i0] l IH]; cbn [index_symbols map snd]; intros acc.
  - right. exists acc. split; [reflexivity|]. split; [intros i []|]. intros [|a] b i j H; discriminate.
  - destruct (String.eqb_spec (Symbol i0) EmptyString) as [E|E].
    + destruct (IH acc) as [?|(m & Hm & H1 & H2)]; [auto|right]. exists m. split; [auto|]. split.
      * intros i [->|Hi] Hne; [congruence|auto].
      * intros [|a] [|b] i j Ha Hb Hne Hs; cbn in Ha, Hb; auto.
        -- inversion Ha; subst. congruence.
        -- inversion Hb; subst. congruence.
        -- f_equal. eapply H2; eauto.
    + destruct (lookup (Symbol i0) acc) eqn:Hl; [auto|].
      destruct (IH ((Symbol i0, o0) :: acc)) as [?|(m & Hm & H1 & H2)]; [auto|right].
      exists m. split; [auto|]. split.
      * intros i [->|Hi] Hne; [auto|]. specialize (H1 i Hi Hne). rewrite lookup_cons in H1.
        destruct (String.eqb_spec (Symbol i) (Symbol i0)); [discriminate|auto].
      * intros [|a] [|b] i j Ha Hb Hne Hs; cbn in Ha, Hb; auto.
        -- inversion Ha; subst. exfalso. apply nth_error_In in Hb.
           specialize (H1 j Hb ltac:(congruence)). rewrite lookup_cons, <- Hs, String.eqb_refl in H1. discriminate.
        -- inversion Hb; subst. exfalso. apply nth_error_In in Ha.
           specialize (H1 i Ha Hne). rewrite lookup_cons, Hs, String.eqb_refl in H1. discriminate.
        -- f_equal. eapply H2; eauto.
Qed.

Lemma index_symbols_err acc l : index_symbols acc l = Err EDuplicate ->
  (exists i, In i (map snd l) /\ Symbol i <> EmptyString /\ lookup (Symbol i) acc <> None) \/
  ~ unique_symbols (map snd l).
Proof.
  revert acc; induction l as [|[[k0 o0] i0] l IH]; cbn [index_symbols map snd]; intros acc H; [discriminate|].
  destruct (String.eqb_spec (Symbol i0) EmptyString) as [E|E].
  - destruct (IH _ H) as [(i & Hi & Hn & Hl)|Hu]; [left; exists i; auto with datatypes|right].
    intros U. apply Hu. intros a b i j Ha Hb Hne Hs.
    specialize (U (S a) (S b) i j Ha Hb Hne Hs). congruence.
  - destruct (lookup (Symbol i0) acc) eqn:Hl.
    + left. exists i0. split; [left; auto|]. split; [auto|congruence].
    + destruct (IH _ H) as [(i & Hi & Hn & Hl')|Hu].
      * rewrite lookup_cons in Hl'. destruct (String.eqb_spec (Symbol i) (Symbol i0)) as [Es|Es].
        -- right. intros U. apply In_nth_error in Hi as [a Ha].
           specialize (U (S a) O i i0 Ha eq_refl Hn Es). discriminate.
        -- left. exists i. split; [right; auto|auto].
      * right. intros U. apply Hu. intros a b i j Ha Hb Hne Hs.
        specialize (U (S a) (S b) i j Ha Hb Hne Hs). congruence.
Qed.

Lemma positions_from_snd k o l : map snd (positions_from k o l) = l.
Proof. revert k o; induction l; cbn; intros; f_equal; auto. Qed.

Lemma positions_In k o l x : In x (positions_from k o l) ->
  exists n i, nth_error l n = Some i /\ x = (k + Z.of_nat n, o + raw_offset l n, i).
Proof.
  intros H. apply In_nth_error in H as [n Hn].
  assert (Hl : (n < length l)%nat).
  { rewrite <- (positions_from_length k o). apply nth_error_Some. congruence. }
  destruct (nth_error l n) as [i|] eqn:Hi; [|apply nth_error_None in Hi; lia].
  exists n, i. split; [exact Hi|]. rewrite (positions_from_nth _ _ _ _ _ Hi) in Hn. congruence.
Qed.

Lemma map_until_ok {A B} (f : A -> res err B) keep l l' :
  map_until f keep l = (l', None) <-> Forall2 (fun a b => f a = Ok b) l l'.
Proof.
  revert l'; induction l as [|a l IH]; cbn [map_until]; intros l'.
  - split; intros H; inversion H; constructor.
  - destruct (f a) as [b|e] eqn:Hf.
    + destruct (map_until f keep l) as [l2 r] eqn:Hm. split; intros H.
      * inversion H; subst. constructor; [auto|]. apply IH. reflexivity.
      * inversion H; subst. assert (b = y) by congruence. subst.
        match goal with HF : Forall2 _ l _ |- _ => apply IH in HF; inversion HF; subst; reflexivity end.
    + split; intros H; inversion H; congruence.
Qed.

Lemma map_until_err {A B} (f : A -> res err B) keep l l' e :
  map_until f keep l = (l', Some e) -> exists a, In a l /\ f a = Err e.
Proof.
  revert l'; induction l as [|a l IH]; cbn [map_until]; intros l' H; [discriminate|].
  destruct (f a) as [b|e'] eqn:Hf.
  - destruct (map_until f keep l) as [l2 r]. inversion H; subst.
    destruct (IH _ eq_refl) as (x & Hx & He). exists x. auto with datatypes.
  - inversion H; subst. exists a. auto with datatypes.
Qed.

Lemma Forall2_length {A B} (R : A -> B -> Prop) l l' : Forall2 R l l' -> length l = length l'.
Proof. induction 1; cbn; congruence. Qed.

Lemma Forall2_nth {A B} (R : A -> B -> Prop) l l' n a :
  Forall2 R l l' -> nth_error l n = Some a -> exists b, nth_error l' n = Some b /\ R a b.
Proof.
  intros H; revert n; induction H as [|x y l l' HR HF IH]; intros [|n] Hn; try discriminate; cbn in *.
  - inversion Hn; subst. eauto.
  - auto.
Qed.

Lemma imm_ref_spec i :
  (IsFunctionReference i && (Constant i =? -1))
  || ((OpCode i =? Jump_opCode Ja Jump32Class ImmSource) && (Constant i =? -1)) = true
  <-> imm_ref i /\ Constant i = -1.
Proof.
  change (Jump_opCode Ja Jump32Class ImmSource) with 6.
  unfold IsFunctionReference, IsFunctionCall, IsLoadOfFunctionPointer, imm_ref, is_dword.
  rewrite IsDWordLoad_eq. pose proof (JumpOp_call (OpCode i)) as J.
  unfold PseudoCall, PseudoFunc.
  destruct (JumpOp (OpCode i) =? Call); [assert (is_call (OpCode i)) by tauto|
    assert (~ is_call (OpCode i)) by (intros C; apply J in C; discriminate)];
  destruct (Z.eqb_spec (Src i) 1), (Z.eqb_spec (OpCode i) 24), (Z.eqb_spec (Src i) 4),
           (Z.eqb_spec (OpCode i) 6), (Z.eqb_spec (Constant i) (-1));
    cbn [andb orb]; split; intros; try tauto; try discriminate;
    intuition congruence.
Qed.

Lemma IsJump_spec i : IsJump (Class (OpCode i)) = true <-> jump_class i.
Proof. unfold IsJump, JumpClass, Jump32Class, jump_class, cls. rewrite Class_eq. lia. Qed.

Lemma fix_reference_cases m o i :
  (pending_imm i /\ fix_reference m o i =
     match lookup (Reference i) m with None => Err EUnsatisfied
     | Some sym => Ok (set_cons i (i64 (u64 (sym - o - 1)))) end) \/
  (pending_off i /\ fix_reference m o i =
     match lookup (Reference i) m with None => Err EUnsatisfied
     | Some sym => Ok (set_off i (i16 (u64 (sym - o - 1)))) end) \/
  (~ pending_imm i /\ ~ pending_off i /\ fix_reference m o i = Ok i).
Proof.
  unfold fix_reference, pending_imm, pending_off.
  destruct (String.eqb_spec (Reference i) EmptyString) as [E|E]; [right; right; repeat split; tauto|].
  pose proof (imm_ref_spec i) as HI. pose proof (IsJump_spec i) as HJ.
  destruct (_ || _).
  - left. split; [tauto|reflexivity].
  - assert (NI : ~ (imm_ref i /\ Constant i = -1)) by (intros C; apply HI in C; discriminate).
    destruct (IsJump (Class (OpCode i))).
    + destruct (Z.eqb_spec (Offset i) (-1)); cbn [andb].
      * right; left. split; [tauto|reflexivity].
      * right; right. repeat split; tauto.
    + right; right. cbn [andb]. split; [tauto|]. split; [|reflexivity].
      intros (_ & _ & C & _). apply HJ in C. discriminate.
Qed.

Lemma lookup_defines l m :
  index_symbols [] (positions_from 0 0 l) = Ok m ->
  forall s o, lookup s m = Some o <-> (s <> EmptyString /\ exists t, defines l s t /\ o = raw_offset l t).
Proof.
  intros H s o. rewrite (index_symbols_ok _ _ _ H s o). split.
  - intros [C|(Hs & k & i & Hin & Hi)]; [discriminate|]. split; [auto|].
    apply positions_In in Hin as (n & j & Hn & E). inversion E; subst.
    exists n. split; [exists j; auto|lia].
  - intros (Hs & t & (i & Ht & Hi) & ->). right. split; [auto|].
    exists (Z.of_nat t), i. split; [|auto].
    apply (nth_error_In _ t). rewrite (positions_from_nth _ _ _ _ _ Ht). apply triple_eq; lia.
Qed.

Definition resolved (l : list instr) (k : nat) (i i' : instr) : Prop :=
  (pending_imm i -> exists t d, defines l (Reference i) t /\ i' = set_cons i d /\
                     raw_offset l k + 1 + d = raw_offset l t) /\
  (pending_off i -> exists t d, defines l (Reference i) t /\ i' = set_off i d /\ in_s 16 d /\
                     (raw_offset l k + 1 + d - raw_offset l t) mod 2 ^ 16 = 0) /\
  (~ pending_imm i -> ~ pending_off i -> i' = i).

Lemma encodeFunctionReferences_ok l l' :
  Z.of_nat (length l) < 2 ^ 62 ->
  encodeFunctionReferences l = (l', None) ->
  unique_symbols l /\ length l' = length l /\
  forall k i, nth_error l k = Some i -> exists i', nth_error l' k = Some i' /\ resolved l k i i'.
Proof.
  intros Hsmall. pose proof (small_total l Hsmall) as Hsm.
  unfold encodeFunctionReferences. rewrite iterate_spec by lia.
  destruct (index_symbols_dup [] (positions_from 0 0 l)) as [->|(m & Hm & _ & Hu)]; [discriminate|].
  rewrite positions_from_snd in Hu. rewrite Hm.
  intros H. apply map_until_ok in H.
  split; [exact Hu|]. split.
  { apply Forall2_length in H. rewrite <- H. apply positions_from_length. }
  intros k i Hk.
  destruct (Forall2_nth _ _ _ _ _ H (positions_from_nth 0 0 l k i Hk)) as (i' & Hi' & Hf).
  exists i'. split; [exact Hi'|].
  cbn beta iota in Hf. rewrite Z.add_0_l in Hf.
  assert (Hrk : 0 <= raw_offset l k < total_slots l)
    by (apply raw_offset_lt, nth_error_Some; congruence).
  destruct (fix_reference_cases m (raw_offset l k) i) as [(P & E)|[(P & E)|(P1 & P2 & E)]];
    rewrite E in Hf; clear E.
  - destruct (lookup (Reference i) m) as [sym|] eqn:Hl; [|discriminate]. apply Ok_inj in Hf. subst i'.
    apply (lookup_defines l m Hm) in Hl as (Hs & t & Ht & ->).
    pose proof (raw_offset_range l t) as Hrt.
    split; [|split].
    + intros _. exists t, (raw_offset l t - raw_offset l k - 1). split; [exact Ht|]. split; [|lia].
      f_equal. unfold i64, u64. rewrite sext_wrapu by lia. apply sext_id; [lia|]. unfold in_s. lia.
    + intros (_ & N & _). destruct P as (_ & P). tauto.
    + intros N. contradiction.
  - destruct (lookup (Reference i) m) as [sym|] eqn:Hl; [|discriminate]. apply Ok_inj in Hf. subst i'.
    apply (lookup_defines l m Hm) in Hl as (Hs & t & Ht & ->).
    split; [|split].
    + intros (_ & N). destruct P as (_ & P & _). tauto.
    + intros _. set (d0 := raw_offset l t - raw_offset l k - 1).
      exists t, (i16 (u64 d0)). split; [exact Ht|]. split; [reflexivity|]. split; [apply sext_range; lia|].
      replace (raw_offset l k + 1 + i16 (u64 d0) - raw_offset l t) with (i16 (u64 d0) - d0) by (unfold d0; lia).
      rewrite Zminus_mod. unfold i16. rewrite sext_mod by lia.
      unfold u64. change ((wrapu 64 d0) mod 2 ^ 16) with (wrapu 16 (wrapu 64 d0)).
      rewrite wrapu_le by lia. unfold wrapu. rewrite Z.sub_diag. reflexivity.
    + intros _ N. contradiction.
  - apply Ok_inj in Hf. subst i'. split; [|split]; intros; auto; contradiction.
Qed.

Lemma encodeFunctionReferences_err l l' e :
  Z.of_nat (length l) < 2 ^ 62 ->
  encodeFunctionReferences l = (l', Some e) ->
  (e = EDuplicate /\ l' = l /\ ~ unique_symbols l) \/
  (e = EUnsatisfied /\ unique_symbols l /\
   exists i, In i l /\ (pending_imm i \/ pending_off i) /\ forall t, ~ defines l (Reference i) t).
Proof.
  intros Hsmall. pose proof (small_total l Hsmall) as Hsm.
  unfold encodeFunctionReferences. rewrite iterate_spec by lia.
  destruct (index_symbols_dup [] (positions_from 0 0 l)) as [E|(m & Hm & _ & Hu)].
  - rewrite E. intros H; inversion H; subst. left.
    split; [auto|]. split; [auto|]. apply index_symbols_err in E as [(i & _ & _ & C)|C].
    + contradiction.
    + now rewrite positions_from_snd in C.
  - rewrite positions_from_snd in Hu. rewrite Hm. intros H.
    apply map_until_err in H as ([[k o] i] & Hin & Hf). right.
    apply positions_In in Hin as (n & j & Hn & Ex). assert (i = j) by congruence. subst i. clear Ex.
    cbn beta iota in Hf.
    destruct (fix_reference_cases m o j) as [(P & E)|[(P & E)|(P1 & P2 & E)]];
      rewrite E in Hf; [| |discriminate].
    + destruct (lookup (Reference j) m) as [sym|] eqn:Hl; [discriminate|]. inversion Hf.
      split; [auto|]. split; [auto|]. exists j. split; [now apply nth_error_In in Hn|]. split; [auto|].
      intros t Ht. assert (C : lookup (Reference j) m = Some (raw_offset l t)).
      { apply (lookup_defines l m Hm). split; [apply P|]. eauto. }
      congruence.
    + destruct (lookup (Reference j) m) as [sym|] eqn:Hl; [discriminate|]. inversion Hf.
      split; [auto|]. split; [auto|]. exists j. split; [now apply nth_error_In in Hn|]. split; [auto|].
      intros t Ht. assert (C : lookup (Reference j) m = Some (raw_offset l t)).
      { apply (lookup_defines l m Hm). split; [apply P|]. eauto. }
      congruence.
Qed.

(** ** C08: map pointers *)
Lemma IsLoadFromMap_spec i : IsLoadFromMap i = true <-> map_load i.
Proof.
  unfold IsLoadFromMap, map_load, is_dword, PseudoMapFD, PseudoMapValue. rewrite LoadImmOp_DWord. lia.
Qed.

Lemma hi32 x : Z.land (u64 x) (Z.shiftl 0xffffffff 32) = (x / 2 ^ 32) mod 2 ^ 32 * 2 ^ 32.
Proof.
  change 0xffffffff with (2 ^ 32 - 1). rewrite land_field by lia.
  unfold u64, wrapu. replace (2 ^ 64) with (2 ^ 32 * 2 ^ 32) by lia.
  rewrite Z.rem_mul_r, (Z.add_comm (x mod 2 ^ 32)), (Z.mul_comm (2 ^ 32)), Z.div_add_l by lia.
  rewrite (Z.div_small (x mod 2 ^ 32)) by lia. rewrite Z.add_0_r, Z.mod_mod by lia. reflexivity.
Qed.

Lemma lo32 x : Z.land (u64 x) 0xffffffff = x mod 2 ^ 32.
Proof.
  change 0xffffffff with (2 ^ 32 - 1). rewrite (land_mask_mod (u64 x) 32) by lia. change (wrapu 32 (wrapu 64 x) = wrapu 32 x). apply wrapu_le; lia.
Qed.

Lemma encodeMapFD_Constant i fd :
  Constant (encodeMapFD i fd) mod 2 ^ 32 = fd mod 2 ^ 32 /\
  (Constant (encodeMapFD i fd) / 2 ^ 32) mod 2 ^ 32 = (Constant i / 2 ^ 32) mod 2 ^ 32 /\
  in_s 64 (Constant (encodeMapFD i fd)).
Proof.
  unfold encodeMapFD. cbn [set_cons Constant]. rewrite hi32.
  replace (u64 (u32 fd)) with (fd mod 2 ^ 32)
    by (unfold u64, u32, wrapu; symmetry; apply Z.mod_small; lia).
  rewrite lor_disjoint_add by lia.
  set (h := (Constant i / 2 ^ 32) mod 2 ^ 32). set (f := fd mod 2 ^ 32).
  assert (Hh : 0 <= h < 2 ^ 32) by (unfold h; lia). assert (Hf : 0 <= f < 2 ^ 32) by (unfold f; lia).
  clearbody h f.
  split; [|split].
  - change (wrapu 32 (i64 (h * 2 ^ 32 + f)) = f). unfold i64.
    rewrite <- (wrapu_le 32 64) by lia. rewrite wrapu_sext by lia. unfold wrapu. lia.
  - unfold i64, sext. destruct (_ <? _); lia.
  - apply sext_range; lia.
Qed.

Lemma mapOffset_eq i : mapOffset i = (Constant i / 2 ^ 32) mod 2 ^ 32.
Proof.
  unfold mapOffset. rewrite Z.shiftr_div_pow2 by lia. unfold u32, u64, wrapu.
  replace (2 ^ 64) with (2 ^ 32 * 2 ^ 32) by lia.
  rewrite Z.rem_mul_r, (Z.add_comm (Constant i mod 2 ^ 32)), (Z.mul_comm (2 ^ 32)), Z.div_add_l by lia.
  rewrite (Z.div_small (Constant i mod 2 ^ 32)) by lia. rewrite Z.add_0_r, Z.mod_mod by lia. reflexivity.
Qed.

Lemma encodeMapPointers_ok l l' :
  encodeMapPointers l = (l', None) ->
  Forall2 (fun i i' =>
    (forall fd, map_load i -> MapFD i = Some fd ->
       0 <= fd /\ exists c, i' = set_cons i c /\ in_s 64 c /\ c mod 2 ^ 32 = fd mod 2 ^ 32 /\
                            (c / 2 ^ 32) mod 2 ^ 32 = (Constant i / 2 ^ 32) mod 2 ^ 32) /\
    (~ map_load i \/ MapFD i = None -> i' = i)) l l'.
Proof.
  intros H. apply map_until_ok in H. induction H as [|i i' l l' Hi HF IH]; constructor; [|exact IH].
  unfold encodeMapPointer in Hi. pose proof (IsLoadFromMap_spec i) as Hs.
  destruct (IsLoadFromMap i); cbn [negb] in Hi.
  - destruct (MapFD i) as [fd|] eqn:Hm.
    + destruct (Z.ltb_spec fd 0); [discriminate|]. apply Ok_inj in Hi. subst i'. split.
      * intros fd' _ E. inversion E; subst fd'. split; [lia|].
        exists (Constant (encodeMapFD i fd)). destruct (encodeMapFD_Constant i fd) as (H1 & H2 & H3). auto.
      * intros [N|N]; [tauto|discriminate].
    + apply Ok_inj in Hi. subst i'. split; [intros; congruence|auto].
  - apply Ok_inj in Hi. subst i'. split; [|auto].
    intros fd Hl. apply Hs in Hl. discriminate.
Qed.

Lemma encodeMapPointers_err l l' e :
  encodeMapPointers l = (l', Some e) ->
  e = EClosedFd /\ exists i fd, In i l /\ map_load i /\ MapFD i = Some fd /\ fd < 0.
Proof.
  intros H. apply map_until_err in H as (i & Hi & Hf). unfold encodeMapPointer in Hf.
  pose proof (IsLoadFromMap_spec i) as Hs. destruct (IsLoadFromMap i); [|discriminate]. cbn [negb] in Hf.
  destruct (MapFD i) as [fd|] eqn:Hm; [|discriminate]. destruct (Z.ltb_spec fd 0); [|discriminate].
  inversion Hf. split; [auto|]. exists i, fd. split; [auto|]. split; [apply Hs; reflexivity|auto].
Qed.

Lemma encodeMapPointers_closed l i fd :
  In i l -> map_load i -> MapFD i = Some fd -> fd < 0 -> snd (encodeMapPointers l) = Some EClosedFd.
Proof.
  intros Hi Hl Hm Hf. destruct (encodeMapPointers l) as [l' [e|]] eqn:E.
  - apply encodeMapPointers_err in E as [-> _]. reflexivity.
  - apply encodeMapPointers_ok in E. exfalso. apply In_nth_error in Hi as [n Hn].
    destruct (Forall2_nth _ _ _ _ _ E Hn) as (i' & _ & (H1 & _)).
    destruct (H1 fd Hl Hm). lia.
Qed.

(** ** C11, C12 *)
Lemma associateMap_spec symbol m l :
  symbol <> EmptyString ->
  forall found l' r, associateMap symbol m found l = (l', r) ->
  (r = None <-> ((found = true \/ exists i, In i l /\ Reference i = symbol) /\
                 forall i, In i l -> Reference i = symbol -> map_load i)) /\
  (r = None -> l' = map (fun i => if String.eqb (Reference i) symbol
                                  then set_map (set_ref i EmptyString) (Some m) else i) l) /\
  (r = Some EUnreferenced <-> found = false /\ forall i, In i l -> Reference i <> symbol) /\
  (r = None \/ r = Some EUnreferenced \/ r = Some ENotMapLoad).
Proof.
  intros Hs. induction l as [|i l IH]; cbn [associateMap]; intros found l' r H.
  - inversion H; subst. split; [|split; [|split]].
    + destruct found; split; auto; try discriminate.
      * intros _. split; [auto|]. intros i [].
      * intros [[C|(? & [] & _)] _]; discriminate.
    + reflexivity.
    + destruct found; split; auto; try discriminate.
      * intros [C _]; discriminate.
    + destruct found; auto.
  - destruct (String.eqb_spec (Reference i) symbol) as [E|E]; cbn [negb] in H.
    + unfold ins_AssociateMap in H. pose proof (IsLoadFromMap_spec i) as Hm.
      destruct (IsLoadFromMap i); cbn [negb] in H.
      * destruct (associateMap symbol m true l) as [l2 r2] eqn:Ha. inversion H; subst.
        destruct (IH _ _ _ Ha) as (H1 & H2 & H3 & H4).
        split; [|split; [|split]].
        -- split.
           ++ intros C. split; [right; exists i; split; [left; auto|auto]|].
              intros j [<-|Hj] Hr; [apply Hm; reflexivity|]. apply H1 in C as [_ C]. auto.
           ++ intros [_ C]. apply H1. split; [auto|]. intros j Hj Hr. apply C; [right; auto|auto].
        -- intros C. cbn [map]. rewrite String.eqb_refl. f_equal. auto.
        -- split.
           ++ intros C. apply H3 in C as [? _]. discriminate.
           ++ intros [_ C]. exfalso. exact (C i (or_introl eq_refl) eq_refl).
        -- exact H4.
      * inversion H; subst. split; [|split; [|split]].
        -- split; [discriminate|]. intros [_ C].
           assert (X : map_load i) by (apply C; [left|]; auto). apply Hm in X. discriminate.
        -- discriminate.
        -- split; [discriminate|]. intros [_ C]. exfalso. exact (C i (or_introl eq_refl) eq_refl).
        -- auto.
    + destruct (associateMap symbol m found l) as [l2 r2] eqn:Ha. inversion H; subst.
      destruct (IH _ _ _ Ha) as (H1 & H2 & H3 & H4).
      split; [|split; [|split]].
      -- split.
         ++ intros C. apply H1 in C as [C1 C2]. split.
            ** destruct C1 as [C|(j & Hj & Hr)]; [left; auto|right; exists j; split; [right; auto|auto]].
            ** intros j [<-|Hj] Hr; [congruence|auto].
         ++ intros [[C|(j & [<-|Hj] & Hr)] C2]; [| congruence|]; apply H1.
            ** split; [auto|]. intros; apply C2; [right; auto|auto].
            ** split; [right; eauto|]. intros; apply C2; [right; auto|auto].
      -- intros C. cbn [map]. destruct (String.eqb_spec (Reference i) symbol); [congruence|]. f_equal; auto.
      -- split.
         ++ intros C. apply H3 in C as [C1 C2]. split; [auto|]. intros j [<-|Hj]; auto.
         ++ intros [Hf C]. apply H3. split; [auto|]. intros j Hj. apply C; right; auto.
      -- exact H4.
Qed.

Lemma symbolOffsets_ok i acc l m :
  symbolOffsets i acc l = Ok m ->
  forall s o, lookup s m = Some o <->
    lookup s acc = Some o \/ (s <> EmptyString /\ exists k, defines l s k /\ o = i + Z.of_nat k).
Proof.
  revert i acc; induction l as [|x l IH]; cbn [symbolOffsets]; intros i acc H s o.
  - inversion H; subst. split; [auto|]. intros [?|(_ & k & (j & Hj & _) & _)]; auto. destruct k; discriminate.
  - assert (D : forall k, defines (x :: l) s k <-> (k = O /\ Symbol x = s) \/ (exists k', k = S k' /\ defines l s k')).
    { intros [|k]; split.
      - intros (j & Hj & E). inversion Hj; subst. auto.
      - intros [(_ & E)|(? & C & _)]; [|discriminate]. exists x. auto.
      - intros (j & Hj & E). right. exists k. split; [auto|]. exists j. auto.
      - intros [(C & _)|(k' & C & (j & Hj & E))]; [discriminate|]. inversion C; subst k'. exists j. auto. }
    destruct (String.eqb_spec (Symbol x) EmptyString) as [E|E].
    + rewrite (IH _ _ H s o). split; intros [?|(Hs & k & Hd & Ho)]; auto; right; (split; [auto|]).
      * exists (S k). split; [apply D; eauto|lia].
      * apply D in Hd as [(-> & E')|(k' & -> & Hd)]; [congruence|]. exists k'. split; [auto|lia].
    + destruct (lookup (Symbol x) acc) eqn:Hl; [discriminate|].
      rewrite (IH _ _ H s o), lookup_cons. destruct (String.eqb_spec s (Symbol x)) as [Es|Es].
      * split.
        -- intros [Ho|(Hs & k & Hd & Ho)]; right.
           ++ inversion Ho; subst. split; [auto|]. exists O. split; [apply D; auto|lia].
           ++ split; [auto|]. exists (S k). split; [apply D; eauto|lia].
        -- intros [Ho|(Hs & k & Hd & Ho)]; [congruence|].
           apply D in Hd as [(-> & E')|(k' & -> & Hd)].
           ++ left. f_equal. lia.
           ++ right. split; [auto|]. exists k'. split; [auto|lia].
      * split; intros [?|(Hs & k & Hd & Ho)]; auto; right; (split; [auto|]).
        -- exists (S k). split; [apply D; eauto|lia].
        -- apply D in Hd as [(-> & E')|(k' & -> & Hd)]; [congruence|]. exists k'. split; [auto|lia].
Qed.

(** symbolOffsets and index_symbols fail alike *)
Lemma symbolOffsets_err i acc acc' l l3 :
  map snd l3 = l -> (forall s, lookup s acc = None <-> @lookup Z s acc' = None) ->
  (symbolOffsets i acc l = Err EDuplicate <-> index_symbols acc' l3 = Err EDuplicate) /\
  (forall e, symbolOffsets i acc l = Err e -> e = EDuplicate).
Proof.
  revert i acc acc' l3; induction l as [|x l IH]; intros i acc acc' l3 Hl Ha.
  - destruct l3; [|discriminate]. cbn. split; [split; discriminate|discriminate].
  - destruct l3 as [|[[k o] y] l3]; [discriminate|]. cbn in Hl. inversion Hl as [[E1 E2]]; subst y; rewrite E2.
    cbn [symbolOffsets index_symbols]. destruct (String.eqb (Symbol x) EmptyString); [now apply IH|].
    pose proof (Ha (Symbol x)) as Hx.
    destruct (lookup (Symbol x) acc), (lookup (Symbol x) acc') eqn:El.
    + split; [tauto|congruence].
    + destruct Hx as [_ Hx]. discriminate Hx; auto.
    + destruct Hx as [Hx _]. discriminate Hx; auto.
    + apply IH; [auto|]. intros s. rewrite !lookup_cons. destruct (String.eqb s (Symbol x)); [split; discriminate|auto].
Qed.

Lemma lookup_upd_append k v m k' :
  lookup k' (upd_append k v m) =
  if String.eqb k' k then Some (match lookup k m with Some vs => vs | None => [] end ++ [v]) else lookup k' m.
Proof.
  induction m as [|[k0 vs] m IH]; cbn [upd_append lookup].
  - destruct (String.eqb_spec k' k); reflexivity.
  - destruct (String.eqb_spec k k0) as [->|N].
    + cbn [lookup]. destruct (String.eqb_spec k' k0); reflexivity.
    + cbn [lookup]. rewrite IH. destruct (String.eqb_spec k' k0) as [->|]; [|reflexivity].
      destruct (String.eqb_spec k0 k); [congruence|reflexivity].
Qed.

Lemma referenceOffsets_spec i acc l s :
  s <> EmptyString ->
  lookup s (referenceOffsets i acc l) =
  match lookup s acc, ref_indices s i l with
  | None, [] => None
  | Some vs, x => Some (vs ++ x)
  | None, x => Some x
  end.
Proof.
  intros Hs. revert i acc; induction l as [|x l IH]; cbn [referenceOffsets ref_indices]; intros i acc.
  - destruct (lookup s acc); [now rewrite app_nil_r|reflexivity].
  - destruct (String.eqb_spec (Reference x) EmptyString) as [E|E].
    + rewrite IH. destruct (String.eqb_spec (Reference x) s); [congruence|]. reflexivity.
    + rewrite IH, lookup_upd_append.
      destruct (String.eqb_spec s (Reference x)) as [Es|Es].
      * rewrite Es, String.eqb_refl. destruct (lookup (Reference x) acc).
        -- cbn [app]. rewrite <- app_assoc. reflexivity.
        -- reflexivity.
      * destruct (String.eqb_spec (Reference x) s); [congruence|]. reflexivity.
Qed.

Lemma referenceOffsets_empty i acc l :
  lookup EmptyString acc = None -> lookup EmptyString (referenceOffsets i acc l) = None.
Proof.
  revert i acc; induction l as [|x l IH]; cbn [referenceOffsets]; intros i acc H; [auto|].
  destruct (String.eqb_spec (Reference x) EmptyString) as [E|E]; [auto|].
  apply IH. rewrite lookup_upd_append. destruct (String.eqb_spec EmptyString (Reference x)); [congruence|auto].
Qed.

Lemma ref_indices_spec s i l :
  StronglySorted Z.lt (ref_indices s i l) /\
  forall z, In z (ref_indices s i l) <-> exists k x, z = i + Z.of_nat k /\ nth_error l k = Some x /\ Reference x = s.
Proof.
  revert i; induction l as [|x l IH]; cbn [ref_indices]; intros i.
  - split; [constructor|]. intros z; split; [intros []|intros (k & y & _ & C & _); destruct k; discriminate].
  - destruct (IH (i + 1)) as (Hs & Hin).
    assert (Hlt : Forall (Z.lt i) (ref_indices s (i + 1) l)).
    { apply Forall_forall. intros z Hz. apply Hin in Hz as (k & y & -> & _). lia. }
    split.
    + destruct (String.eqb (Reference x) s); cbn [app]; [constructor; auto|auto].
    + intros z. rewrite in_app_iff, Hin. split.
      * intros [Hz|(k & y & -> & Hk & Hr)].
        -- destruct (String.eqb_spec (Reference x) s); [|destruct Hz].
           destruct Hz as [<-|[]]. exists O, x. split; [lia|]. auto.
        -- exists (S k), y. split; [lia|]. auto.
      * intros ([|k] & y & -> & Hk & Hr).
        -- cbn in Hk. inversion Hk; subst. rewrite String.eqb_refl. left. left. lia.
        -- right. exists k, y. split; [lia|]. auto.
Qed.

Lemma insert_sorted_In s l x : In x (insert_sorted s l) <-> x = s \/ In x l.
Proof.
  induction l as [|t l IH]; cbn [insert_sorted].
  - cbn. split; [intros [->|[]]; auto|intros [->|[]]; auto].
  - destruct (String.leb s t); cbn [In]; rewrite ?IH; intuition.
Qed.

Lemma insert_sorted_Sorted s l : Sorted str_le l -> Sorted str_le (insert_sorted s l).
Proof.
  induction 1 as [|t l Hs IH Hh]; cbn [insert_sorted]; [auto|].
  destruct (String.leb s t) eqn:E.
  - constructor; [constructor; auto|]. constructor. exact E.
  - constructor; [exact IH|].
    assert (Ht : str_le t s) by (destruct (String.leb_total s t); unfold str_le; congruence).
    destruct l as [|u l]; cbn [insert_sorted]; [constructor; auto|].
    destruct (String.leb s u); constructor; auto. inversion Hh; auto.
Qed.

Lemma sort_strings_spec l :
  Sorted str_le (sort_strings l) /\ (forall x, In x (sort_strings l) <-> In x l) /\
  (NoDup l -> NoDup (sort_strings l)).
Proof.
  unfold sort_strings. induction l as [|s l (IH1 & IH2 & IH3)]; cbn [fold_right].
  - repeat split; auto; constructor.
  - split; [now apply insert_sorted_Sorted|]. split.
    + intros x. rewrite insert_sorted_In, IH2. cbn [In]. intuition.
    + intros Hn. inversion Hn as [|? ? Hni Hnd]; subst. specialize (IH3 Hnd).
      assert (Hni' : ~ In s (fold_right insert_sorted [] l)) by now rewrite IH2.
      revert IH3 Hni'. generalize (fold_right insert_sorted [] l). clear.
      induction l as [|t l IH]; cbn [insert_sorted]; intros Hnd Hni.
      * constructor; [auto|constructor].
      * destruct (String.leb s t); [constructor; auto|].
        inversion Hnd as [|? ? Ht Hl]; subst. constructor.
        -- rewrite insert_sorted_In. intros [->|C]; [apply Hni; left; auto|contradiction].
        -- apply IH; [auto|]. intros C. apply Hni. right; auto.
Qed.

Lemma call_set_spec l : forall calls, NoDup calls ->
  NoDup (call_set calls l) /\
  forall s, In s (call_set calls l) <-> In s calls \/ exists i, In i l /\ Reference i = s /\ isPendingCall i = true.
Proof.
  induction l as [|i l IH]; cbn [call_set]; intros calls Hn.
  - split; [auto|]. intros s. split; [auto|]. intros [?|(? & [] & _)]; auto.
  - assert (Skip : isPendingCall i = false ->
      NoDup (call_set calls l) /\
      forall s, In s (call_set calls l) <-> In s calls \/ exists j, In j (i :: l) /\ Reference j = s /\ isPendingCall j = true).
    { intros Hp. destruct (IH calls Hn) as (H1 & H2). split; [auto|]. intros s. rewrite H2.
      split; intros [?|(j & Hj & Hr & Hc)]; auto; right; exists j.
      - split; [right; auto|auto].
      - destruct Hj as [<-|Hj]; [congruence|auto]. }
    destruct (Z.eqb_spec (Constant i) (-1)) as [Ec|Ec]; cbn [negb].
    2:{ apply Skip. unfold isPendingCall. destruct (Z.eqb_spec (Constant i) (-1)); [contradiction|reflexivity]. }
    destruct (String.eqb (Reference i) EmptyString) eqn:Er.
    { apply Skip. unfold isPendingCall. rewrite Er. cbn. now rewrite andb_false_r. }
    destruct (IsFunctionReference i) eqn:Ef; cbn [negb].
    2:{ apply Skip. unfold isPendingCall. rewrite Ef. apply andb_false_r. }
    assert (Hp : isPendingCall i = true).
    { unfold isPendingCall. rewrite Er, Ef, Ec. reflexivity. }
    set (calls' := if existsb (String.eqb (Reference i)) calls then calls else Reference i :: calls).
    assert (Hc' : NoDup calls' /\ forall s, In s calls' <-> In s calls \/ s = Reference i).
    { unfold calls'. destruct (existsb _ calls) eqn:Ex.
      - apply existsb_exists in Ex as (x & Hx & Exx). apply String.eqb_eq in Exx. subst x.
        split; [auto|]. intros s. split; [auto|]. intros [?| ->]; auto.
      - split.
        + constructor; [|auto]. intros C. apply Bool.not_true_iff_false in Ex. apply Ex.
          apply existsb_exists. exists (Reference i). split; [auto|apply String.eqb_refl].
        + intros s. cbn [In]. intuition. }
    destruct Hc' as (Hn' & Hin'). destruct (IH calls' Hn') as (H1 & H2). split; [auto|].
    intros s. rewrite H2, Hin'. split.
    + intros [[Hq|Hq]|(j & Hj & Hr)]; auto; [subst s| ].
      * right. exists i. split; [left; auto|auto].
      * right. exists j. split; [right; auto|auto].
    + intros [?|(j & [<-|Hj] & Hr & Hc)]; auto.
      right. exists j. auto.
Qed.
