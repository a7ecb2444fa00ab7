(** Remaining lemmas for package asm: opcode get/set laws, atomics, tags, helper constants, whole streams on
    the wire. *)
From Coq Require Import String.
From Verif Require Import Base.GoInt Asm.Model Asm.Spec Asm.Proof Asm.ProofCodec Asm.ProofStream.
Open Scope Z_scope.

(** ** C05 *)
Lemma valid_spec v m : valid v m = true <-> forall k, 0 <= k -> Z.testbit v k = true -> Z.testbit m k = true.
Proof.
  unfold valid. rewrite Z.eqb_eq. split.
  - intros H k Hk Hv. eapply ldiff_0_bits; eauto.
  - intros H. apply Z.bits_inj'. intros k Hk. rewrite Z.ldiff_spec, Z.bits_0.
    destruct (Z.testbit v k) eqn:E; [rewrite (H k Hk E)|]; reflexivity.
Qed.

Lemma set_bits x m v k : valid v m = true -> 0 <= k ->
  Z.testbit (Z.lor (Z.ldiff x m) v) k = if Z.testbit m k then Z.testbit v k else Z.testbit x k.
Proof.
  intros H Hk. rewrite Z.lor_spec, Z.ldiff_spec.
  destruct (Z.testbit m k) eqn:E; cbn [negb]; [now rewrite andb_false_r|].
  rewrite andb_true_r. destruct (Z.testbit v k) eqn:Ev; [|now rewrite orb_false_r].
  apply (proj1 (valid_spec v m) H) in Ev; [congruence|auto].
Qed.

Lemma valid_ldiff v m : valid v m = true -> Z.ldiff v m = 0.
Proof. unfold valid. now rewrite Z.eqb_eq. Qed.

Lemma Class_set x m v : valid v m = true -> Z.land m classMask = 0 -> Class (Z.lor (Z.ldiff x m) v) = Class x.
Proof.
  intros H Hm. unfold Class. apply set_get_other; [|exact Hm]. now apply valid_ldiff.
Qed.

(** ** the wire format of a stream *)
Lemma marshalAll_chunk native bo l bs k i :
  marshalAll native bo l = (bs, None) -> nth_error l k = Some i ->
  exists b n pre post, Marshal native bo i = Ok (b, n) /\ bs = pre ++ b ++ post /\
                       Z.of_nat (length pre) = 8 * raw_offset l k.
Proof.
  revert bs k; induction l as [|j l IH]; intros bs k H Hk; [destruct k; discriminate|].
  cbn [marshalAll] in H. destruct (Marshal native bo j) as [[b n]|e] eqn:Hm; [|discriminate].
  destruct (marshalAll native bo l) as [bs' r] eqn:Ha. inversion H; subst. destruct k as [|k].
  - inversion Hk; subst. exists b, n, [], bs'. cbn. auto.
  - cbn [nth_error] in Hk. destruct (IH _ _ eq_refl Hk) as (b2 & n2 & pre & post & H1 & -> & H3).
    destruct (Marshal_size _ _ _ _ _ Hm) as (E1 & E2).
    exists b2, n2, (b ++ pre), post. split; [auto|]. split; [now rewrite app_assoc|].
    rewrite app_length. cbn [raw_offset]. lia.
Qed.

Lemma MarshalInsns_ok native bo l bs l2 :
  MarshalInsns native bo l = (bs, l2, None) ->
  exists l1, encodeFunctionReferences l = (l1, None) /\ encodeMapPointers l1 = (l2, None) /\
             marshalAll native bo l2 = (bs, None).
Proof.
  unfold MarshalInsns. destruct (encodeFunctionReferences l) as [l1 [e|]]; [discriminate|].
  destruct (encodeMapPointers l1) as [l2' [e|]] eqn:E; [discriminate|].
  destruct (marshalAll native bo l2') as [b r] eqn:Em. intros H; inversion H; subst. eauto.
Qed.

Lemma slots_set_cons i c : slots (set_cons i c) = slots i. Proof. reflexivity. Qed.
Lemma slots_set_off i c : slots (set_off i c) = slots i. Proof. reflexivity. Qed.

Lemma raw_offset_ext l l' : Forall2 (fun i i' => OpCode i = OpCode i') l l' ->
  forall k, raw_offset l k = raw_offset l' k.
Proof.
  induction 1 as [|i i' l l' E H IH]; intros [|k]; cbn [raw_offset]; auto.
  unfold slots. rewrite E, IH. reflexivity.
Qed.

Lemma fix_reference_op m o i i' : fix_reference m o i = Ok i' ->
  OpCode i' = OpCode i /\ Dst i' = Dst i /\ Src i' = Src i /\ Symbol i' = Symbol i /\ Reference i' = Reference i
  /\ MapFD i' = MapFD i.
Proof.
  destruct (fix_reference_cases m o i) as [(_ & ->)|[(_ & ->)|(_ & _ & ->)]];
    try destruct (lookup _ _); intros H; inversion H; subst; cbn; auto 10.
Qed.

Lemma Forall2_impl' {A B} (P Q : A -> B -> Prop) l l' :
  (forall a b, P a b -> Q a b) -> Forall2 P l l' -> Forall2 Q l l'.
Proof. intros H; induction 1; constructor; auto. Qed.

Lemma encodeFunctionReferences_op l l1 :
  Z.of_nat (length l) < 2 ^ 62 -> encodeFunctionReferences l = (l1, None) ->
  Forall2 (fun i i' => OpCode i = OpCode i') l l1.
Proof.
  intros Hs. unfold encodeFunctionReferences. pose proof (small_total l Hs). rewrite iterate_spec by lia.
  destruct (index_symbols _ _) as [m|e]; [|discriminate]. intros H0. apply map_until_ok in H0.
  assert (G : forall ps l1, Forall2 (fun a b => (let '(_, off, i) := (a : Z * Z * instr) in fix_reference m off i) = Ok b) ps l1 ->
              Forall2 (fun i i' => OpCode i = OpCode i') (map snd ps) l1).
  { clear. induction 1 as [|[[k o] i] i' ps l1 Hf HF IH]; cbn; constructor; auto.
    apply fix_reference_op in Hf. symmetry. apply Hf. }
  apply G in H0. rewrite positions_from_snd in H0. exact H0.
Qed.

Lemma encodeMapPointer_op i i' : encodeMapPointer i = Ok i' ->
  OpCode i' = OpCode i /\ Dst i' = Dst i /\ Src i' = Src i /\ Offset i' = Offset i /\
  Symbol i' = Symbol i /\ Reference i' = Reference i /\ MapFD i' = MapFD i /\
  (~ map_load i -> i' = i).
Proof.
  unfold encodeMapPointer. pose proof (IsLoadFromMap_spec i) as Hs.
  destruct (IsLoadFromMap i); cbn [negb].
  - destruct (MapFD i) eqn:E; [destruct (_ <? 0); [discriminate|]|]; intros H; inversion H; subst; cbn;
      rewrite ?E; repeat split; auto; tauto.
  - intros H; inversion H; subst. auto 10.
Qed.

Lemma pending_not_map i : pending_imm i \/ pending_off i -> ~ map_load i.
Proof.
  intros H (D & S). unfold is_dword in D. destruct H as [(_ & R & _)|(_ & _ & J & _)].
  - unfold imm_ref, is_call, is_dword, cls in R. rewrite D in R. lia.
  - unfold jump_class, cls in J. rewrite D in J. lia.
Qed.

Lemma word_at_app bo pre b post n w : raw_ok w -> Z.of_nat (length pre) = 8 * n ->
  firstn 8 b = raw_bytes bo w -> (8 <= length b)%nat -> word_at bo (pre ++ b ++ post) n w.
Proof.
  intros Hw Hl Hb Hn. split; [exact Hw|]. rewrite <- Hl, Nat2Z.id, skipn_app, skipn_all, Nat.sub_diag. cbn [skipn app].
  rewrite firstn_app. replace (8 - length b)%nat with O by lia. cbn [firstn]. now rewrite app_nil_r.
Qed.

Lemma Marshal_word native bo i b n :
  well_typed i -> Marshal native bo i = Ok (b, n) ->
  exists w, raw_ok w /\ firstn 8 b = raw_bytes bo w /\ (8 <= length b)%nat /\
    (~ is_builtin (OpCode i) (Dst i) (Src i) -> ~ is_alu (OpCode i) -> ~ is_atomic (OpCode i) ->
     r_op w = OpCode i /\ r_off w = Offset i /\ r_imm w = i32 (Constant i)).
Proof.
  intros Hwt Hm. destruct (Marshal_inv _ _ _ _ _ Hm) as (op & off & imm & c & Hinv & Hmo & Hbpf & Hmod & Hs1 & Hs2).
  destruct (marshalOp_ranges _ _ _ _ _ _ Hwt Hmo) as (Hoff & Himm).
  set (w := mkRaw op (Dst i mod 16) (Src i mod 16) off imm) in *.
  assert (Hw : raw_ok w) by (repeat split; cbn [w r_op r_dst r_src r_off r_imm]; try lia; apply Hoff || apply Himm).
  exists w. split; [exact Hw|].
  assert (Hf : firstn 8 b = raw_bytes bo w /\ (8 <= length b)%nat).
  { destruct (Z.eq_dec (OpCode i) 0x18) as [E|E].
    - destruct (Hs2 E) as (_ & ->). rewrite firstn_app, raw_bytes_length, Nat.sub_diag, firstn_O.
      rewrite app_nil_r, app_length, !raw_bytes_length. split; [|lia].
      apply firstn_all2. rewrite raw_bytes_length. lia.
    - destruct (Hs1 E) as (_ & ->). rewrite raw_bytes_length. split; [|lia].
      apply firstn_all2. rewrite raw_bytes_length. lia. }
  destruct Hf as (Hf & Hl). split; [exact Hf|]. split; [exact Hl|].
  intros B A T. rewrite marshalOp_plain in Hmo; auto; [|destruct Hwt as [[? ?] _]; lia].
  apply Ok_inj in Hmo. inversion Hmo; subst. auto.
Qed.

Lemma imm_ref_dec i : imm_ref i \/ ~ imm_ref i.
Proof. unfold imm_ref, is_call, is_dword, cls. lia. Qed.
Lemma jump_class_dec i : jump_class i \/ ~ jump_class i.
Proof. unfold jump_class, cls. lia. Qed.
Lemma pending_imm_dec i : pending_imm i \/ ~ pending_imm i.
Proof.
  unfold pending_imm. destruct (string_dec (Reference i) EmptyString); [tauto|].
  destruct (Z.eq_dec (Constant i) (-1)); [|tauto]. destruct (imm_ref_dec i); tauto.
Qed.
Lemma pending_off_dec i : pending_off i \/ ~ pending_off i.
Proof.
  unfold pending_off. destruct (string_dec (Reference i) EmptyString); [tauto|].
  destruct (Z.eq_dec (Constant i) (-1)), (Z.eq_dec (Offset i) (-1)), (imm_ref_dec i), (jump_class_dec i); tauto.
Qed.

Lemma resolved_typed l k i i' : well_typed i -> resolved l k i i' -> Z.of_nat (length l) < 2 ^ 61 ->
  (k < length l)%nat -> well_typed i'.
Proof.
  intros (W1 & W2 & W3 & W4 & W5) (R1 & R2 & R3) Hs Hk.
  pose proof (total_slots_range l) as T. pose proof (raw_offset_range l k) as Rk.
  destruct (pending_imm_dec i) as [P|P].
  - destruct (R1 P) as (t & d & _ & -> & E). pose proof (raw_offset_range l t).
    refine (conj W1 (conj W2 (conj W3 (conj W4 _)))). cbn [Constant set_cons]. unfold in_s. lia.
  - destruct (pending_off_dec i) as [Q|Q].
    + destruct (R2 Q) as (t & d & _ & -> & Hd & _). unfold well_typed; cbn. auto.
    + rewrite (R3 P Q). unfold well_typed; auto.
Qed.

(** Symbolic references on the wire *)
Lemma references_on_the_wire native bo l bs l2 :
  Z.of_nat (length l) < 2 ^ 61 -> Forall well_typed l ->
  MarshalInsns native bo l = (bs, l2, None) ->
  unique_symbols l /\
  forall k i, nth_error l k = Some i ->
    (pending_imm i -> exists t w, defines l (Reference i) t /\ word_at bo bs (raw_offset l k) w /\
        r_op w = OpCode i /\ r_off w = Offset i /\
        r_imm w = i32 (raw_offset l t - raw_offset l k - 1)) /\
    (pending_off i -> ~ is_builtin (OpCode i) (Dst i) (Src i) ->
       exists t w, defines l (Reference i) t /\ word_at bo bs (raw_offset l k) w /\
        r_op w = OpCode i /\ r_imm w = i32 (Constant i) /\
        r_off w = i16 (raw_offset l t - raw_offset l k - 1)).
Proof.
  intros Hs Hwt HM. apply MarshalInsns_ok in HM as (l1 & Hf & Hp & Hm).
  destruct (encodeFunctionReferences_ok l l1 ltac:(lia) Hf) as (Hu & Hlen & Hres).
  pose proof (encodeFunctionReferences_op l l1 ltac:(lia) Hf) as Hop1.
  apply map_until_ok in Hp.
  assert (Hop2 : Forall2 (fun i i' => OpCode i = OpCode i') l1 l2).
  { eapply Forall2_impl'; [|exact Hp]. intros a b Hab. symmetry. now apply encodeMapPointer_op in Hab. }
  split; [exact Hu|]. intros k i Hk.
  destruct (Hres k i Hk) as (i1 & Hk1 & HR).
  assert (Lk : (k < length l)%nat) by (apply nth_error_Some; congruence).
  assert (Wi : well_typed i) by (rewrite Forall_forall in Hwt; apply Hwt; eapply nth_error_In; eauto).
  assert (Wi1 : well_typed i1) by (eapply resolved_typed; eauto).
  destruct (Forall2_nth _ _ _ _ _ Hp Hk1) as (i2 & Hk2 & Hi2).
  destruct (marshalAll_chunk _ _ _ _ _ _ Hm Hk2) as (b & n & pre & post & Hb & -> & Hpre).
  rewrite <- (raw_offset_ext _ _ Hop2), <- (raw_offset_ext _ _ Hop1) in Hpre.
  assert (Main : forall i1', i1 = i1' -> (pending_imm i \/ pending_off i) ->
    OpCode i1' = OpCode i -> Dst i1' = Dst i -> Src i1' = Src i ->
    ~ is_builtin (OpCode i) (Dst i) (Src i) ->
    exists w, word_at bo (pre ++ b ++ post) (raw_offset l k) w /\ r_op w = OpCode i /\ r_off w = Offset i1' /\
              r_imm w = i32 (Constant i1')).
  { intros i1' <- HP Ho Hd Hsr HB.
    assert (NM : ~ map_load i1). { pose proof (pending_not_map i HP) as NM. unfold map_load in *. now rewrite Ho, Hsr. }
    assert (i2 = i1) by (apply encodeMapPointer_op in Hi2; apply Hi2; exact NM). subst i2.
    destruct (Marshal_word native bo i1 b n Wi1 Hb) as (w & Hw & Hfb & Hlb & Hpl).
    exists w. split; [apply word_at_app; auto|].
    assert (PP : ~ is_alu (OpCode i) /\ ~ is_atomic (OpCode i)).
    { destruct HP as [(_ & R & _)|(_ & _ & J & _)].
      - unfold imm_ref, is_call, is_dword, is_alu, is_atomic in *. unfold cls in *. lia.
      - unfold jump_class, is_alu, is_atomic in *. unfold cls in *. lia. }
    rewrite Ho, Hd, Hsr in Hpl. rewrite <- Ho. rewrite Ho. tauto. }
  destruct HR as (R1 & R2 & _). split.
  - intros P. destruct (R1 P) as (t & d & Ht & E & Ed).
    assert (HB : ~ is_builtin (OpCode i) (Dst i) (Src i)).
    { destruct P as (_ & R & _). unfold imm_ref, is_builtin, is_call, is_dword in *. unfold cls in *. lia. }
    destruct (Main _ E (or_introl P)) as (w & Hw & H1 & H2 & H3); auto.
    exists t, w. split; [exact Ht|]. split; [exact Hw|]. split; [exact H1|]. split; [exact H2|].
    rewrite H3. cbn [Constant set_cons]. f_equal. lia.
  - intros P HB. destruct (R2 P) as (t & d & Ht & E & Hd & Ed).
    destruct (Main _ E (or_intror P)) as (w & Hw & H1 & H2 & H3); auto.
    exists t, w. split; [exact Ht|]. split; [exact Hw|]. split; [exact H1|]. split; [exact H3|].
    rewrite H2. cbn [Offset set_off].
    set (x := raw_offset l t - raw_offset l k - 1).
    replace (raw_offset l k + 1 + d - raw_offset l t) with (d - x) in Ed by (unfold x; lia).
    clearbody x. unfold i16. rewrite <- (sext_id 16 d) by (try lia; assumption).
    rewrite <- (sext_wrapu 16 d), <- (sext_wrapu 16 x) by lia. f_equal. unfold wrapu. clear - Ed. lia.
Qed.

(** ** Success of Marshal *)
Lemma marshalAll_succeeds native bo l :
  Forall (fun i => exists b n, Marshal native bo i = Ok (b, n)) l -> exists bs, marshalAll native bo l = (bs, None).
Proof.
  induction 1 as [|i l (b & n & Hm) H (bs & IH)]; cbn [marshalAll]; [eauto|].
  rewrite Hm, IH. eauto.
Qed.

(** ** Marshalling twice *)
Lemma i64_halves x y : in_s 64 x -> in_s 64 y -> x mod 2 ^ 32 = y mod 2 ^ 32 ->
  (x / 2 ^ 32) mod 2 ^ 32 = (y / 2 ^ 32) mod 2 ^ 32 -> x = y.
Proof. unfold in_s. intros. lia. Qed.

Lemma encodeMapFD_twice i fd : encodeMapFD (encodeMapFD i fd) fd = encodeMapFD i fd.
Proof.
  assert (E : Constant (encodeMapFD (encodeMapFD i fd) fd) = Constant (encodeMapFD i fd)).
  { destruct (encodeMapFD_Constant i fd) as (A1 & A2 & A3).
    destruct (encodeMapFD_Constant (encodeMapFD i fd) fd) as (B1 & B2 & B3).
    apply i64_halves; auto; congruence. }
  unfold encodeMapFD in *. cbn [set_cons Constant] in E. unfold set_cons at 1. cbn [OpCode Dst Src Offset Symbol Reference MapFD set_cons].
  unfold set_cons at 2. f_equal. exact E.
Qed.

Lemma encodeMapPointer_twice i i' : encodeMapPointer i = Ok i' -> encodeMapPointer i' = Ok i'.
Proof.
  unfold encodeMapPointer. destruct (IsLoadFromMap i) eqn:El; cbn [negb].
  - destruct (MapFD i) as [fd|] eqn:Em.
    + destruct (fd <? 0) eqn:Ef; [discriminate|]. intros H; apply Ok_inj in H; subst i'.
      change (IsLoadFromMap (encodeMapFD i fd)) with (IsLoadFromMap i). rewrite El. cbn [negb].
      change (MapFD (encodeMapFD i fd)) with (MapFD i). rewrite Em, Ef, encodeMapFD_twice. reflexivity.
    + intros H; apply Ok_inj in H; subst i'. rewrite El, Em. reflexivity.
  - intros H; apply Ok_inj in H; subst i'. now rewrite El.
Qed.

Lemma index_symbols_ext k o l l' : Forall2 (fun i i' => OpCode i = OpCode i' /\ Symbol i = Symbol i') l l' ->
  forall acc, index_symbols acc (positions_from k o l) = index_symbols acc (positions_from k o l').
Proof.
  intros H; revert k o; induction H as [|i i' l l' (E1 & E2) H IH]; intros k o acc; [reflexivity|].
  cbn [positions_from index_symbols]. rewrite E2. unfold slots. rewrite E1.
  destruct (String.eqb _ _); [apply IH|]. destruct (lookup _ _); [reflexivity|apply IH].
Qed.

Lemma Forall2_positions (P : Z * Z * instr -> instr -> Prop) l l' :
  length l = length l' ->
  (forall k i i', nth_error l k = Some i -> nth_error l' k = Some i' -> P (Z.of_nat k, raw_offset l k, i) i') ->
  Forall2 P (positions_from 0 0 l) l'.
Proof.
  intros Hlen H.
  assert (G : forall l l' k0 o0, length l = length l' ->
    (forall k i i', nth_error l k = Some i -> nth_error l' k = Some i' ->
       P (k0 + Z.of_nat k, o0 + raw_offset l k, i) i') -> Forall2 P (positions_from k0 o0 l) l').
  { clear. induction l as [|i l IH]; intros [|i' l'] k0 o0 Hl H; try discriminate; [constructor|].
    cbn [positions_from]. constructor.
    - specialize (H O i i' eq_refl eq_refl). cbn [raw_offset] in H.
      replace (k0 + Z.of_nat 0) with k0 in H by lia. replace (o0 + 0) with o0 in H by lia. exact H.
    - apply IH; [now inversion Hl|]. intros k j j' Hj Hj'. specialize (H (S k) j j' Hj Hj').
      cbn [raw_offset] in H. replace (k0 + Z.of_nat (S k)) with (k0 + 1 + Z.of_nat k) in H by lia.
      replace (o0 + (slots i + raw_offset l k)) with (o0 + slots i + raw_offset l k) in H by lia. exact H. }
  apply G; [exact Hlen|]. intros k i i' Hi Hi'. rewrite !Z.add_0_l. auto.
Qed.

Lemma set_cons_twice i c : set_cons (set_cons i c) c = set_cons i c. Proof. reflexivity. Qed.
Lemma set_off_twice i c : set_off (set_off i c) c = set_off i c. Proof. reflexivity. Qed.

Lemma fix_reference_twice m o i i' :
  ~ (pending_imm i /\ jump_class i /\ Offset i = -1) ->
  fix_reference m o i = Ok i' -> fix_reference m o i' = Ok i'.
Proof.
  intros N. destruct (fix_reference_cases m o i) as [(P & ->)|[(P & ->)|(P1 & P2 & E)]].
  - destruct (lookup (Reference i) m) as [sym|] eqn:El; [|discriminate]. intros H; apply Ok_inj in H; subst i'.
    set (d := i64 (u64 (sym - o - 1))).
    destruct (fix_reference_cases m o (set_cons i d)) as [(Q & ->)|[(Q & _)|(_ & _ & E)]].
    + change (Reference (set_cons i d)) with (Reference i). rewrite El. reflexivity.
    + exfalso. apply N. split; [exact P|]. destruct Q as (_ & _ & J & O). split; [exact J|exact O].
    + exact E.
  - destruct (lookup (Reference i) m) as [sym|] eqn:El; [|discriminate]. intros H; apply Ok_inj in H; subst i'.
    set (d := i16 (u64 (sym - o - 1))).
    destruct (fix_reference_cases m o (set_off i d)) as [(Q & _)|[(Q & ->)|(_ & _ & E)]].
    + exfalso. destruct P as (_ & P & _). apply P. destruct Q as (_ & Q). exact Q.
    + change (Reference (set_off i d)) with (Reference i). rewrite El. reflexivity.
    + exact E.
  - rewrite E. intros H; apply Ok_inj in H; subst i'. exact E.
Qed.

Lemma fix_reference_map m o i : map_load i -> fix_reference m o i = Ok i.
Proof.
  intros Hm. destruct (fix_reference_cases m o i) as [(P & _)|[(P & _)|(_ & _ & E)]]; [| |exact E];
    exfalso; eapply pending_not_map; eauto.
Qed.

Lemma marshal_twice native bo l bs l2 :
  Z.of_nat (length l) < 2 ^ 61 ->
  (forall i, In i l -> ~ (pending_imm i /\ jump_class i /\ Offset i = -1)) ->
  MarshalInsns native bo l = (bs, l2, None) -> MarshalInsns native bo l2 = (bs, l2, None).
Proof.
  intros Hs Hn HM. apply MarshalInsns_ok in HM as (l1 & Hf & Hp & Hm).
  destruct (encodeFunctionReferences_ok l l1 ltac:(lia) Hf) as (_ & Hlen & _).
  pose proof (encodeFunctionReferences_op l l1 ltac:(lia) Hf) as Hop1.
  apply map_until_ok in Hp.
  assert (Hlen2 : length l1 = length l2) by (eapply Forall2_length; eauto).
  pose proof (small_total l ltac:(lia)) as Ht.
  unfold encodeFunctionReferences in Hf. rewrite iterate_spec in Hf by lia.
  destruct (index_symbols [] (positions_from 0 0 l)) as [m|e] eqn:Em; [|discriminate].
  apply map_until_ok in Hf.
  (* pointwise *)
  assert (HP : forall k i2, nth_error l2 k = Some i2 ->
    exists i i1, nth_error l k = Some i /\ nth_error l1 k = Some i1 /\
      fix_reference m (raw_offset l k) i = Ok i1 /\ encodeMapPointer i1 = Ok i2).
  { intros k i2 Hk2. assert (Lk : (k < length l2)%nat) by (apply nth_error_Some; congruence).
    destruct (nth_error l k) as [i|] eqn:Hk; [|apply nth_error_None in Hk; lia].
    destruct (Forall2_nth _ _ _ _ _ Hf (positions_from_nth 0 0 l k i Hk)) as (i1 & Hk1 & Hi1).
    destruct (Forall2_nth _ _ _ _ _ Hp Hk1) as (i2' & Hk2' & Hi2). assert (i2' = i2) by congruence. subst i2'.
    exists i, i1. cbn beta iota in Hi1. rewrite Z.add_0_l in Hi1. auto. }
  assert (Hext : Forall2 (fun i i' => OpCode i = OpCode i' /\ Symbol i = Symbol i') l l2).
  { assert (G : forall l l2 : list instr, length l = length l2 ->
       (forall k i i2, nth_error l k = Some i -> nth_error l2 k = Some i2 -> OpCode i = OpCode i2 /\ Symbol i = Symbol i2) ->
       Forall2 (fun i i' => OpCode i = OpCode i' /\ Symbol i = Symbol i') l l2).
    { clear. induction l as [|i l IH]; intros [|j l2] Hl H; try discriminate; constructor.
      - exact (H O i j eq_refl eq_refl).
      - apply IH; [now inversion Hl|]. intros k a b Ha Hb. exact (H (S k) a b Ha Hb). }
    apply G; [congruence|]. intros k i i2 Hk Hk2.
    destruct (HP k i2 Hk2) as (i' & i1 & Hk' & Hk1 & A & B). assert (i' = i) by congruence. subst i'.
    apply fix_reference_op in A. apply encodeMapPointer_op in B.
    destruct A as (A1 & _ & _ & A2 & _), B as (B1 & _ & _ & _ & B2 & _). split; congruence. }
  assert (Hro : forall k, raw_offset l k = raw_offset l2 k).
  { apply raw_offset_ext. eapply Forall2_impl'; [|exact Hext]. cbn. tauto. }
  assert (E1 : encodeFunctionReferences l2 = (l2, None)).
  { unfold encodeFunctionReferences. rewrite iterate_spec.
    2:{ pose proof (total_slots_range l2). lia. }
    rewrite <- (index_symbols_ext 0 0 l l2 Hext []), Em. apply map_until_ok.
    apply Forall2_positions; [reflexivity|]. intros k i i' Hi Hi'. assert (i' = i) by congruence. subst i'.
    destruct (HP k i Hi) as (i0 & i1 & H0 & H1 & A & B). rewrite <- Hro.
    pose proof (IsLoadFromMap_spec i1) as Hml.
    destruct (IsLoadFromMap i1) eqn:El.
    - apply encodeMapPointer_op in B. apply fix_reference_map.
      destruct B as (B1 & _ & B2 & _). unfold map_load. rewrite B1, B2. apply Hml. reflexivity.
    - assert (i = i1). { apply encodeMapPointer_op in B. apply B. intros C. apply Hml in C. discriminate. }
      subst i1. eapply fix_reference_twice; [|exact A]. apply Hn. eapply nth_error_In; eauto. }
  assert (E2 : encodeMapPointers l2 = (l2, None)).
  { apply map_until_ok. clear -Hp. induction Hp; constructor; auto. eapply encodeMapPointer_twice; eauto. }
  unfold MarshalInsns. rewrite E1, E2, Hm. reflexivity.
Qed.

(** ** Far jumps *)
Definition nop := ALU_Reg Mov 0 0.
Definition far_jump (n : nat) : list instr :=
  Label Ja "target" :: repeat nop n ++ [set_sym Return "target"].

Lemma far_jump_nth n k : (0 < k <= n)%nat -> nth_error (far_jump n) k = Some nop.
Proof.
  intros H. destruct k as [|k]; [lia|]. cbn [far_jump nth_error]. rewrite nth_error_app1 by (rewrite repeat_length; lia).
  rewrite nth_error_repeat by lia. reflexivity.
Qed.
Lemma far_jump_last n : nth_error (far_jump n) (S n) = Some (set_sym Return "target").
Proof. cbn [far_jump nth_error]. rewrite nth_error_app2; rewrite repeat_length; [|lia]. now rewrite Nat.sub_diag. Qed.
Lemma far_jump_length n : length (far_jump n) = S (S n).
Proof. cbn. rewrite app_length, repeat_length. cbn. lia. Qed.

Lemma far_jump_offset n : raw_offset (far_jump n) (S n) = Z.of_nat n + 1.
Proof.
  unfold far_jump. cbn [raw_offset]. change (slots (Label Ja "target")) with 1.
  enough (E : raw_offset (repeat nop n ++ [set_sym Return "target"]) n = Z.of_nat n) by lia.
  induction n; [reflexivity|]. cbn [repeat app raw_offset]. change (slots nop) with 1. lia.
Qed.

Lemma far_jump_In n i : In i (far_jump n) ->
  i = Label Ja "target" \/ i = nop \/ i = set_sym Return "target".
Proof.
  intros [<-|H]; [auto|]. apply in_app_or in H as [H|[<-|[]]]; auto. apply repeat_spec in H. auto.
Qed.

Lemma far_jump_unique n : unique_symbols (far_jump n).
Proof.
  assert (G : forall a i, nth_error (far_jump n) a = Some i -> Symbol i <> EmptyString -> a = S n).
  { intros a i Ha Hs. destruct (Nat.lt_total a (S n)) as [L|[E|L]]; [|exact E|].
    - destruct a; [inversion Ha; subst; contradiction Hs; reflexivity|].
      rewrite far_jump_nth in Ha by lia. inversion Ha; subst. contradiction Hs. reflexivity.
    - assert (nth_error (far_jump n) a = None) by (apply nth_error_None; rewrite far_jump_length; lia). congruence. }
  intros a b i j Ha Hb Hs E. rewrite (G a i Ha Hs), (G b j Hb ltac:(congruence)). reflexivity.
Qed.

Lemma far_jump_marshals n native bo : Z.of_nat n < 2 ^ 60 ->
  exists bs l2, MarshalInsns native bo (far_jump n) = (bs, l2, None).
Proof.
  intros Hn. set (l := far_jump n).
  assert (Hs : Z.of_nat (length l) < 2 ^ 62) by (unfold l; rewrite far_jump_length; lia).
  destruct (encodeFunctionReferences l) as [l1 [e|]] eqn:Ef.
  { destruct (encodeFunctionReferences_err l l1 e Hs Ef) as [(_ & _ & C)|(_ & _ & i & Hi & P & Nd)].
    - exfalso. apply C. apply far_jump_unique.
    - exfalso. apply far_jump_In in Hi as [-> | [-> | ->]].
      + apply (Nd (S n)). exists (set_sym Return "target"). split; [apply far_jump_last|reflexivity].
      + destruct P as [(P & _)|(P & _)]; apply P; reflexivity.
      + destruct P as [(P & _)|(P & _)]; apply P; reflexivity. }
  destruct (encodeFunctionReferences_ok l l1 Hs Ef) as (_ & Hlen & Hres).
  (* every instruction of l1 is a jump with some offset, a nop or a return *)
  assert (Hl1 : forall i1, In i1 l1 -> (exists d, i1 = set_off (Label Ja "target") d) \/ i1 = nop \/ i1 = set_sym Return "target").
  { intros i1 Hi. apply In_nth_error in Hi as [k Hk].
    assert (Lk : (k < length l)%nat) by (rewrite <- Hlen; apply nth_error_Some; congruence).
    destruct (nth_error l k) as [i|] eqn:Hki; [|apply nth_error_None in Hki; lia].
    destruct (Hres k i Hki) as (i1' & Hk' & (R1 & R2 & R3)). assert (i1' = i1) by congruence. subst i1'.
    apply nth_error_In in Hki. apply far_jump_In in Hki as [-> | [-> | ->]].
    - left. destruct (pending_imm_dec (Label Ja "target")) as [(_ & _ & C)|P]; [discriminate|].
      destruct (pending_off_dec (Label Ja "target")) as [Q|Q].
      + destruct (R2 Q) as (t & d & _ & -> & _). eauto.
      + exists (-1). rewrite (R3 P Q). reflexivity.
    - right; left. apply R3; intros (C & _); apply C; reflexivity.
    - right; right. apply R3; intros (C & _); apply C; reflexivity. }
  assert (Hnm : forall i1, In i1 l1 -> ~ map_load i1).
  { intros i1 Hi. destruct (Hl1 i1 Hi) as [(d & ->) | [-> | ->]]; intros (C & _); discriminate C. }
  destruct (encodeMapPointers l1) as [l2 [e|]] eqn:Em.
  { exfalso. apply encodeMapPointers_err in Em as (_ & i & fd & Hi & Hl & _). exact (Hnm i Hi Hl). }
  assert (l2 = l1).
  { apply encodeMapPointers_ok in Em. clear -Em Hnm. induction Em as [|i i' l l' (_ & E) F IH]; [reflexivity|].
    f_equal; [apply E; left; apply Hnm; left; reflexivity|]. apply IH. intros j Hj. apply Hnm. right. exact Hj. }
  subst l2. destruct (marshalAll_succeeds native bo l1) as (bs & Hbs).
  { apply Forall_forall. intros i1 Hi. destruct (Hl1 i1 Hi) as [(d & ->) | [-> | ->]]; eexists; eexists; reflexivity. }
  exists bs, l1. unfold MarshalInsns. rewrite Ef, Em, Hbs. reflexivity.
Qed.
