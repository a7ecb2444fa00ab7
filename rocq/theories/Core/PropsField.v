(** C39: CO-RE bitfield shifts extract the field.  C40: CO-RE field offsets are layout offsets. *)
From Coq Require Import ZArith List Lia Bool.
From Verif.Base Require Import GoInt.
From Verif.Btf Require Import Names Types TypesSpec TypesProof PropsTypes.
From Verif.Core Require Import Fixup Compat CompatSpec CompatProof Field FieldSpec FieldProof.
Import ListNotations.
Open Scope Z_scope.

Lemma coreFindField_sound fuel h lt acc tt lf tf : laid_out h -> Forall (fun n => 0 <= n < 2 ^ 31) acc -> coreFindField fuel h lt acc tt = Some (Ok (lf, tf)) ->
  exists a0 rest l0 t0 p lo lb to tb, acc = a0 :: rest /\ element_at h lt a0 l0 /\ element_at h tt a0 t0 /\
    denotes h lt rest p (cf_type lf) lo lb /\ at_path h tt p (cf_type tf) to tb /\ cf_bfsize lf = lb /\ cf_bfsize tf = tb /\
    (8 * l0 + lo < 2 ^ 32 -> pos lf = 8 * l0 + lo) /\ (8 * t0 + to < 2 ^ 32 -> pos tf = 8 * t0 + to) /\
    0 <= cf_bfoff lf /\ 0 <= cf_bfoff tf /\ (lb = 0 -> tb = 0 -> cf_bfoff lf = 0 /\ cf_bfoff tf = 0).
Proof.
  intros L F E. unfold coreFindField in E. destruct acc as [|a0 rest]; [discriminate E|]. inversion F as [|? ? Ha Fr]; subst. destruct (coreAreMembersCompatible h lt tt); [|discriminate E].
  destruct (adjustOffsetToNthElement h (mkField lt 0 0 0) a0) as [l1|] eqn:A1; [|discriminate E]. destruct (adjustOffsetToNthElement h (mkField tt 0 0 0) a0) as [t1|] eqn:A2; [|discriminate E].
  apply nth_element in A1; [|exact (proj1 L)|exact Ha|split; cbn; lia]. apply nth_element in A2; [|exact (proj1 L)|exact Ha|split; cbn; lia]. cbn [cf_type cf_offset cf_bfoff cf_bfsize] in *. destruct A1 as (l0 & El & Nl & ->), A2 as (t0 & Et & Nt & ->).
  apply field_loop_sound in E; cbn [cf_offset cf_bfoff cf_bfsize]; auto; try (apply u32_range). cbn [cf_type cf_offset] in E. destruct E as (p & lo & lb & to & tb & D & A & Q1 & Q2 & P1 & P2 & P3).
  exists a0, rest, l0, t0, p, lo, lb, to, tb. split; [reflexivity|]. split; [exact El|]. split; [exact Et|]. split; [exact D|]. split; [exact A|]. split; [exact Q1|]. split; [exact Q2|].
  pose proof (denotes_nonneg _ _ _ _ _ _ _ L D). pose proof (at_path_nonneg _ _ _ _ _ _ L A).
  split; [|split; [|exact P3]]; intros B; rewrite Z.add_0_l in *; [rewrite u32_id in P1 by lia; rewrite P1; lia|rewrite u32_id in P2 by lia; rewrite P2; lia].
Qed.

Lemma at_path_bits h t p r o b : laid_out h -> at_path h t p r o b -> 0 <= b.
Proof.
  intros L. induction 1 as [|t c name m off S M|t c name m off p r o b S M B P IH|t a x e n i eo p r o b S D I0 I1 El P IH]; [lia| |exact IH|exact IH].
  destruct (member_at_nonneg _ _ _ _ _ L M) as (_ & (_ & (X & _) & _) & _). exact X.
Qed.

(** a relocation of a field which isn't poisoned found a field *)
Definition field_kind (k : Z) : Prop := k = reloFieldByteOffset \/ k = reloFieldByteSize \/ k = reloFieldLShiftU64 \/ k = reloFieldRShiftU64.
Lemma field_fixup fuel h little resolve t acc k id target f : field_kind k -> coreCalculateFixup fuel h little resolve (mkRelo t acc k id) target = Some (Ok f) -> f_poison f = false ->
  exists lf tf, coreFindField fuel h t acc target = Some (Ok (lf, tf)) /\ calc_field h little (mkRelo t acc k id) lf tf = Ok f.
Proof.
  intros K E P. unfold coreCalculateFixup in E. cbn [r_kind r_type r_acc r_id] in E.
  assert (Po : forall g, (if checksForExistence k then fix_up (mkRelo t acc k id) 1 0 else Ok (mkFixup k 0 0 true false)) = Ok g -> f_poison g = true).
  { intros g Eg. assert (C : checksForExistence k = false) by (destruct K as [->|[->|[->| ->]]]; reflexivity). rewrite C in Eg. inversion Eg; reflexivity. }
  assert (S : forall X Y Z W : option (res ferr fixup), (if k =? reloTypeMatches then X else if (k =? reloTypeIDTarget) || (k =? reloTypeSize) || (k =? reloTypeExists) then Y
     else if (k =? reloEnumvalValue) || (k =? reloEnumvalExists) then Z else if (k =? reloFieldByteOffset) || (k =? reloFieldByteSize) || (k =? reloFieldExists) || (k =? reloFieldLShiftU64) || (k =? reloFieldRShiftU64) || (k =? reloFieldSigned) then W else Some (Err Other)) = W).
  { intros. destruct K as [->|[->|[->| ->]]]; reflexivity. }
  rewrite S in E. clear S. destruct (as_fwd h target).
  - inversion E as [E']. apply Po in E'. congruence.
  - destruct (coreFindField fuel h t acc target) as [[[lf tf]|[]]|] eqn:C; try discriminate E.
    + inversion E. eauto.
    + inversion E as [E']. apply Po in E'. congruence.
Qed.

(** ** C40 *)
Theorem C40_layout : forall fuel h little resolve t acc id target f,
  laid_out h -> Forall (fun n => 0 <= n < 2 ^ 31) acc ->
  coreCalculateFixup fuel h little resolve (mkRelo t acc reloFieldByteOffset id) target = Some (Ok f) -> f_poison f = false ->
  exists a0 rest p l0 lr lo lb t0 tr to tb, acc = a0 :: rest /\
    element_at h t a0 l0 /\ denotes h t rest p lr lo lb /\
    element_at h target a0 t0 /\ at_path h target p tr to tb /\
    (8 * l0 + lo < 2 ^ 32 -> 8 * f_local f <= 8 * l0 + lo /\ (lb = 0 -> tb = 0 -> 8 * f_local f = 8 * l0 + lo)) /\
    (8 * t0 + to < 2 ^ 32 -> 8 * f_target f <= 8 * t0 + to /\ (lb = 0 -> tb = 0 -> 8 * f_target f = 8 * t0 + to)).
Proof.
  intros fuel h little resolve t acc id target f L F E P. apply field_fixup in E; [|now left|exact P]. destruct E as (lf & tf & C & E). unfold calc_field in E. cbn in E. inversion E; subst f. cbn [f_local f_target].
  destruct (coreFindField_sound _ _ _ _ _ _ _ L F C) as (a0 & rest & l0 & t0 & p & lo & lb & to & tb & -> & El & Et & D & A & _ & _ & P1 & P2 & B1 & B2 & B3).
  exists a0, rest, p, l0, (cf_type lf), lo, lb, t0, (cf_type tf), to, tb. split; [reflexivity|]. split; [exact El|]. split; [exact D|]. split; [exact Et|]. split; [exact A|]. unfold pos in *.
  split; intros Bd; [specialize (P1 Bd)|specialize (P2 Bd)]; (split; [lia|]); intros Z1 Z2; destruct (B3 Z1 Z2); lia.
Qed.
(** the path an accessor denotes is unique, so if there is no such path in the target there is no relocated offset *)
Lemma denotes_path h t acc p r o b : denotes h t acc p r o b -> forall p' r' o' b', denotes h t acc p' r' o' b' -> p' = p.
Proof.
  assert (MF : forall c ms ms' i m m', has_members h c ms -> has_members h c ms' -> nth_error ms i = Some m -> nth_error ms' i = Some m' -> m = m').
  { intros c ms ms' i m m' H H'. pose proof (has_members_fun _ _ _ _ H H'). subst. congruence. }
  assert (MA : forall c ms x e n, has_members h c ms -> deref h c = Some (NArray x e n) -> False) by (intros c ms x e n (a & s & tg & [X|X]) Y; congruence).
  induction 1 as [t|t c ms i m c' acc p r o b S M I N Nm Sc D IH|t c ms i m S M I N Nm|t c ms i m acc p r o b S M I N Nm B D IH|t a x e n i eo acc p r o b S De I J El D IH]; intros p' r' o' b' D'; inversion D'; subst; try reflexivity;
    repeat match goal with
    | A : stripped h t ?a, B : stripped h t ?b |- _ => tryif constr_eq a b then fail else (pose proof (stripped_fun _ _ _ _ A B); subst)
    end;
    try (exfalso; eapply MA; eassumption);
    try match goal with A : nth_error _ _ = Some ?x, B : nth_error _ _ = Some ?y |- _ => tryif constr_eq x y then fail else (assert (x = y) by (eapply MF; [| |exact A|exact B]; eassumption); subst) end; try congruence.
  - match goal with A : stripped h (m_type ?z) ?a, B : stripped h (m_type ?z) ?b |- _ => tryif constr_eq a b then fail else (pose proof (stripped_fun _ _ _ _ A B); subst) end. eauto.
  - match goal with H : denotes h _ [] _ _ _ _ |- _ => inversion H; subst end. reflexivity.
  - match goal with H : denotes h _ [] _ _ _ _ |- _ => inversion H; subst end. reflexivity.
  - f_equal. eauto.
  - match goal with A : deref h ?a = Some (NArray _ _ _), B : deref h ?a = Some (NArray _ _ _) |- _ => rewrite A in B; inversion B; subst end. f_equal. eauto.
Qed.
Theorem C40_unmatched : forall fuel h little resolve t acc id target f p lr lo lb,
  laid_out h -> Forall (fun n => 0 <= n < 2 ^ 31) acc -> denotes h t (tl acc) p lr lo lb ->
  (forall tr to tb, ~ at_path h target p tr to tb) ->
  coreCalculateFixup fuel h little resolve (mkRelo t acc reloFieldByteOffset id) target = Some (Ok f) -> f_poison f = true.
Proof.
  intros fuel h little resolve t acc id target f p lr lo lb L F D N E. destruct (f_poison f) eqn:P; [reflexivity|exfalso].
  destruct (C40_layout _ _ _ _ _ _ _ _ _ L F E P) as (a0 & rest & p' & l0 & lr' & lo' & lb' & t0 & tr & to & tb & -> & _ & D' & _ & A & _). cbn [tl] in D. pose proof (denotes_path _ _ _ _ _ _ _ D _ _ _ _ D'). subst. eapply N. exact A.
Qed.
(** conversely, a member is reported missing only if the target has none of that name and of a compatible type *)
Definition members_compatible (h : heap) (l t : ref) : Prop :=
  exists a b, stripped h l a /\ stripped h t b /\
    ((exists ms, has_members h a ms) /\ (exists ms, has_members h b ms) \/
     (exists x, deref h a = Some (NPtr x)) /\ (exists y, deref h b = Some (NPtr y)) \/
     (exists i e n, deref h a = Some (NArray i e n)) /\ (exists i e n, deref h b = Some (NArray i e n)) \/
     (exists n s e, deref h a = Some (NInt n s e)) /\ (exists n s e, deref h b = Some (NInt n s e)) \/
     (exists n s, deref h a = Some (NFloat n s)) /\ (exists n s, deref h b = Some (NFloat n s)) \/
     (exists n n' s s' g g' vs vs', deref h a = Some (NEnum n s g vs) /\ deref h b = Some (NEnum n' s' g' vs') /\ names_agree n n') \/
     (exists n n' k k', deref h a = Some (NFwd n k) /\ deref h b = Some (NFwd n' k') /\ names_agree n n')).
Lemma names_match_iff a b : coreEssentialNamesMatch a b = true <-> names_agree a b.
Proof.
  unfold coreEssentialNamesMatch, names_agree. destruct a as [|x a]; [split; auto|]. destruct b as [|y b]; [split; auto|]. rewrite str_eqb_eq. split; [auto|]. intros [X|[X|X]]; [discriminate X|discriminate X|exact X].
Qed.
Lemma members_compatible_iff h l t : coreAreMembersCompatible h l t = Ok tt <-> members_compatible h l t.
Proof.
  unfold coreAreMembersCompatible. split.
  - intros E. destruct (as_composite h l) as [[a ams]|] eqn:A; [destruct (as_composite h t) as [[b bms]|] eqn:B|].
    + apply as_composite_iff in A. apply as_composite_iff in B. destruct A as (A & Ma), B as (B & Mb). exists a, b. split; [exact A|]. split; [exact B|]. left. eauto.
    + clear a ams A B. revert E. destruct (UnderlyingType h l) as [a|] eqn:A, (UnderlyingType h t) as [b|] eqn:B; try (destruct (_ =? _); discriminate). apply Underlying_stripped in A. apply Underlying_stripped in B.
      intros E. exists a, b. split; [exact A|]. split; [exact B|]. right. destruct (Z.eqb_spec (dyn h (Some a)) (dyn h (Some b))) as [Dy|]; [|discriminate E]. cbn [negb] in E.
      destruct a as [| |a]; try discriminate E. cbn [deref dyn] in *. destruct (nth_error h a) as [n|]; [|discriminate E]. destruct b as [| |b]; cbn [dyn deref] in *; try (destruct n; discriminate). destruct (nth_error h b) as [m|]; [|destruct n; discriminate].
      destruct n; try discriminate E; destruct m; try discriminate Dy; try discriminate E; try (destruct (coreEssentialNamesMatch _ _) eqn:Nm; [|discriminate E]; apply names_match_iff in Nm); eauto 30.
    + clear A. revert E. destruct (UnderlyingType h l) as [a|] eqn:A, (UnderlyingType h t) as [b|] eqn:B; try (destruct (_ =? _); discriminate). apply Underlying_stripped in A. apply Underlying_stripped in B.
      intros E. exists a, b. split; [exact A|]. split; [exact B|]. right. destruct (Z.eqb_spec (dyn h (Some a)) (dyn h (Some b))) as [Dy|]; [|discriminate E]. cbn [negb] in E.
      destruct a as [| |a]; try discriminate E. cbn [deref dyn] in *. destruct (nth_error h a) as [n|]; [|discriminate E]. destruct b as [| |b]; cbn [dyn deref] in *; try (destruct n; discriminate). destruct (nth_error h b) as [m|]; [|destruct n; discriminate].
      destruct n; try discriminate E; destruct m; try discriminate Dy; try discriminate E; try (destruct (coreEssentialNamesMatch _ _) eqn:Nm; [|discriminate E]; apply names_match_iff in Nm); eauto 30.
  - intros (a & b & A & B & H). apply Underlying_stripped in A. apply Underlying_stripped in B. unfold as_composite. rewrite A, B.
    assert (Dd : forall x n, deref h x = Some n -> exists y, x = RPtr y /\ nth_error h y = Some n) by (intros [| |y] n D; try discriminate D; exists y; auto).
    destruct H as [((ms & M) & (ms' & M'))|H]; [apply members_of_iff in M; apply members_of_iff in M'; rewrite M, M'; reflexivity|].
    unfold members_of.
    destruct H as [((x & D) & (x' & D'))|[((x & e & n & D) & (x' & e' & n' & D'))|[((x & e & n & D) & (x' & e' & n' & D'))|[((x & e & D) & (x' & e' & D'))|[(n & n' & s & s' & g & g' & vs & vs' & D & D' & N)|(n & n' & k & k' & D & D' & N)]]]]];
      rewrite D, ?D'; destruct (Dd _ _ D) as (y & -> & Y), (Dd _ _ D') as (y' & -> & Y'); cbn [dyn]; rewrite Y, Y'; cbn [Z.eqb negb]; try (apply names_match_iff in N; rewrite N); reflexivity.
Qed.
Theorem C40_missing : forall fuel h little resolve t i id target f c ms m tc tms,
  coreCalculateFixup fuel h little resolve (mkRelo t [0; i] reloFieldExists id) target = Some (Ok f) -> f_target f = 0 ->
  stripped h t c -> has_members h c ms -> 0 <= i -> nth_error ms (Z.to_nat i) = Some m -> m_name m <> [] ->
  stripped h target tc -> has_members h tc tms ->
  (forall m' off, ~ member_at h tc (m_name m) m' off) \/ exists m' off, member_at h tc (m_name m) m' off /\ ~ members_compatible h (m_type m) (m_type m').
Proof.
  intros fuel h little resolve t i id target f c ms m tc tms E Z0 Sl Ml I N Nm St Mt. unfold coreCalculateFixup in E. cbn [r_kind r_type r_acc r_id] in E.
  change (match as_fwd h target with Some _ => Some (poison (mkRelo t [0; i] reloFieldExists id)) | None => match coreFindField fuel h t [0; i] target with None => None | Some (Err Impossible) => Some (poison (mkRelo t [0; i] reloFieldExists id)) | Some (Err Other) => Some (Err Other) | Some (Ok (lf, tf)) => Some (calc_field h little (mkRelo t [0; i] reloFieldExists id) lf tf) end end = Some (Ok f)) in E.
  assert (Ut : UnderlyingType h target = Some tc) by now apply Underlying_stripped. assert (Ul : UnderlyingType h t = Some c) by now apply Underlying_stripped.
  assert (Fw : as_fwd h target = None). { unfold as_fwd. rewrite Ut. destruct Mt as (a & s & tg & [X|X]); rewrite X; reflexivity. }
  rewrite Fw in E. clear Fw. assert (Cc : coreAreMembersCompatible h t target = Ok tt). { apply members_compatible_iff. exists c, tc. split; [exact Sl|]. split; [exact St|]. left. eauto. }
  unfold coreFindField in E. rewrite Cc in E. cbn [adjustOffsetToNthElement Z.eqb] in E. cbn [field_loop cf_type cf_offset] in E. rewrite Ul in E.
  assert (Nz : nth_z ms i = Some m) by (unfold nth_z; destruct (Z.ltb_spec i 0); [lia|exact N]).
  assert (Nn : is_nil (m_name m) = false) by (destruct (m_name m); [congruence|reflexivity]).
  assert (At : as_composite h target = Some (tc, tms)) by (apply as_composite_iff; auto).
  match type of E with match ?X with _ => _ end = _ => set (W := X) in E end.
  assert (EW : W = Some (Err Impossible)). { destruct W as [[[lf tf]|[]]|]; try discriminate E; [|reflexivity]. unfold calc_field in E. cbn in E. inversion E; subst f. discriminate Z0. }
  clear E Z0. subst W. 
  assert (W : match coreFindMember h tc (m_name m) with
              | Err e => Some (Err e)
              | Ok (tm, last) =>
                            if (m_bits m =? 0) && (m_bits tm =? 0) then
                              match coreAreMembersCompatible h (m_type m) (m_type tm) with
                              | Err e => Some (Err e)
                              | Ok _ => Some (Ok (mkField (m_type m) (u32 (0 + Bytes (m_offset m))) 0 0, mkField (m_type tm) (u32 (0 + Bytes (m_offset tm))) 0 0))
                              end
                            else match adjustOffsetBits fuel h (mkField (m_type m) 0 0 (m_bits m)) (m_offset m) with
                                 | None => None
                                 | Some (Err e) => Some (Err e)
                                 | Some (Ok local) =>
                                     match adjustOffsetBits fuel h (mkField (m_type tm) 0 0 (m_bits tm)) (m_offset tm) with
                                     | None => None
                                     | Some (Err e) => Some (Err e)
                                     | Some (Ok target) => match coreAreMembersCompatible h (cf_type local) (cf_type target) with
                                                           | Err e => Some (Err e)
                                                           | Ok _ => Some (Ok (local, target)) end
                                     end
                                 end
              end = Some (Err Impossible)).
  { rewrite <- EW. rewrite At. destruct Ml as (a & s & tg & [X|X]); rewrite X, Nz, Nn; reflexivity. }
  clear EW. destruct (coreFindMember h tc (m_name m)) as [[tm last]|e] eqn:Fm.
  - right. apply coreFindMember_sound in Fm. destruct Fm as (m0 & off & Ma & Et & _ & _ & _). exists m0, off. split; [exact Ma|]. rewrite <- Et. intros Mc. apply members_compatible_iff in Mc.
    destruct ((m_bits m =? 0) && (m_bits tm =? 0)); [rewrite Mc in W; discriminate W|]. unfold adjustOffsetBits in W. cbn [cf_type] in W.
    assert (Al : forall fu x y, alignof fu h x = Some (Err y) -> y = Other).
    { clear. induction fu as [|fu IH]; intros x y E; cbn [alignof] in E; [discriminate E|]. destruct (UnderlyingType h x) as [r|]; [|inversion E; reflexivity]. destruct (deref h r) as [n|]; [|inversion E; reflexivity].
      destruct n; try (inversion E; reflexivity); try (destruct (Math.IsPow int64 _); inversion E; reflexivity). eauto. }
    destruct (alignof fuel h (m_type m)) as [[]|] eqn:A1; try discriminate W; [|apply Al in A1; subst; discriminate W]. destruct (alignof fuel h (m_type tm)) as [[]|] eqn:A2; try discriminate W; [|apply Al in A2; subst; discriminate W].
    cbn [cf_type] in W. rewrite Mc in W. discriminate W.
  - inversion W; subst e. left. intros m' off. eapply coreFindMember_complete; eassumption.
Qed.

(** Accessing a nested field: locally struct s { int a; union { long b; struct { int x[4]; } ; }; }, field x[2]; in the
    target the members moved. *)
Definition s_a : str := [97]. Definition s_b : str := [98]. Definition s_x : str := [120]. Definition s_s : str := [115]. Definition s_int : str := [105; 110; 116].
Definition c40_heap : heap :=
  [ NInt s_int 4 1;                                                                       (* 0 int *)
    NArray (RPtr 0) (RPtr 0) 4;                                                           (* 1 int[4] *)
    NStruct [] 16 [mkMember s_x (RPtr 1) 0 0 []] [];                                      (* 2 struct { int x[4]; } *)
    NUnion [] 16 [mkMember s_b (RPtr 0) 0 0 []; mkMember [] (RPtr 2) 0 0 []] [];          (* 3 *)
    NStruct s_s 20 [mkMember s_a (RPtr 0) 0 0 []; mkMember [] (RPtr 3) 32 0 []] [];       (* 4 struct s, local *)
    NTypedef s_b (RPtr 1) [];                                                             (* 5 typedef int b[4] *)
    NStruct s_s 32 [mkMember s_b (RPtr 0) 0 0 []; mkMember s_x (RPtr 5) 64 0 []; mkMember s_a (RPtr 0) 192 0 []] [] (* 6 struct s, target *)
  ].
Ltac members := intros c ms m (n & s & tg & [H|H]) I; destruct c as [| |c]; try discriminate H; cbn [deref] in H;
  do 12 (try destruct c as [|c]); cbn [nth_error c40_heap] in H; try discriminate H; try (destruct c; discriminate H); inversion H; subst; cbn [In] in I; repeat (destruct I as [<-|I]); try contradiction;
  (split; [split; cbn; lia|split; [split; cbn; lia|cbn; auto]]).
Example c40_laid_out : laid_out c40_heap.
Proof. split; [repeat constructor; unfold in_u; cbn; lia|members]. Qed.
Example c40_offset : coreCalculateFixup 10 c40_heap true (fun _ => Err Other) (mkRelo (RPtr 4) [0; 1; 1; 0; 2] reloFieldByteOffset 0) (RPtr 6) = Some (Ok (mkFixup 0 12 16 false false)).
Proof. reflexivity. Qed.
Example c40_array_of : coreCalculateFixup 10 c40_heap true (fun _ => Err Other) (mkRelo (RPtr 4) [3; 0] reloFieldByteOffset 0) (RPtr 6) = Some (Ok (mkFixup 0 60 120 false false)).
Proof. reflexivity. Qed.
Example c40_bound : coreCalculateFixup 10 c40_heap true (fun _ => Err Other) (mkRelo (RPtr 4) [0; 1; 1; 0; 2] reloFieldByteOffset 0) (RPtr 2) = Some (Ok (mkFixup 0 12 8 false false)).
Proof. reflexivity. Qed.
Example c40_no_member : coreCalculateFixup 10 c40_heap true (fun _ => Err Other) (mkRelo (RPtr 4) [0; 0] reloFieldExists 0) (RPtr 2) = Some (Ok (mkFixup 2 1 0 false false)).
Proof. reflexivity. Qed.
Example c40_no_offset : coreCalculateFixup 10 c40_heap true (fun _ => Err Other) (mkRelo (RPtr 4) [0; 0] reloFieldByteOffset 0) (RPtr 2) = Some (Ok (mkFixup 0 0 0 true false)).
Proof. reflexivity. Qed.
(** An accessor which ends at an anonymous member has no name to look for.  Relocating it against a target of the very
    same layout yields 0 instead of the offset of the member. *)
Theorem C40_anonymous_refuted : exists f, coreCalculateFixup 10 c40_heap true (fun _ => Err Other) (mkRelo (RPtr 4) [0; 1] reloFieldByteOffset 0) (RPtr 4) = Some (Ok f) /\
  f_poison f = false /\ f_local f = 4 /\ f_target f = 0.
Proof. eexists. repeat split; reflexivity. Qed.
(** alignof doesn't return for a bitfield whose type is an array containing itself: no amount of stack suffices *)
Definition c40_cycle : heap := [NArray (RPtr 0) (RPtr 0) 1; NStruct s_s 4 [mkMember s_a (RPtr 0) 0 3 []] []].
Theorem C40_alignof_refuted : forall fuel little resolve id, coreCalculateFixup fuel c40_cycle little resolve (mkRelo (RPtr 1) [0; 0] reloFieldByteOffset id) (RPtr 1) = None.
Proof.
  assert (A : forall fuel, alignof fuel c40_cycle (RPtr 0) = None) by (induction fuel as [|fuel IH]; [reflexivity|exact IH]).
  intros fuel little resolve id. cbn. unfold adjustOffsetBits. cbn [cf_type m_type]. rewrite A. reflexivity.
Qed.

(** ** C39 *)
Lemma load_range little m a w : bytes_in m -> 0 <= load little m a w < 2 ^ (8 * Z.of_nat w).
Proof.
  intros B. revert a. induction w as [|w IH]; intros a; [cbn; lia|]. cbn [load]. specialize (IH (a + 1)). specialize (B a).
  replace (8 * Z.of_nat (S w)) with (8 + 8 * Z.of_nat w) by lia. rewrite Z.pow_add_r by lia. change (2 ^ 8) with 256. change 256 with (2 ^ 8) in |- * at 1.
  replace (256 ^ Z.of_nat w) with (2 ^ (8 * Z.of_nat w)) by (rewrite Z.pow_mul_r by lia; reflexivity). set (q := 2 ^ (8 * Z.of_nat w)) in *. destruct little; nia.
Qed.
Lemma testbit_small x n i : 0 <= x < 2 ^ n -> n <= i -> Z.testbit x i = false.
Proof.
  intros X I. destruct (Z.eq_dec x 0) as [->|]; [apply Z.bits_0|]. apply Z.bits_above_log2; [lia|]. destruct (Z.ltb_spec n 0); [rewrite Z.pow_neg_r in X by lia; lia|]. assert (Z.log2 x < n) by (apply Z.log2_lt_pow2; lia). lia.
Qed.
Lemma load_bit little m a w j : bytes_in m -> 0 <= j < 8 * Z.of_nat w ->
  Z.testbit (load little m a w) j = bit_at little m (8 * a + (if little then j else 8 * Z.of_nat w - 1 - j)).
Proof.
  intros B. revert a j. induction w as [|w IH]; intros a j J; [lia|]. cbn [load]. pose proof (load_range little m (a + 1) w B) as R. specialize (B a). destruct little.
  - change 256 with (2 ^ 8). rewrite Z.mul_comm. destruct (Z.ltb_spec j 8) as [J8|J8].
    + rewrite <- (Z.mod_pow2_bits_low _ 8) by lia. rewrite Z.mod_add by lia. rewrite Z.mod_small by (change (2 ^ 8) with 256; lia). unfold bit_at. replace (8 * a + j) with (j + a * 8) by ring. rewrite Z.div_add, Z.mod_add by lia. rewrite (Z.div_small j), (Z.mod_small j) by lia. reflexivity.
    + replace j with ((j - 8) + 8) at 1 by lia. rewrite <- Z.div_pow2_bits by lia. rewrite Z.div_add by lia. rewrite (Z.div_small (m a)) by (change (2 ^ 8) with 256; lia). rewrite Z.add_0_l, IH by lia. f_equal. lia.
  - replace (256 ^ Z.of_nat w) with (2 ^ (8 * Z.of_nat w)) by (rewrite Z.pow_mul_r by lia; reflexivity). set (n := 8 * Z.of_nat w) in *. rewrite Z.add_comm. destruct (Z.ltb_spec j n) as [Jn|Jn].
    + rewrite <- (Z.mod_pow2_bits_low _ n) by lia. rewrite Z.mod_add by lia. rewrite Z.mod_small by lia. rewrite IH by lia. f_equal. unfold n. lia.
    + replace j with ((j - n) + n) at 1 by lia. rewrite <- Z.div_pow2_bits by lia. rewrite Z.div_add by lia. rewrite (Z.div_small (load _ _ _ _)) by lia. rewrite Z.add_0_l. unfold bit_at.
      replace (8 * a + (8 * Z.of_nat (S w) - 1 - j)) with ((7 - (j - n)) + a * 8) by lia. rewrite Z.div_add, Z.mod_add by lia. rewrite (Z.div_small (7 - _)), (Z.mod_small (7 - _)) by lia. f_equal. lia.
Qed.
(** what the program computes: val <<= lshift; val >>= rshift, the latter arithmetic for signed fields *)
Definition extract_unsigned (v l r : Z) : Z := (v * 2 ^ l) mod 2 ^ 64 / 2 ^ r.
Definition extract_signed (v l r : Z) : Z := sext 64 (v * 2 ^ l) / 2 ^ r.
Definition is_signed_value (little : bool) (m : mem) (p s v : Z) : Prop :=
  exists u, is_value little m p s u /\ v = (if u <? 2 ^ (s - 1) then u else u - 2 ^ s).
Lemma extract_bits (little : bool) m a w o s : bytes_in m -> (1 <= w <= 8)%nat -> 0 <= o -> 0 < s -> o + s <= 8 * Z.of_nat w ->
  let l := if little then 64 - o - s else 64 - 8 * Z.of_nat w + o in
  is_value little m (8 * a + o) s (extract_unsigned (load little m a w) l (64 - s)).
Proof.
  intros B W O S C l. unfold extract_unsigned. set (v := load little m a w). assert (Lp : 0 <= l) by (unfold l; destruct little; lia).
  assert (R : 0 <= (v * 2 ^ l) mod 2 ^ 64 < 2 ^ 64) by (apply Z.mod_pos_bound; lia).
  split.
  - split; [apply Z.div_pos; lia|]. apply Z.div_lt_upper_bound; [lia|]. rewrite <- Z.pow_add_r by lia. replace (64 - s + s) with 64 by lia. lia.
  - intros i I. rewrite Z.div_pow2_bits by lia. rewrite Z.mod_pow2_bits_low by lia. rewrite Z.mul_pow2_bits by lia. unfold v, l in *. destruct little; rewrite load_bit by (auto; lia); f_equal; lia.
Qed.
Lemma extract_sign v l s : 0 < s <= 64 -> let u := extract_unsigned v l (64 - s) in extract_signed v l (64 - s) = if u <? 2 ^ (s - 1) then u else u - 2 ^ s.
Proof.
  intros S u. unfold extract_signed, sext. set (x := (v * 2 ^ l) mod 2 ^ 64) in *. change (x / 2 ^ (64 - s)) with u in *.
  assert (X : 0 <= x < 2 ^ 64) by (apply Z.mod_pos_bound; lia). assert (P : 0 < 2 ^ (64 - s)) by lia.
  assert (E63 : 2 ^ (64 - 1) = 2 ^ (s - 1) * 2 ^ (64 - s)) by (rewrite <- Z.pow_add_r by lia; f_equal; lia). assert (E64 : 2 ^ 64 = 2 ^ s * 2 ^ (64 - s)) by (rewrite <- Z.pow_add_r by lia; f_equal; lia).
  destruct (Z.ltb_spec x (2 ^ (64 - 1))) as [H|H].
  - assert (u < 2 ^ (s - 1)) by (apply Z.div_lt_upper_bound; lia). destruct (Z.ltb_spec u (2 ^ (s - 1))); [reflexivity|lia].
  - assert (2 ^ (s - 1) <= u) by (apply Z.div_le_lower_bound; lia). destruct (Z.ltb_spec u (2 ^ (s - 1))); [lia|]. rewrite E64 at 1. replace (x - 2 ^ s * 2 ^ (64 - s)) with (x + (- 2 ^ s) * 2 ^ (64 - s)) by ring. rewrite Z.div_add by lia. reflexivity.
Qed.

Lemma calc_size h little r lf tf : r_kind r = reloFieldByteSize -> calc_field h little r lf tf =
  match Sizeof h (cf_type lf) with Err _ => Err Other | Ok ls => match Sizeof h (cf_type tf) with Err _ => Err Other | Ok ts => maybe_skip lf (fix_up r (u64 ls) (u64 ts)) end end.
Proof. intros K. unfold calc_field. rewrite K. reflexivity. Qed.
Lemma calc_lshift h little r lf tf : r_kind r = reloFieldLShiftU64 -> calc_field h little r lf tf =
  if little then match sizeBits h tf with Err e => Err e | Ok s => fix_without r 0 (u32 (64 - cf_bfoff tf - s)) end
  else match Sizeof h (cf_type tf) with Err _ => Err Other | Ok w => fix_without r 0 (u32 (u32 (64 - u32 (w * 8)) + cf_bfoff tf)) end.
Proof. intros K. unfold calc_field. rewrite K. reflexivity. Qed.
Lemma calc_rshift h little r lf tf : r_kind r = reloFieldRShiftU64 -> calc_field h little r lf tf = match sizeBits h tf with Err e => Err e | Ok s => fix_without r 0 (u32 (64 - s)) end.
Proof. intros K. unfold calc_field. rewrite K. reflexivity. Qed.

Theorem C39_extract : forall fuel h little resolve t acc id target fo fs fl fr m,
  laid_out h -> Forall (fun n => 0 <= n < 2 ^ 31) acc -> bytes_in m ->
  (forall k f, In (k, f) [(reloFieldByteOffset, fo); (reloFieldByteSize, fs); (reloFieldLShiftU64, fl); (reloFieldRShiftU64, fr)] ->
     coreCalculateFixup fuel h little resolve (mkRelo t acc k id) target = Some (Ok f) /\ f_poison f = false) ->
  exists a0 rest p lr lo lb t0 tr to tb d size, acc = a0 :: rest /\ denotes h t rest p lr lo lb /\ element_at h target a0 t0 /\ at_path h target p tr to tb /\
    has_size h tr d size /\ f_target fs = size /\
    let bits := if tb =? 0 then 8 * size else tb in
    (8 * t0 + to < 2 ^ 32 -> 0 < size <= 8 -> 8 * t0 + to + bits <= 8 * (f_target fo + size) ->
       let v := load little m (f_target fo) (Z.to_nat size) in
       is_value little m (8 * t0 + to) bits (extract_unsigned v (f_target fl) (f_target fr)) /\
       is_signed_value little m (8 * t0 + to) bits (extract_signed v (f_target fl) (f_target fr))).
Proof.
  intros fuel h little resolve t acc id target fo fs fl fr m L F B H.
  destruct (H _ _ (or_introl eq_refl)) as (Eo & Po). destruct (H _ _ (or_intror (or_introl eq_refl))) as (Es & Ps). destruct (H _ _ (or_intror (or_intror (or_introl eq_refl)))) as (El & Pl). destruct (H _ _ (or_intror (or_intror (or_intror (or_introl eq_refl))))) as (Er & Pr). clear H.
  apply field_fixup in Eo; [|now left|exact Po]. destruct Eo as (lf & tf & C & Eo). unfold calc_field in Eo. cbn in Eo. inversion Eo; subst fo. clear Eo Po.
  apply field_fixup in Es; [|right; now left|exact Ps]. destruct Es as (lf1 & tf1 & C1 & Es). rewrite C in C1. inversion C1; subst lf1 tf1. clear C1.
  apply field_fixup in El; [|right; right; now left|exact Pl]. destruct El as (lf1 & tf1 & C1 & El). rewrite C in C1. inversion C1; subst lf1 tf1. clear C1.
  apply field_fixup in Er; [|right; right; now right|exact Pr]. destruct Er as (lf1 & tf1 & C1 & Er). rewrite C in C1. inversion C1; subst lf1 tf1. clear C1.
  destruct (coreFindField_sound _ _ _ _ _ _ _ L F C) as (a0 & rest & l0 & t0 & p & lo & lb & to & tb & -> & _ & Et & D & A & _ & Qt & _ & P2 & _ & B2 & _). 
  rewrite calc_size in Es by reflexivity. rewrite calc_lshift in El by reflexivity. rewrite calc_rshift in Er by reflexivity.
  destruct (Sizeof h (cf_type lf)); [|discriminate Es]. destruct (Sizeof h (cf_type tf)) as [size|] eqn:Sz; [|discriminate Es]. unfold maybe_skip, fix_up in Es. inversion Es; subst fs. clear Es Ps.
  destruct (C37_exact _ _ _ (proj1 L) Sz) as (d & _ & Hs & Sr). assert (Tb : 0 <= tb) by (eapply at_path_bits; eassumption).
  exists a0, rest, p, (cf_type lf), lo, lb, t0, (cf_type tf), to, tb, d, size. split; [reflexivity|]. split; [exact D|]. split; [exact Et|]. split; [exact A|]. split; [exact Hs|]. cbn [f_target].
  split; [unfold u64, wrapu, maxInt64 in *; apply Z.mod_small; lia|]. set (bits := if tb =? 0 then 8 * size else tb). intros Bd Sp Cv. set (v := load little m (cf_offset tf) (Z.to_nat size)). specialize (P2 Bd). unfold pos in P2.
  assert (Sb : sizeBits h tf = Ok bits).
  { unfold sizeBits, bits. rewrite Qt, Sz. destruct (Z.eqb_spec tb 0) as [->|]; [change (0 >? 0) with false; cbv iota; rewrite u32_id by lia; f_equal; lia|]. destruct (Z.gtb_spec tb 0); [reflexivity|lia]. }
  rewrite Sb in *. unfold fix_without in *. assert (Er' : f_target fr = u32 (64 - bits)) by (injection Er as <-; reflexivity). rewrite Er'. clear Er Er'. assert (Bp : 0 < bits) by (unfold bits; destruct (Z.eqb_spec tb 0); lia).
  rewrite (u32_id (64 - bits)) by lia.
  assert (Fl : f_target fl = if little then 64 - cf_bfoff tf - bits else 64 - 8 * Z.of_nat (Z.to_nat size) + cf_bfoff tf).
  { destruct little.
    - assert (X : f_target fl = u32 (64 - cf_bfoff tf - bits)) by (injection El as <-; reflexivity). rewrite X. apply u32_id. lia.
    - assert (X : f_target fl = u32 (u32 (64 - u32 (size * 8)) + cf_bfoff tf)) by (injection El as <-; reflexivity). rewrite X. rewrite (u32_id (size * 8)) by lia. rewrite (u32_id (64 - size * 8)) by lia. rewrite u32_id by lia. lia. }
  rewrite Fl. replace (8 * t0 + to) with (8 * cf_offset tf + cf_bfoff tf) by lia.
  pose proof (extract_bits little m (cf_offset tf) (Z.to_nat size) (cf_bfoff tf) bits B ltac:(lia) B2 Bp ltac:(lia)) as V. cbv zeta in V. split; [exact V|].
  eexists. split; [exact V|]. unfold v. apply extract_sign. lia.
Qed.
(** struct s { int a:3; int b:7; }, reading b of a target which has b:5 at bit 37 of an int *)
Definition c39_heap : heap :=
  [ NInt s_int 4 1; NStruct s_s 4 [mkMember s_a (RPtr 0) 0 3 []; mkMember s_b (RPtr 0) 3 7 []] [];
    NStruct s_s 8 [mkMember s_a (RPtr 0) 0 3 []; mkMember s_b (RPtr 0) 37 5 []] [];
    NStruct s_s 8 [mkMember s_a (RPtr 0) 0 30 []; mkMember s_b (RPtr 0) 30 4 []] [] ].
Example c39_laid_out : laid_out c39_heap.
Proof.
  split; [repeat constructor; unfold in_u; cbn; lia|]. intros c ms m (n & s & tg & [H|H]) I; destruct c as [| |c]; try discriminate H; cbn [deref] in H; do 4 (try destruct c as [|c]); cbn [nth_error c39_heap] in H; try discriminate H;
  try (destruct c; discriminate H); inversion H; subst; cbn [In] in I; repeat (destruct I as [<-|I]); try contradiction; (split; [split; cbn; lia|split; [split; cbn; lia|cbn; intros [X|X]; discriminate X]]).
Qed.
Definition c39_fixups (little : bool) (target : ref) : list (option (res ferr fixup)) :=
  map (fun k => coreCalculateFixup 10 c39_heap little (fun _ => Err Other) (mkRelo (RPtr 1) [0; 1] k 0) target) [reloFieldByteOffset; reloFieldByteSize; reloFieldLShiftU64; reloFieldRShiftU64].
Example c39_little : c39_fixups true (RPtr 2) = [Some (Ok (mkFixup 0 0 4 false true)); Some (Ok (mkFixup 1 4 4 false true)); Some (Ok (mkFixup 4 0 54 false true)); Some (Ok (mkFixup 5 0 59 false true))].
Proof. reflexivity. Qed.
Example c39_big : c39_fixups false (RPtr 2) = [Some (Ok (mkFixup 0 0 4 false true)); Some (Ok (mkFixup 1 4 4 false true)); Some (Ok (mkFixup 4 0 37 false true)); Some (Ok (mkFixup 5 0 59 false true))].
Proof. reflexivity. Qed.
(** A bitfield of a packed struct may straddle the aligned storage unit: bits 30 to 33.  The load doesn't include its last
    bits, so the extracted value is wrong; no error is returned. *)
Theorem C39_straddle_refuted : exists m, bytes_in m /\
  c39_fixups true (RPtr 3) = [Some (Ok (mkFixup 0 0 0 false true)); Some (Ok (mkFixup 1 4 4 false true)); Some (Ok (mkFixup 4 0 30 false true)); Some (Ok (mkFixup 5 0 60 false true))] /\
  at_path c39_heap (RPtr 3) [PMember s_b] (RPtr 0) 30 4 /\ is_value true m 30 4 12 /\ extract_unsigned (load true m 0 4) 30 60 = 0.
Proof.
  exists (fun a => if a =? 4 then 3 else 0). split; [intros a; destruct (a =? 4); lia|]. split; [reflexivity|]. split.
  - eapply (ap_bitfield c39_heap (RPtr 3) (RPtr 3) s_b (mkMember s_b (RPtr 0) 30 4 []) 30).
    + exists O. split; [lia|]. apply res_done. intros z (n & D & K). cbn in D. inversion D; subst n. destruct K as [(? & ? & K)|[K|[K|[K|(? & K)]]]]; discriminate K.
    + change s_b with (m_name (mkMember s_b (RPtr 0) 30 4 [])). change 30 with (m_offset (mkMember s_b (RPtr 0) 30 4 [])). eapply ma_here; [exists s_s, 8, []; left; reflexivity|right; now left].
  - split; [|reflexivity]. split; [lia|]. intros i I. assert (i = 0 \/ i = 1 \/ i = 2 \/ i = 3) as [->|[->|[->| ->]]] by lia; reflexivity.
Qed.
