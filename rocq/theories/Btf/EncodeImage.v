(** What the encoder writes for one type, given the final string table and the final IDs. *)
From Coq Require Import ZArith List Lia Bool.
From Verif.Base Require Import GoInt ListExtra.
From Verif.Btf Require Import Strings StringsProof Wire WireSpec Types TypesSpec TypesProof Encode EncodeSpec EncodeProof EncodeRun.
Import ListNotations.
Open Scope Z_scope.

Definition strs_ext (a b : builder) : Prop := forall s o, m_find (b_strings a) s = Some o -> m_find (b_strings b) s = Some o.
Lemma strs_ext_refl a : strs_ext a a.
Proof. intros s o H. exact H. Qed.
Lemma strs_ext_trans a b c : strs_ext a b -> strs_ext b c -> strs_ext a c.
Proof. intros H K s o E. auto. Qed.
Lemma ids_ext_refl a : ids_ext a a.
Proof. intros s o H. exact H. Qed.
Lemma ids_ext_trans a b c : ids_ext a b -> ids_ext b c -> ids_ext a c.
Proof. intros H K s o E. auto. Qed.

(** the string table holds strings of [S] *)
Definition SI (S : list str) (b : builder) : Prop := exists strs, bok b strs /\ incl strs ([] :: S).
Lemma total_nonneg l : 0 <= total l.
Proof. unfold total. lia. Qed.
Lemma total_incl l : NoDup l -> forall m, incl l m -> total l <= total m.
Proof.
  induction 1 as [|x l Nx N IH]; intros m I; [apply total_nonneg|].
  assert (Hx : In x m) by (apply I; now left). apply in_split in Hx as (a & b & ->).
  assert (I' : incl l (a ++ b)).
  { intros y Hy. specialize (I y (or_intror Hy)). apply in_app_or in I as [I|[<-|I]]; [apply in_or_app; auto|contradiction|apply in_or_app; auto]. }
  apply IH in I'. rewrite !total_app, !total_cons in *. lia.
Qed.
Lemma m_find_app l s k v : m_find (l ++ [(k, v)]) s = match m_find l s with Some o => Some o | None => if str_eqb s k then Some v else None end.
Proof. induction l as [|[k' v'] l IH]; [reflexivity|]. cbn. destruct (str_eqb s k'); [reflexivity|exact IH]. Qed.
Lemma str_eqb_refl s : str_eqb s s = true.
Proof. apply str_eqb_eq. reflexivity. Qed.
Lemma add_string_ok b s o b' : add_string b s = Ok (o, b') -> m_find (b_strings b') s = Some o /\ strs_ext b b' /\
  forall S, In s ([] :: S) -> total ([] :: S) < 2 ^ 32 -> SI S b -> SI S b'.
Proof.
  unfold add_string. destruct (b_add b s) as [[o'|] b1] eqn:E; [|discriminate]. intros X. injection X as <- <-.
  assert (K : m_find (b_strings b1) s = Some o' /\ strs_ext b b1).
  { unfold b_add in E. destruct (index_byte s 0); [discriminate E|]. destruct (m_find (b_strings b) s) as [o2|] eqn:F.
    - injection E as E1 E2. subst o2 b1. split; [exact F|apply strs_ext_refl].
    - unfold b_append in E. injection E as <- <-. cbn [b_strings]. split; [rewrite m_find_app, F, str_eqb_refl; reflexivity|]. intros t q H. cbn [b_strings]. rewrite m_find_app, H. reflexivity. }
  split; [exact (proj1 K)|]. split; [exact (proj2 K)|]. intros S Hs T (strs & B & I). destruct (in_dec (list_eq_dec Z.eq_dec) s strs) as [Hi|Hi].
  - assert (b1 = b); [|subst; exists strs; auto]. unfold b_add in E. destruct (index_byte s 0); [discriminate E|]. destruct B as (B1 & _). rewrite B1 in E.
    destruct (m_find (entries 0 strs) s) as [o2|] eqn:F; [injection E; auto|]. apply m_find_none in F. contradiction.
  - assert (N : NoDup (strs ++ [s])).
    { destruct B as (_ & _ & _ & N & _). apply NoDup_app_intro; [exact N|repeat constructor; intros []|]. intros x Hx [<-|[]]. contradiction. }
    assert (I' : incl (strs ++ [s]) ([] :: S)) by (intros x Hx; apply in_app_or in Hx as [Hx|[<-|[]]]; auto).
    pose proof (total_incl _ N _ I') as Le. destruct (bok_add b strs s B (Z.le_lt_trans _ _ _ Le T)) as (strs' & B' & (x & Ex) & _ & _). rewrite E in B'. cbn [snd] in B'.
    exists strs'. split; [exact B'|]. assert (Bs : strs' = strs ++ [s]).
    { unfold b_add in E. destruct (index_byte s 0); [discriminate E|]. destruct B as (B1 & _). rewrite B1 in E. destruct (m_find (entries 0 strs) s) as [o2|] eqn:F.
      - exfalso. apply m_find_entries, entries_in in F as (a & c & Ea & _). apply Hi. rewrite Ea. apply in_or_app. right. now left.
      - unfold b_append in E. injection E as _ <-. destruct B' as (B1' & _). cbn [b_strings] in B1'. rewrite B1 in B1'.
        assert (Len : forall l o, map fst (entries o l) = l) by (clear; induction l as [|y l IH]; intros o; [reflexivity|]; cbn; now rewrite IH).
        apply (f_equal (map fst)) in B1'. rewrite map_app, !Len in B1'. symmetry. exact B1'. }
    rewrite Bs. exact I'.
Qed.
Lemma add_string_total b s : ~ In 0 s -> exists o b', add_string b s = Ok (o, b').
Proof.
  intros H. unfold add_string, b_add. apply index_byte_none in H. rewrite H. destruct (m_find (b_strings b) s); [eauto|]. unfold b_append. eauto.
Qed.

Definition off (b : builder) (s : str) : Z := match m_find (b_strings b) s with Some o => o | None => 0 end.
Definition idz (ids : list (ref * Z)) (r : ref) : Z := match r with RVoid => 0 | _ => match id_of ids r with Some i => i | None => 0 end end.
Lemma off_ext a b s o : m_find (b_strings a) s = Some o -> strs_ext a b -> off b s = o.
Proof. intros H K. unfold off. now rewrite (K _ _ H). Qed.
Lemma idz_ext e ids r i : e_id e r = Ok i -> ids_ext (e_ids e) ids -> idz ids r = i.
Proof. unfold e_id, idz. intros H K. destruct r; [| congruence|]; (destruct (id_of (e_ids e) _) as [j|] eqn:F; [|discriminate H]; rewrite (K _ _ F); congruence). Qed.

(** ** The image of a type *)
Section Image.
  Variable o : mopts.
  Variable nm : str -> Z.
  Variable idf : ref -> Z.
  Variable ph : Z.
  Fixpoint im_members (flag : bool) (ms : list (str * Z * Z * Z)) : list Z :=
    match ms with
    | [] => []
    | (name, ty, off, bits) :: ms' =>
        let flag := flag || (bits >? 0) in
        nm name :: ty :: u32 (if flag then Z.lor (u32 (Z.shiftl bits 24)) (Z.land off 16777215) else off) :: im_members flag ms'
    end.
  Definition im_flag (ms : list (str * Z * Z * Z)) : bool := existsb (fun m => snd m >? 0) ms.
  Definition im_composite (raw : btfType) (k size : Z) (ms : list (str * Z * Z * Z)) : wrec :=
    mkRec (setKindFlagBool (SetVlen (SetSizeType (SetKind raw k) size) (Z.of_nat (length ms))) (im_flag ms)) (im_members false ms).
  Definition mem4 (m : member) : str * Z * Z * Z := (m_name m, idf (m_type m), m_offset m, m_bits m).
  Definition im_enum (vs : list enumvalue) : list Z := concat (map (fun v => [nm (ev_name v); u32 (ev_value v)]) vs).
  Definition im_enum64 (vs : list enumvalue) : list Z := concat (map (fun v => [nm (ev_name v); u32 (ev_value v); u32 (Z.shiftr (ev_value v) 32)]) vs).
  Definition im_params (ps : list fparam) : list Z := concat (map (fun p => [nm (p_name p); idf (p_type p)]) ps).
  Definition im_vars (vs : list secinfo) : list Z := concat (map (fun v => [idf (vs_type v); vs_offset v; vs_size v]) vs).
  Definition im_ref (raw : btfType) (k : Z) (t : ref) : wrec := mkRec (SetSizeType (SetKind raw k) (idf t)) [].
  Definition im_tag (t : ref) (value : str) (index : Z) : wrec :=
    if ReplaceDeclTags o then deflateInt (mkBtfType (nm decl_tag_name) 0 0) 1 0
    else mkRec (SetNameOff (SetSizeType (SetKind (mkBtfType (nm []) 0 0) kindDeclTag) (idf t)) (nm value)) [u32 index].
  Definition image (n : node) : wrec :=
    let raw := mkBtfType (nm (type_name n)) 0 0 in
    match n with
    | NInt _ size encoding => deflateInt raw size encoding
    | NPtr t => im_ref raw kindPointer t
    | NArray ix t k => mkRec (SetKind raw kindArray) [idf t; idf ix; k]
    | NStruct _ size ms _ => im_composite raw kindStruct size (map mem4 ms)
    | NUnion _ size ms _ => im_composite raw kindUnion size (map mem4 ms)
    | NEnum _ size signed vs =>
        if size =? 8 then
          if ReplaceEnum64 o then im_composite raw kindUnion size (map (fun v => (ev_name v, ph, 0, 0)) vs)
          else mkRec (setKindFlagBool (SetVlen (SetSizeType (SetKind raw kindEnum64) size) (Z.of_nat (length vs))) signed) (im_enum64 vs)
        else mkRec (setKindFlagBool (SetVlen (SetSizeType (SetKind raw kindEnum) size) (Z.of_nat (length vs))) (signed && negb (ReplaceEnum64 o))) (im_enum vs)
    | NFwd _ k => mkRec (SetFwdKind (SetKind raw kindForward) k) []
    | NTypedef _ t _ => im_ref raw kindTypedef t
    | NVolatile t => im_ref raw kindVolatile t
    | NConst t => im_ref raw kindConst t
    | NRestrict t => im_ref raw kindRestrict t
    | NFunc _ t linkage _ _ => let r := im_ref raw kindFunc t in if StripFuncLinkage o then r else mkRec (SetLinkage (hdr r) linkage) []
    | NFuncProto ret ps => mkRec (SetVlen (SetSizeType (SetKind raw kindFuncProto) (idf ret)) (Z.of_nat (length ps))) (im_params ps)
    | NVar _ t linkage _ => mkRec (hdr (im_ref raw kindVar t)) [u32 linkage]
    | NDatasec _ size vars => mkRec (SetVlen (SetSizeType (SetKind raw kindDatasec) size) (Z.of_nat (length vars))) (im_vars vars)
    | NFloat _ size => mkRec (SetSizeType (SetKind raw kindFloat) size) []
    | NDeclTag t value index => im_tag t value index
    | NTypeTag t value => if ReplaceTypeTags o then im_ref raw kindConst t else mkRec (SetNameOff (hdr (im_ref raw kindTypeTag t)) (nm value)) []
    | NCycle _ => mkRec raw []
    end.
End Image.

(** the strings written for a type *)
Definition names_of (n : node) : list str :=
  type_name n ::
  match n with
  | NStruct _ _ ms _ | NUnion _ _ ms _ => map m_name ms
  | NEnum _ _ _ vs => map ev_name vs
  | NFuncProto _ ps => map p_name ps
  | NTypeTag _ v => [v]
  | NDeclTag _ v _ => [v]
  | _ => []
  end.
Definition placeholders (o : mopts) : list str := (if ReplaceDeclTags o then [decl_tag_name] else []) ++ (if ReplaceEnum64 o then [enum64_name] else []).

Lemma im_flag_acc b ms : forall fl flag b' ws, deflateMembers b fl ms = Ok (flag, b', ws) -> flag = fl || existsb (fun m => snd m >? 0) ms.
Proof.
  revert b. induction ms as [|[[[name ty] of] bits] ms IH]; intros b fl flag b' ws E; cbn [deflateMembers] in E.
  - injection E as <- _ _. now rewrite orb_false_r.
  - unfold bind in E. destruct (add_string b name) as [[no b1]|]; [|discriminate E]. destruct ty as [ty|]; [|discriminate E].
    destruct (deflateMembers b1 (fl || (bits >? 0)) ms) as [[[f1 b2] ws1]|] eqn:E1; [|discriminate E]. injection E as <- _ _. apply IH in E1. rewrite E1. cbn [existsb snd]. now rewrite orb_assoc.
Qed.
(** members: the IDs are all known, the words are the image *)
Lemma members_ok ms : forall b fl flag b' ws, deflateMembers b fl ms = Ok (flag, b', ws) ->
  strs_ext b b' /\ (forall S, incl (map (fun m => fst (fst (fst m))) ms) ([] :: S) -> total ([] :: S) < 2 ^ 32 -> SI S b -> SI S b') /\
  exists ms4, Forall2 (fun m m4 => fst (fst (fst m)) = fst (fst (fst m4)) /\ snd (fst (fst m)) = Ok (snd (fst (fst m4))) /\ snd (fst m) = snd (fst m4) /\ snd m = snd m4) ms ms4 /\
    forall bF, strs_ext b' bF -> ws = im_members (off bF) fl ms4.
Proof.
  induction ms as [|[[[name ty] of] bits] ms IH]; intros b fl flag b' ws E; cbn [deflateMembers] in E.
  - injection E as <- <- <-. split; [apply strs_ext_refl|]. split; [auto|]. exists []. split; [constructor|reflexivity].
  - unfold bind in E. destruct (add_string b name) as [[no b1]|] eqn:Ea; [|discriminate E]. destruct ty as [ty|]; [|discriminate E].
    destruct (deflateMembers b1 (fl || (bits >? 0)) ms) as [[[f1 b2] ws1]|] eqn:E1; [|discriminate E]. injection E as <- <- <-.
    destruct (add_string_ok _ _ _ _ Ea) as (M & X & SS). destruct (IH _ _ _ _ _ E1) as (X1 & SS1 & ms4 & F & W).
    split; [eapply strs_ext_trans; eassumption|]. split; [intros S I T H; apply SS1; [intros s Hs; apply I; now right|exact T|]; apply SS; [apply I; now left|exact T|exact H]|].
    exists ((name, ty, of, bits) :: ms4). split; [constructor; [repeat split|exact F]|]. intros bF XF. cbn [im_members]. rewrite (off_ext _ _ _ _ M (strs_ext_trans _ _ _ X1 XF)). f_equal. f_equal. f_equal. apply W. exact XF.
Qed.
Lemma enum_values_ok sg vs : forall b b' ws, deflateEnumValues b sg vs = Ok (b', ws) ->
  strs_ext b b' /\ (forall S, incl (map ev_name vs) ([] :: S) -> total ([] :: S) < 2 ^ 32 -> SI S b -> SI S b') /\ (forall bF, strs_ext b' bF -> ws = im_enum (off bF) vs) /\
  Forall (fun v => (if sg then (i64 (ev_value v) <? -2147483648) || (i64 (ev_value v) >? 2147483647) else ev_value v >? 4294967295) = false) vs.
Proof.
  induction vs as [|v vs IH]; intros b b' ws E; cbn [deflateEnumValues] in E.
  - injection E as <- <-. split; [apply strs_ext_refl|]. split; [auto|]. split; [reflexivity|constructor].
  - unfold bind in E. destruct (add_string b (ev_name v)) as [[no b1]|] eqn:Ea; [|discriminate E]. destruct (if sg then _ else _) eqn:R; [discriminate E|].
    destruct (deflateEnumValues b1 sg vs) as [[b2 ws1]|] eqn:E1; [|discriminate E]. injection E as <- <-.
    destruct (add_string_ok _ _ _ _ Ea) as (M & X & SS). destruct (IH _ _ _ E1) as (X1 & SS1 & W & Rg).
    split; [eapply strs_ext_trans; eassumption|]. split; [intros S I T H; apply SS1; [intros s Hs; apply I; now right|exact T|]; apply SS; [apply I; now left|exact T|exact H]|].
    split; [|constructor; [exact R|exact Rg]]. intros bF XF. unfold im_enum. cbn [map concat app]. rewrite (off_ext _ _ _ _ M (strs_ext_trans _ _ _ X1 XF)). f_equal. f_equal. now apply W.
Qed.
Lemma enum64_values_ok vs : forall b b' ws, deflateEnum64Values b vs = Ok (b', ws) ->
  strs_ext b b' /\ (forall S, incl (map ev_name vs) ([] :: S) -> total ([] :: S) < 2 ^ 32 -> SI S b -> SI S b') /\ (forall bF, strs_ext b' bF -> ws = im_enum64 (off bF) vs).
Proof.
  induction vs as [|v vs IH]; intros b b' ws E; cbn [deflateEnum64Values] in E.
  - injection E as <- <-. split; [apply strs_ext_refl|]. split; [auto|]. reflexivity.
  - unfold bind in E. destruct (add_string b (ev_name v)) as [[no b1]|] eqn:Ea; [|discriminate E].
    destruct (deflateEnum64Values b1 vs) as [[b2 ws1]|] eqn:E1; [|discriminate E]. injection E as <- <-.
    destruct (add_string_ok _ _ _ _ Ea) as (M & X & SS). destruct (IH _ _ _ E1) as (X1 & SS1 & W).
    split; [eapply strs_ext_trans; eassumption|]. split; [intros S I T H; apply SS1; [intros s Hs; apply I; now right|exact T|]; apply SS; [apply I; now left|exact T|exact H]|].
    intros bF XF. unfold im_enum64. cbn [map concat app]. rewrite (off_ext _ _ _ _ M (strs_ext_trans _ _ _ X1 XF)). f_equal. f_equal. f_equal. now apply W.
Qed.
Lemma params_ok e ps : forall b b' ws, deflateFuncParams e b ps = Ok (b', ws) ->
  strs_ext b b' /\ (forall S, incl (map p_name ps) ([] :: S) -> total ([] :: S) < 2 ^ 32 -> SI S b -> SI S b') /\
  (forall bF idsF, strs_ext b' bF -> ids_ext (e_ids e) idsF -> ws = im_params (off bF) (idz idsF) ps).
Proof.
  induction ps as [|v ps IH]; intros b b' ws E; cbn [deflateFuncParams] in E.
  - injection E as <- <-. split; [apply strs_ext_refl|]. split; [auto|]. reflexivity.
  - unfold bind in E. destruct (add_string b (p_name v)) as [[no b1]|] eqn:Ea; [|discriminate E]. destruct (e_id e (p_type v)) as [i|] eqn:Ei; [|discriminate E].
    destruct (deflateFuncParams e b1 ps) as [[b2 ws1]|] eqn:E1; [|discriminate E]. injection E as <- <-.
    destruct (add_string_ok _ _ _ _ Ea) as (M & X & SS). destruct (IH _ _ _ E1) as (X1 & SS1 & W).
    split; [eapply strs_ext_trans; eassumption|]. split; [intros S I T H; apply SS1; [intros s Hs; apply I; now right|exact T|]; apply SS; [apply I; now left|exact T|exact H]|].
    intros bF idsF XF XI. unfold im_params. cbn [map concat app]. rewrite (off_ext _ _ _ _ M (strs_ext_trans _ _ _ X1 XF)), (idz_ext _ _ _ _ Ei XI). f_equal. f_equal. now apply W.
Qed.
Lemma vars_ok e vs : forall ws, deflateVarSecinfos e vs = Ok ws -> forall idsF, ids_ext (e_ids e) idsF -> ws = im_vars (idz idsF) vs.
Proof.
  induction vs as [|v vs IH]; intros ws E idsF XI; cbn [deflateVarSecinfos] in E.
  - injection E as <-. reflexivity.
  - unfold bind in E. destruct (e_id e (vs_type v)) as [i|] eqn:Ei; [|discriminate E]. destruct (deflateVarSecinfos e vs) as [ws1|] eqn:E1; [|discriminate E]. injection E as <-.
    unfold im_vars. cbn [map concat app]. rewrite (idz_ext _ _ _ _ Ei XI). f_equal. f_equal. f_equal. now apply IH.
Qed.

(** the integer which a 64 bit enum adds *)
Definition new_int (o : mopts) (n : node) : list pitem :=
  match n with
  | NEnum _ size sgn _ => if (size =? 8) && ReplaceEnum64 o then [PInt enum64_name size (if sgn then 1 else 0)] else []
  | _ => []
  end.
(** one type: [e] before, [e'] after *)
Record wrote (ni : list pitem) (e e' : enc) (names : list str) (r : wrec) (im : (str -> Z) -> (ref -> Z) -> Z -> wrec) : Prop := {
  w_ids : e_ids e' = e_ids e;
  w_vis : e_visited e' = e_visited e;
  w_pend : e_pending e' = e_pending e ++ ni;
  w_last : (ni = [] /\ e_lastID e' = e_lastID e) \/
           ((exists s z en, ni = [PInt s z en]) /\ e_lastID e' = u32 (e_lastID e + 1) /\ ~ u32 (e_lastID e + 1) < e_lastID e);
  w_sext : strs_ext (e_strings e) (e_strings e');
  w_SI : forall S, incl names ([] :: S) -> total ([] :: S) < 2 ^ 32 -> SI S (e_strings e) -> SI S (e_strings e');
  w_rec : forall bF idsF, strs_ext (e_strings e') bF -> ids_ext (e_ids e) idsF -> r = im (off bF) (idz idsF) (e_lastID e') }.

Lemma ref_ok e raw k t r : deflateRef e raw k t = Ok r -> forall idsF, ids_ext (e_ids e) idsF -> r = im_ref (idz idsF) raw k t.
Proof. unfold deflateRef, bind. intros E idsF XI. destruct (e_id e t) as [i|] eqn:Ei; [|discriminate E]. injection E as <-. unfold im_ref. now rewrite (idz_ext _ _ _ _ Ei XI). Qed.
Lemma composite_ok (o : mopts) e raw k size ms e' r : deflateComposite e raw k size ms = Ok (e', r) ->
  e_ids e' = e_ids e /\ e_visited e' = e_visited e /\ e_pending e' = e_pending e /\ e_lastID e' = e_lastID e /\ strs_ext (e_strings e) (e_strings e') /\
  (forall S, incl (map (fun m => fst (fst (fst m))) ms) ([] :: S) -> total ([] :: S) < 2 ^ 32 -> SI S (e_strings e) -> SI S (e_strings e')) /\
  exists ms4, Forall2 (fun m m4 => fst (fst (fst m)) = fst (fst (fst m4)) /\ snd (fst (fst m)) = Ok (snd (fst (fst m4))) /\ snd (fst m) = snd (fst m4) /\ snd m = snd m4) ms ms4 /\
    forall bF, strs_ext (e_strings e') bF -> r = im_composite (off bF) raw k size ms4.
Proof.
  clear o. unfold deflateComposite, bind. intros E. destruct (deflateMembers (e_strings e) false ms) as [[[fl b] ws]|] eqn:Em; [|discriminate E]. injection E as <- <-.
  destruct (members_ok _ _ _ _ _ _ Em) as (X & SS & ms4 & F & W). apply im_flag_acc in Em. cbn [with_strings e_ids e_visited e_pending e_lastID e_strings].
  repeat (split; [first [reflexivity|assumption]|]). exists ms4. split; [exact F|]. intros bF XF. unfold im_composite. rewrite <- (W bF XF).
  assert (El : length ms4 = length ms) by (clear -F; induction F; cbn; auto). assert (Ef : im_flag ms4 = fl); [|now rewrite El, Ef].
  rewrite Em. cbn [orb]. unfold im_flag. clear -F. induction F as [|m m4 ms ms4 (_ & _ & _ & H) F IH]; [reflexivity|]. cbn [existsb]. now rewrite H, IH.
Qed.
Lemma members_of_ok e ms ms4 idsF : ids_ext (e_ids e) idsF ->
  Forall2 (fun m m4 => fst (fst (fst m)) = fst (fst (fst m4)) /\ snd (fst (fst m)) = Ok (snd (fst (fst m4))) /\ snd (fst m) = snd (fst m4) /\ snd m = snd m4) (members_of e ms) ms4 ->
  ms4 = map (mem4 (idz idsF)) ms.
Proof.
  intros XI. unfold members_of. revert ms4. induction ms as [|m ms IH]; intros ms4 F; inversion F as [|? [[[a b] c] d] ? l (E1 & E2 & E3 & E4) F']; subst; [reflexivity|].
  cbn [fst snd] in *. cbn [map]. rewrite (IH _ F'). f_equal. unfold mem4. rewrite (idz_ext _ _ _ _ E2 XI). congruence.
Qed.

Ltac nochange := constructor; [reflexivity|reflexivity|symmetry; apply app_nil_r|left; split; reflexivity|..].
Lemma deflateNode_ok o e n e' r : user_type n -> deflateNode o e n = Ok (e', r) -> wrote (new_int o n) e e' (names_of n) r (fun nm idf ph => image o nm idf ph n).
Proof.
  intros Ut E. unfold deflateNode, bind in E. destruct (add_string (e_strings e) (type_name n)) as [[no b]|] eqn:Ea; [|discriminate E].
  destruct (add_string_ok _ _ _ _ Ea) as (M & X & SS).
  assert (M' : forall bF, strs_ext b bF -> off bF (type_name n) = no) by (intros bF XF; eapply off_ext; eassumption).
  assert (SS1 : forall S, incl (names_of n) ([] :: S) -> total ([] :: S) < 2 ^ 32 -> SI S (e_strings e) -> SI S b) by (intros S I T H; apply SS; [apply I; now left|exact T|exact H]).
  assert (Tl : forall S, incl (names_of n) ([] :: S) -> incl (tl (names_of n)) ([] :: S)) by (intros S I s Hs; apply I; right; exact Hs).
  set (e1 := with_strings e b) in *.
  assert (Ref : forall k t r', deflateRef e1 (mkBtfType no 0 0) k t = Ok r' -> forall bF idsF, strs_ext b bF -> ids_ext (e_ids e) idsF -> r' = im_ref (idz idsF) (mkBtfType (off bF (type_name n)) 0 0) k t).
  { intros k t r' H bF idsF XF XI. rewrite (M' bF XF). eapply ref_ok; [exact H|exact XI]. }
  assert (Comp : forall k size ms, new_int o n = [] -> names_of n = type_name n :: map m_name ms -> (forall nm idf ph, image o nm idf ph n = im_composite nm (mkBtfType (nm (type_name n)) 0 0) k size (map (mem4 idf) ms)) ->
    deflateComposite e1 (mkBtfType no 0 0) k size (members_of e1 ms) = Ok (e', r) -> wrote (new_int o n) e e' (names_of n) r (fun nm idf ph => image o nm idf ph n)).
  { intros k size ms Eni En Im H. rewrite Eni. destruct (composite_ok o _ _ _ _ _ _ _ H) as (I1 & I2 & I3 & I4 & I5 & I6 & ms4 & F & W). constructor.
    - rewrite I1. reflexivity.
    - rewrite I2. reflexivity.
    - rewrite I3. symmetry. apply app_nil_r.
    - left. rewrite I4. split; reflexivity.
    - eapply strs_ext_trans; [exact X|exact I5].
    - intros S I T Hs. apply I6; [|exact T|now apply SS1]. specialize (Tl S I). rewrite En in Tl. cbn [tl] in Tl. intros s Hi. apply Tl. unfold members_of in Hi. rewrite map_map in Hi. exact Hi.
    - intros bF idsF XF XI. rewrite Im, (W bF XF), (M' bF (strs_ext_trans _ _ _ I5 XF)). f_equal. eapply members_of_ok; [|exact F]. exact XI. }
  destruct n; cbn [type_name] in *.
  - injection E as <- <-. nochange; [exact X|exact SS1|]. intros bF idsF XF XI. cbn [image type_name]. now rewrite (M' bF XF).
  - destruct (deflateRef _ _ _ _) as [r'|] eqn:Er; [|discriminate E]. injection E as <- <-. nochange; [exact X|exact SS1|]. intros bF idsF XF XI. cbn [image type_name]. eapply Ref; eassumption.
  - destruct (e_id e1 elem) as [ti|] eqn:E1; [|discriminate E]. destruct (e_id e1 index) as [ii|] eqn:E2; [|discriminate E]. injection E as <- <-. nochange; [exact X|exact SS1|].
    intros bF idsF XF XI. cbn [image type_name]. rewrite (M' bF XF), (idz_ext _ _ _ _ E1 XI), (idz_ext _ _ _ _ E2 XI). reflexivity.
  - eapply Comp; [reflexivity|reflexivity|reflexivity|exact E].
  - eapply Comp; [reflexivity|reflexivity|reflexivity|exact E].
  - destruct (Z.eqb_spec size 8) as [->|N8].
    + unfold deflateEnum64, bind in E. destruct (ReplaceEnum64 o) eqn:Ro.
      * destruct (allocate_int e1 enum64_name 8 (if sgn then 1 else 0)) as [[e2 i]|] eqn:Ei; [|discriminate E]. unfold allocate_int in Ei. destruct (Z.ltb_spec (u32 (e_lastID e1 + 1)) (e_lastID e1)) as [|Nl]; [discriminate Ei|]. injection Ei as <- <-.
        destruct (composite_ok o _ _ _ _ _ _ _ E) as (I1 & I2 & I3 & I4 & I5 & I6 & ms4 & F & W). cbn [e_ids e_visited e_pending e_lastID e_strings] in *. constructor.
        -- rewrite I1. reflexivity.
        -- rewrite I2. reflexivity.
        -- rewrite I3. cbn [new_int]. rewrite Z.eqb_refl, Ro. reflexivity.
        -- right. cbn [new_int]. rewrite Z.eqb_refl, Ro. cbn [andb]. split; [eauto|]. rewrite I4. split; [reflexivity|]. cbn [e1 with_strings e_lastID] in Nl. lia.
        -- eapply strs_ext_trans; [exact X|exact I5].
        -- intros S I T Hs. apply I6; [|exact T|now apply SS1]. specialize (Tl S I). cbn [names_of tl] in Tl. intros s Hi. apply Tl. rewrite map_map in Hi. exact Hi.
        -- intros bF idsF XF XI. cbn [image type_name]. rewrite Z.eqb_refl, Ro, (W bF XF), (M' bF (strs_ext_trans _ _ _ I5 XF)), I4. f_equal. clear -F.
           revert ms4 F. induction vals as [|v vs IH]; intros ms4 F; inversion F as [|? [[[a b] c] d] ? l (Q1 & Q2 & Q3 & Q4) F']; subst; [reflexivity|]. cbn [fst snd] in *. cbn [map]. rewrite <- (IH _ F'). injection Q2 as Q2. congruence.
      * destruct (deflateEnum64Values (e_strings e1) vals) as [[b2 ws]|] eqn:Ev; [|discriminate E]. injection E as <- <-. destruct (enum64_values_ok _ _ _ _ Ev) as (X2 & SS2 & W). cbn [new_int]; rewrite Z.eqb_refl, Ro; cbn [andb]. nochange.
        -- eapply strs_ext_trans; [exact X|exact X2].
        -- intros S I T Hs. apply SS2; [exact (Tl S I)|exact T|now apply SS1].
        -- intros bF idsF XF XI. cbn [image type_name]. rewrite Z.eqb_refl, Ro, (M' bF (strs_ext_trans _ _ _ X2 XF)), <- (W bF XF). reflexivity.
    + destruct (deflateEnumValues (e_strings e1) sgn vals) as [[b2 ws]|] eqn:Ev; [|discriminate E]. injection E as <- <-. destruct (enum_values_ok _ _ _ _ _ Ev) as (X2 & SS2 & W & _). cbn [new_int]; destruct (Z.eqb_spec size 8); [contradiction|]; cbn [andb]. nochange.
      * eapply strs_ext_trans; [exact X|exact X2].
      * intros S I T Hs. apply SS2; [exact (Tl S I)|exact T|now apply SS1].
      * intros bF idsF XF XI. cbn [image type_name]. destruct (Z.eqb_spec size 8); [contradiction|]. rewrite (M' bF (strs_ext_trans _ _ _ X2 XF)), <- (W bF XF). reflexivity.
  - injection E as <- <-. nochange; [exact X|exact SS1|]. intros bF idsF XF XI. cbn [image type_name]. now rewrite (M' bF XF).
  - destruct (deflateRef _ _ _ _) as [r'|] eqn:Er; [|discriminate E]. injection E as <- <-. nochange; [exact X|exact SS1|]. intros bF idsF XF XI. cbn [image type_name]. eapply Ref; eassumption.
  - destruct (deflateRef _ _ _ _) as [r'|] eqn:Er; [|discriminate E]. injection E as <- <-. nochange; [exact X|exact SS1|]. intros bF idsF XF XI. cbn [image type_name]. eapply Ref; eassumption.
  - destruct (deflateRef _ _ _ _) as [r'|] eqn:Er; [|discriminate E]. injection E as <- <-. nochange; [exact X|exact SS1|]. intros bF idsF XF XI. cbn [image type_name]. eapply Ref; eassumption.
  - destruct (deflateRef _ _ _ _) as [r'|] eqn:Er; [|discriminate E]. injection E as <- <-. nochange; [exact X|exact SS1|]. intros bF idsF XF XI. cbn [image type_name]. eapply Ref; eassumption.
  - destruct (deflateRef _ _ _ _) as [r'|] eqn:Er; [|discriminate E]. injection E as <- <-. nochange; [exact X|exact SS1|]. intros bF idsF XF XI. cbn [image type_name]. rewrite (Ref _ _ _ Er bF idsF XF XI). reflexivity.
  - destruct (e_id e1 ret) as [i|] eqn:E1; [|discriminate E]. destruct (deflateFuncParams e1 (e_strings e1) params) as [[b2 ws]|] eqn:Ev; [|discriminate E]. injection E as <- <-. destruct (params_ok _ _ _ _ _ Ev) as (X2 & SS2 & W). nochange.
    + eapply strs_ext_trans; [exact X|exact X2].
    + intros S I T Hs. apply SS2; [exact (Tl S I)|exact T|now apply SS1].
    + intros bF idsF XF XI. cbn [image type_name]. rewrite (M' bF (strs_ext_trans _ _ _ X2 XF)), <- (W bF idsF XF XI), (idz_ext _ _ _ _ E1 XI). reflexivity.
  - destruct (deflateRef _ _ _ _) as [r'|] eqn:Er; [|discriminate E]. injection E as <- <-. nochange; [exact X|exact SS1|]. intros bF idsF XF XI. cbn [image type_name]. rewrite (Ref _ _ _ Er bF idsF XF XI). reflexivity.
  - destruct (deflateVarSecinfos e1 vars) as [ws|] eqn:Ev; [|discriminate E]. injection E as <- <-. nochange; [exact X|exact SS1|]. intros bF idsF XF XI. cbn [image type_name]. rewrite (M' bF XF), <- (vars_ok _ _ _ Ev idsF XI). reflexivity.
  - injection E as <- <-. nochange; [exact X|exact SS1|]. intros bF idsF XF XI. cbn [image type_name]. now rewrite (M' bF XF).
  - destruct Ut.
  - destruct (ReplaceTypeTags o) eqn:Ro.
    + destruct (deflateRef _ _ _ _) as [r'|] eqn:Er; [|discriminate E]. injection E as <- <-. nochange; [exact X|exact SS1|]. intros bF idsF XF XI. cbn [image type_name]. rewrite Ro. eapply Ref; eassumption.
    + destruct (deflateRef _ _ _ _) as [r'|] eqn:Er; [|discriminate E]. destruct (add_string (e_strings e1) value) as [[vo b2]|] eqn:Ev; [|discriminate E]. injection E as <- <-. destruct (add_string_ok _ _ _ _ Ev) as (M2 & X2 & SS2). nochange.
      * eapply strs_ext_trans; [exact X|exact X2].
      * intros S I T Hs. apply SS2; [apply I; right; now left|exact T|now apply SS1].
      * intros bF idsF XF XI. cbn [image type_name]. rewrite Ro, (Ref _ _ _ Er bF idsF (strs_ext_trans _ _ _ X2 XF) XI), (off_ext _ _ _ _ M2 XF). reflexivity.
  - destruct Ut.
Qed.

(** everything the queue can hold *)
Definition item_names (h : heap) (o : mopts) (p : pitem) : list str :=
  match p with
  | PType r => match deref h r with Some n => names_of n | None => [] end
  | PTag _ v _ => [v]
  | PInt s _ _ => [s]
  | PDummy => []
  end ++ placeholders o.
Definition item_image (h : heap) (o : mopts) (nm : str -> Z) (idf : ref -> Z) (ph : Z) (p : pitem) : wrec :=
  match p with
  | PType r => match deref h r with Some n => image o nm idf ph n | None => mkRec (mkBtfType 0 0 0) [] end
  | PTag t v i => im_tag o nm idf t v i
  | PInt s z e => image o nm idf ph (NInt s z e)
  | PDummy => image o nm idf ph (NInt [] 0 0)
  end.
Definition item_ints (h : heap) (o : mopts) (p : pitem) : list pitem :=
  match p with PType r => match deref h r with Some n => new_int o n | None => [] end | _ => [] end.
Lemma wrote_weaken ni e e' ns ns' r im : incl ns ns' -> wrote ni e e' ns r im -> wrote ni e e' ns' r im.
Proof. intros I [W1 W2 W3 W3' W4 W5 W6]. constructor; auto. intros S J. apply W5. intros s Hs. auto. Qed.
Lemma deflateType_ok o h e p e' r : (forall t n, p = PType t -> deref h t = Some n -> user_type n) -> p <> PDummy -> deflateType o h e p = Ok (e', r) ->
  wrote (item_ints h o p) e e' (item_names h o p) r (fun nm idf ph => item_image h o nm idf ph p).
Proof.
  intros U Np E. destruct p as [t|t v i|s z en|]; cbn [deflateType item_image item_names item_ints] in *.
  - destruct (deref h t) as [n|] eqn:D; [|discriminate E]. eapply wrote_weaken with (ns := names_of n); [|eapply deflateNode_ok; [eapply U; eauto|exact E]]. unfold item_names; rewrite D; apply incl_appl, incl_refl.
  - unfold bind in E. destruct (add_string (e_strings e) []) as [[no b]|] eqn:Ea; [|discriminate E]. destruct (add_string_ok _ _ _ _ Ea) as (M & X & SS). unfold deflateDeclTag, bind in E. destruct (ReplaceDeclTags o) eqn:Ro.
    + destruct (add_string (e_strings (with_strings e b)) decl_tag_name) as [[n2 b2]|] eqn:E2; [|discriminate E]. destruct (add_string_ok _ _ _ _ E2) as (M2 & X2 & SS2). injection E as <- <-. nochange.
      * eapply strs_ext_trans; [exact X|exact X2].
      * intros S I T Hs. apply SS2; [apply I; unfold item_names, placeholders; rewrite Ro; apply in_or_app; right; now left|exact T|]. apply SS; [now left|exact T|exact Hs].
      * intros bF idsF XF XI. unfold im_tag. rewrite Ro, (off_ext _ _ _ _ M2 XF). reflexivity.
    + destruct (e_id _ t) as [ti|] eqn:Et; [|discriminate E]. destruct (add_string (e_strings (with_strings e b)) v) as [[n2 b2]|] eqn:E2; [|discriminate E]. destruct (add_string_ok _ _ _ _ E2) as (M2 & X2 & SS2). injection E as <- <-. nochange.
      * eapply strs_ext_trans; [exact X|exact X2].
      * intros S I T Hs. apply SS2; [apply I; now left|exact T|]. apply SS; [now left|exact T|exact Hs].
      * intros bF idsF XF XI. unfold im_tag. rewrite Ro, (off_ext _ _ _ _ M2 XF), (idz_ext _ _ _ _ Et XI), (off_ext _ _ _ _ M (strs_ext_trans _ _ _ X2 XF)). reflexivity.
  - eapply wrote_weaken; [|exact (deflateNode_ok o e (NInt s z en) e' r I E)]. intros x [<-|[]]. now left.
  - contradiction.
Qed.

(** every string of a type is in the string table once the type has been written *)
Definition stored (b : builder) (s : str) : Prop := exists o, m_find (b_strings b) s = Some o.
Lemma stored_ext b b' s : strs_ext b b' -> stored b s -> stored b' s.
Proof. intros X (o & H). exists o. auto. Qed.
Lemma add_stored b s o b' : add_string b s = Ok (o, b') -> stored b' s /\ strs_ext b b'.
Proof. intros E. destruct (add_string_ok _ _ _ _ E) as (M & X & _). split; [now exists o|exact X]. Qed.
Lemma members_stored ms : forall b fl flag b' ws, deflateMembers b fl ms = Ok (flag, b', ws) -> Forall (fun m => stored b' (fst (fst (fst m)))) ms.
Proof.
  induction ms as [|[[[name ty] of] bits] ms IH]; intros b fl flag b' ws E; cbn [deflateMembers] in E; [constructor|].
  unfold bind in E. destruct (add_string b name) as [[no b1]|] eqn:Ea; [|discriminate E]. destruct ty as [ty|]; [|discriminate E].
  destruct (deflateMembers b1 (fl || (bits >? 0)) ms) as [[[f1 b2] ws1]|] eqn:E1; [|discriminate E]. injection E as <- <- <-.
  constructor; [|eapply IH; exact E1]. destruct (members_ok _ _ _ _ _ _ E1) as (X & _). eapply stored_ext; [exact X|]. now apply (add_stored _ _ _ _ Ea).
Qed.
Lemma enum_stored sg vs : forall b b' ws, deflateEnumValues b sg vs = Ok (b', ws) -> Forall (fun v => stored b' (ev_name v)) vs.
Proof.
  induction vs as [|v vs IH]; intros b b' ws E; cbn [deflateEnumValues] in E; [constructor|].
  unfold bind in E. destruct (add_string b (ev_name v)) as [[no b1]|] eqn:Ea; [|discriminate E]. destruct (if sg then _ else _); [discriminate E|].
  destruct (deflateEnumValues b1 sg vs) as [[b2 ws1]|] eqn:E1; [|discriminate E]. injection E as <- <-.
  constructor; [|eapply IH; exact E1]. destruct (enum_values_ok _ _ _ _ _ E1) as (X & _). eapply stored_ext; [exact X|]. now apply (add_stored _ _ _ _ Ea).
Qed.
Lemma enum64_stored vs : forall b b' ws, deflateEnum64Values b vs = Ok (b', ws) -> Forall (fun v => stored b' (ev_name v)) vs.
Proof.
  induction vs as [|v vs IH]; intros b b' ws E; cbn [deflateEnum64Values] in E; [constructor|].
  unfold bind in E. destruct (add_string b (ev_name v)) as [[no b1]|] eqn:Ea; [|discriminate E].
  destruct (deflateEnum64Values b1 vs) as [[b2 ws1]|] eqn:E1; [|discriminate E]. injection E as <- <-.
  constructor; [|eapply IH; exact E1]. destruct (enum64_values_ok _ _ _ _ E1) as (X & _). eapply stored_ext; [exact X|]. now apply (add_stored _ _ _ _ Ea).
Qed.
Lemma params_stored e ps : forall b b' ws, deflateFuncParams e b ps = Ok (b', ws) -> Forall (fun v => stored b' (p_name v)) ps.
Proof.
  induction ps as [|v ps IH]; intros b b' ws E; cbn [deflateFuncParams] in E; [constructor|].
  unfold bind in E. destruct (add_string b (p_name v)) as [[no b1]|] eqn:Ea; [|discriminate E]. destruct (e_id e (p_type v)); [|discriminate E].
  destruct (deflateFuncParams e b1 ps) as [[b2 ws1]|] eqn:E1; [|discriminate E]. injection E as <- <-.
  constructor; [|eapply IH; exact E1]. destruct (params_ok _ _ _ _ _ E1) as (X & _). eapply stored_ext; [exact X|]. now apply (add_stored _ _ _ _ Ea).
Qed.
Lemma node_stored e n e' r : user_type n -> deflateNode noOpts e n = Ok (e', r) -> Forall (stored (e_strings e')) (names_of n).
Proof.
  intros U E. unfold deflateNode, bind in E. destruct (add_string (e_strings e) (type_name n)) as [[no b]|] eqn:Ea; [|discriminate E]. destruct (add_stored _ _ _ _ Ea) as (M & _).
  set (e1 := with_strings e b) in *. change b with (e_strings e1) in M. unfold names_of.
  assert (Comp : forall k size ms, deflateComposite e1 (mkBtfType no 0 0) k size (members_of e1 ms) = Ok (e', r) -> Forall (stored (e_strings e')) (type_name n :: map m_name ms)).
  { intros k size ms H. destruct (composite_ok noOpts _ _ _ _ _ _ _ H) as (_ & _ & _ & _ & X & _). constructor; [eapply stored_ext; eassumption|]. unfold deflateComposite, bind in H.
    destruct (deflateMembers (e_strings e1) false (members_of e1 ms)) as [[[fl b2] ws]|] eqn:Em; [|discriminate H]. injection H as <- <-. apply members_stored in Em. cbn [with_strings e_strings]. rewrite Forall_forall in *.
    intros s Hs. apply in_map_iff in Hs as (m & <- & Hm). apply (Em (m_name m, e_id e1 (m_type m), m_offset m, m_bits m)). unfold members_of. now apply (in_map (fun m => (m_name m, e_id e1 (m_type m), m_offset m, m_bits m))). }
  assert (Map : forall {A} (g : A -> str) b2 l, Forall (fun v => stored b2 (g v)) l -> strs_ext (e_strings e1) b2 -> Forall (stored b2) (type_name n :: map g l)).
  { intros A g b2 l H X. constructor; [eapply stored_ext; eassumption|]. rewrite Forall_forall in *. intros s Hs. apply in_map_iff in Hs as (v & <- & Hv). auto. }
  destruct n; cbn [type_name noOpts ReplaceEnum64 ReplaceTypeTags StripFuncLinkage] in *;
    try (destruct (deflateRef _ _ _ _) as [r'|]; [|discriminate E]; injection E as <- <-; constructor; [exact M|constructor]; fail);
    try (injection E as <- <-; constructor; [exact M|constructor]; fail); try (destruct U; fail); try (eapply Comp; exact E).
  - destruct (e_id e1 elem); [|discriminate E]. destruct (e_id e1 index); [|discriminate E]. injection E as <- <-. constructor; [exact M|constructor].
  - destruct (size =? 8).
    + unfold deflateEnum64, bind in E. cbn [noOpts ReplaceEnum64] in E. destruct (deflateEnum64Values (e_strings e1) vals) as [[b2 ws]|] eqn:Ev; [|discriminate E]. injection E as <- <-.
      cbn [with_strings e_strings]. apply (Map _ ev_name); [eapply enum64_stored; exact Ev|apply (enum64_values_ok _ _ _ _ Ev)].
    + destruct (deflateEnumValues (e_strings e1) sgn vals) as [[b2 ws]|] eqn:Ev; [|discriminate E]. injection E as <- <-.
      cbn [with_strings e_strings]. apply (Map _ ev_name); [eapply enum_stored; exact Ev|apply (enum_values_ok _ _ _ _ _ Ev)].
  - destruct (e_id e1 ret); [|discriminate E]. destruct (deflateFuncParams e1 (e_strings e1) params) as [[b2 ws]|] eqn:Ev; [|discriminate E]. injection E as <- <-.
    cbn [with_strings e_strings]. apply (Map _ p_name); [eapply params_stored; exact Ev|apply (params_ok _ _ _ _ _ Ev)].
  - destruct (deflateVarSecinfos e1 vars); [|discriminate E]. injection E as <- <-. constructor; [exact M|constructor].
  - destruct (deflateRef _ _ _ _) as [r'|]; [|discriminate E]. destruct (add_string (e_strings e1) value) as [[vo b2]|] eqn:Ev; [|discriminate E]. injection E as <- <-.
    destruct (add_stored _ _ _ _ Ev) as (M2 & X2). cbn [with_strings e_strings]. constructor; [eapply stored_ext; eassumption|]. constructor; [exact M2|constructor].
Qed.
Lemma type_stored h e p e' r : (forall t n, p = PType t -> deref h t = Some n -> user_type n) -> deflateType noOpts h e p = Ok (e', r) -> Forall (stored (e_strings e')) (item_names h noOpts p).
Proof.
  intros U E. unfold item_names. cbn [placeholders noOpts ReplaceDeclTags ReplaceEnum64 app]. unfold placeholders. cbn [noOpts ReplaceDeclTags ReplaceEnum64 app]. rewrite app_nil_r. destruct p as [t|t v i|s z en|]; cbn [deflateType] in E.
  - destruct (deref h t) as [n|] eqn:D; [|discriminate E]. eapply node_stored; [eapply U; eauto|exact E].
  - unfold bind in E. destruct (add_string (e_strings e) []) as [[no b]|] eqn:Ea; [|discriminate E]. unfold deflateDeclTag, bind in E. cbn [noOpts ReplaceDeclTags] in E.
    destruct (e_id _ t) as [ti|]; [|discriminate E]. destruct (add_string (e_strings (with_strings e b)) v) as [[n2 b2]|] eqn:E2; [|discriminate E]. injection E as <- <-.
    constructor; [|constructor]. apply (add_stored _ _ _ _ E2).
  - assert (H := node_stored e (NInt s z en) e' r I E). inversion H; subst. constructor; [assumption|constructor].
  - constructor.
Qed.
