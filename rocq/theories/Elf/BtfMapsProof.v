(** Proof of C78: one map definition. *)
From Coq Require Import String Sorting.Sorted.
From Verif Require Import Base.GoInt Asm.Model Asm.Spec Elf.Programs Elf.ProgramsSpec Elf.Data Elf.BtfMaps Elf.BtfMapsSpec Btf.Types Btf.TypesSpec.
Open Scope string_scope. Open Scope list_scope. Open Scope Z_scope.

Definition F (ms : list member) (n : string) : option member := find (fun m => named m n) ms.
Lemma named_spec : forall m n, named m n = true <-> m_name m = lit n.
Proof. intros m n. unfold named. destruct (list_eq_dec _ _ _); split; congruence. Qed.
Lemma F_has : forall ms n m, F ms n = Some m -> has ms n m.
Proof. intros ms n m H. apply find_some in H as (H1 & H2). split; [exact H1|now apply named_spec]. Qed.
Lemma F_none : forall ms n, F ms n = None <-> forall m, ~ has ms n m.
Proof.
  intros ms n. split.
  - intros H m (H1 & H2). pose proof (find_none _ _ H m H1) as E. apply named_spec in H2. cbv beta in E. congruence.
  - intros H. destruct (F ms n) as [m|] eqn:E; [|reflexivity]. apply F_has in E. destruct (H m E).
Qed.
Lemma has_fun : forall ms n a b, NoDup (map m_name ms) -> has ms n a -> has ms n b -> a = b.
Proof.
  intros ms n a b Nd (I1 & E1) (I2 & E2). rewrite <- E2 in E1. clear E2 n. induction ms as [|m ms IH]; [destruct I1|]. inversion Nd; subst. destruct I1 as [->|I1], I2 as [->|I2]; auto; exfalso.
  - apply H1. rewrite E1. now apply List.in_map.
  - apply H1. rewrite <- E1. now apply List.in_map.
Qed.
Lemma F_iff : forall ms n m, NoDup (map m_name ms) -> F ms n = Some m <-> has ms n m.
Proof.
  intros ms n m Nd. split; [apply F_has|]. intros H. destruct (F ms n) as [b|] eqn:E.
  - f_equal. apply (has_fun ms n); auto. now apply F_has.
  - pose proof (proj1 (F_none ms n) E m). contradiction.
Qed.
Lemma F_snoc : forall P m n, F (P ++ [m]) n = match F P n with Some x => Some x | None => if named m n then Some m else None end.
Proof. induction P as [|x P IH]; intros m n; [reflexivity|]. cbn. destruct (named x n); [reflexivity|apply IH]. Qed.

Lemma id_opt : forall o : option member, match o with Some x => Some x | None => None end = o.
Proof. now intros []. Qed.

Section Def.
Variables (h : heap) (m0 : rels) (al : Z) (y : sym) (tags : list str) (nested : list member -> res berr mapspec) (inner : bool).
Lemma uint_spec : forall r v, uintFromBTF h r = Ok v <-> number h r v.
Proof.
  intros r v. unfold uintFromBTF, number. split.
  - destruct (deref h r) as [[]|] eqn:E; try discriminate.
    + destruct (deref h target) as [[]|] eqn:E'; try discriminate. intros H. injection H as <-. left. eauto 6.
    + destruct vals as [|w vals]; [discriminate|]. intros H. injection H as <-. right. eauto 8.
  - intros [(t & i & e & -> & ->)|(n & sz & sg & w & vals & -> & <-)]; reflexivity.
Qed.
Definition numOf (o : option member) : Z := match o with Some m => match uintFromBTF h (m_type m) with Ok v => v | Err _ => 0 end | None => 0 end.
Definition tgt (m : member) : ref := match deref h (m_type m) with Some (NPtr t) => t | _ => RNil end.
Definition szOf (m : member) : Z := match Sizeof h (tgt m) with Ok s => u64 s | Err _ => 0 end.
Definition sizeSt (P : list member) (n n' : string) : Z := match F P n with Some m => szOf m | None => numOf (F P n') end.
Definition innerOf (o : option member) : option mapspec :=
  match o with
  | Some m => match resolveBTFArrayMacro h (m_type m) with
              | Ok t => match deref h t with Some (NStruct _ _ ms _) => match nested ms with Ok i => Some i | Err _ => None end | _ => None end
              | Err _ => None end
  | None => None end.
Definition contentsOf (o : option member) : list (Z * string) := match o with Some m => match resolveBTFValuesContents m0 al y m with Ok c => c | Err _ => [] end | None => [] end.
Definition stateOf (P : list member) : mstate :=
  mkSt (option_map tgt (F P "key")) (option_map tgt (F P "value")) (sizeSt P "key" "key_size") (match F P "values" with Some _ => 4 | None => sizeSt P "value" "value_size" end)
       (u32 (numOf (F P "type"))) (numOf (F P "map_flags")) (numOf (F P "max_entries")) (u32 (numOf (F P "pinning"))) (numOf (F P "map_extra")) (innerOf (F P "values")) (contentsOf (F P "values")).
Definition isnum (m : member) : Prop := exists v, uintFromBTF h (m_type m) = Ok v.
Definition isptr (m : member) : Prop := exists t s, deref h (m_type m) = Some (NPtr t) /\ Sizeof h t = Ok s.
Definition goodElem (T : Z) (m : member) : Prop :=
  exists t, resolveBTFArrayMacro h (m_type m) = Ok t /\
    ((exists n sz ims tg, deref h t = Some (NStruct n sz ims tg) /\ (T = 12 \/ T = 13) /\ inner = false /\ exists i, nested ims = Ok i) \/
     (exists r ps, deref h t = Some (NFuncProto r ps) /\ T = 3)).
Definition good (P : list member) (m : member) (last : bool) : Prop :=
  (exists n, In n ["type"; "map_flags"; "max_entries"; "map_extra"] /\ m_name m = lit n /\ isnum m) \/
  (m_name m = lit "key" /\ sizeSt P "key" "key_size" = 0 /\ isptr m) \/
  (m_name m = lit "value" /\ sizeSt P "value" "value_size" = 0 /\ isptr m) \/
  (m_name m = lit "key_size" /\ F P "key" = None /\ sizeSt P "key" "key_size" = 0 /\ isnum m) \/
  (m_name m = lit "value_size" /\ F P "value" = None /\ sizeSt P "value" "value_size" = 0 /\ isnum m) \/
  (m_name m = lit "pinning" /\ inner = false /\ isnum m) \/
  (m_name m = lit "values" /\ last = true /\ (sizeSt P "value" "value_size" = 0 \/ sizeSt P "value" "value_size" = 4) /\ goodElem (u32 (numOf (F P "type"))) m /\ exists c, resolveBTFValuesContents m0 al y m = Ok c).

Ltac other E := repeat match goal with |- context [named ?m ?n] => let T := fresh in assert (T : named m n = false) by (unfold named; rewrite E; reflexivity); rewrite T; clear T end.
Ltac snoc E M N := unfold stateOf, sizeSt; rewrite !F_snoc, ?N, ?M; other E.
Ltac this E n := match goal with |- context [named ?m n] => let T := fresh in assert (T : named m n = true) by (apply named_spec; exact E); rewrite T; clear T end.
Lemma lit_neq : forall m a b, m_name m = lit a -> lit a <> lit b -> named m b = false.
Proof. intros m a b E N. destruct (named m b) eqn:X; [|reflexivity]. apply named_spec in X. congruence. Qed.
Lemma step_spec : forall P m last, (forall n, m_name m = lit n -> F P n = None) -> F P "values" = None ->
  ((exists st, step h m0 al y nested inner m last (stateOf P) = Ok st) <-> good P m last) /\
  (forall st, step h m0 al y nested inner m last (stateOf P) = Ok st -> st = stateOf (P ++ [m])).
Proof.
  intros P m last Nw Nv.
  assert (Ss : stateOf P = mkSt (option_map tgt (F P "key")) (option_map tgt (F P "value")) (sizeSt P "key" "key_size") (sizeSt P "value" "value_size")
       (u32 (numOf (F P "type"))) (numOf (F P "map_flags")) (numOf (F P "max_entries")) (u32 (numOf (F P "pinning"))) (numOf (F P "map_extra")) None []) by (unfold stateOf; rewrite Nv; reflexivity).
  rewrite Ss. clear Ss. unfold step.
  assert (Num : forall n k, In n ["type"; "map_flags"; "max_entries"; "map_extra"] -> m_name m = lit n -> (forall v, uintFromBTF h (m_type m) = Ok v -> k v = stateOf (P ++ [m])) ->
    ((exists st, match uintFromBTF h (m_type m) with Ok v => Ok (k v) | Err e => Err e end = Ok st :> res berr mstate) <-> good P m last) /\ (forall st, match uintFromBTF h (m_type m) with Ok v => Ok (k v) | Err e => Err e end = Ok st -> st = stateOf (P ++ [m]))).
  { intros n k I E Hk. split.
    - split.
      + intros (st & H). left. exists n. split; [exact I|]. split; [exact E|]. unfold isnum. destruct (uintFromBTF h (m_type m)); [eauto|discriminate].
      + intros [(n' & _ & _ & v & Hv)|G]; [rewrite Hv; eauto|]. exfalso. cbn [In] in I. destruct G as [(E' & _)|[(E' & _)|[(E' & _)|[(E' & _)|[(E' & _)|(E' & _)]]]]]; rewrite E in E'; destruct I as [<-|[<-|[<-|[<-|[]]]]]; discriminate E'.
    - intros st H. destruct (uintFromBTF h (m_type m)) as [v|]; [|discriminate]. injection H as <-. now apply Hk. }
  destruct (named m "type") eqn:E1.
  { apply named_spec in E1. apply (Num "type" _ ltac:(cbn; tauto) E1). intros v Hv. unfold stateOf, sizeSt. rewrite !F_snoc, (Nw _ E1), Nv. this E1 "type". other E1. cbn [numOf]. rewrite Hv. rewrite !id_opt; reflexivity. }
  destruct (named m "map_flags") eqn:E2.
  { clear E1. apply named_spec in E2. apply (Num "map_flags" _ ltac:(cbn; tauto) E2). intros v Hv. unfold stateOf, sizeSt. rewrite !F_snoc, (Nw _ E2), Nv. this E2 "map_flags". other E2. cbn [numOf]. rewrite Hv. rewrite !id_opt; reflexivity. }
  destruct (named m "max_entries") eqn:E3.
  { clear E1 E2. apply named_spec in E3. apply (Num "max_entries" _ ltac:(cbn; tauto) E3). intros v Hv. unfold stateOf, sizeSt. rewrite !F_snoc, (Nw _ E3), Nv. this E3 "max_entries". other E3. cbn [numOf]. rewrite Hv. rewrite !id_opt; reflexivity. }
  destruct (named m "key") eqn:E4.
  { clear E1 E2 E3 Num. apply named_spec in E4. split.
    - split.
      + intros (st & H). right. left. split; [exact E4|]. destruct (Z.eqb_spec (sizeSt P "key" "key_size") 0) as [Z0|]; [|discriminate]. split; [exact Z0|]. unfold isptr. destruct (deref h (m_type m)) as [[]|]; try discriminate. destruct (Sizeof h target) as [s|] eqn:Es; [eauto|discriminate].
      + intros [(n' & I & E' & _)|G]; [rewrite E4 in E'; cbn [In] in I; destruct I as [<-|[<-|[<-|[<-|[]]]]]; discriminate E'|]. destruct G as [(_ & Z0 & t & s & Hd & Hs)|[(E' & _)|[(E' & _)|[(E' & _)|[(E' & _)|(E' & _)]]]]]; try (rewrite E4 in E'; discriminate E'). rewrite Z0, Hd, Hs. cbn. eauto.
    - intros st H. destruct (Z.eqb_spec (sizeSt P "key" "key_size") 0) as [Z0|]; [|discriminate]. cbn [negb] in H. destruct (deref h (m_type m)) as [[]|] eqn:Hd; try discriminate. destruct (Sizeof h target) as [s|] eqn:Es; [|discriminate]. injection H as <-.
      unfold stateOf, sizeSt. rewrite !F_snoc, (Nw _ E4), Nv. this E4 "key". other E4. cbn [option_map]. assert (Et : tgt m = target) by (unfold tgt; now rewrite Hd). assert (Sz : szOf m = u64 s) by (unfold szOf; now rewrite Et, Es). rewrite Et, Sz. rewrite !id_opt; reflexivity. }
  destruct (named m "value") eqn:E5.
  { clear E1 E2 E3 E4 Num. apply named_spec in E5. split.
    - split.
      + intros (st & H). right. right. left. split; [exact E5|]. destruct (Z.eqb_spec (sizeSt P "value" "value_size") 0) as [Z0|]; [|discriminate]. split; [exact Z0|]. unfold isptr. destruct (deref h (m_type m)) as [[]|]; try discriminate. destruct (Sizeof h target) as [s|] eqn:Es; [eauto|discriminate].
      + intros [(n' & I & E' & _)|G]; [rewrite E5 in E'; cbn [In] in I; destruct I as [<-|[<-|[<-|[<-|[]]]]]; discriminate E'|]. destruct G as [(E' & _)|[(_ & Z0 & t & s & Hd & Hs)|[(E' & _)|[(E' & _)|[(E' & _)|(E' & _)]]]]]; try (rewrite E5 in E'; discriminate E'). rewrite Z0, Hd, Hs. cbn. eauto.
    - intros st H. destruct (Z.eqb_spec (sizeSt P "value" "value_size") 0) as [Z0|]; [|discriminate]. cbn [negb] in H. destruct (deref h (m_type m)) as [[]|] eqn:Hd; try discriminate. destruct (Sizeof h target) as [s|] eqn:Es; [|discriminate]. injection H as <-.
      unfold stateOf, sizeSt. rewrite !F_snoc, (Nw _ E5), Nv. this E5 "value". other E5. cbn [option_map]. assert (Et : tgt m = target) by (unfold tgt; now rewrite Hd). assert (Sz : szOf m = u64 s) by (unfold szOf; now rewrite Et, Es). rewrite Et, Sz. rewrite !id_opt; reflexivity. }
  destruct (named m "key_size") eqn:E6.
  { clear E1 E2 E3 E4 E5 Num. apply named_spec in E6. split.
    - split.
      + intros (st & H). right. right. right. left. split; [exact E6|]. destruct (F P "key") as [x|]; cbn [option_map orb] in H; [discriminate|]. split; [reflexivity|]. destruct (Z.eqb_spec (sizeSt P "key" "key_size") 0) as [Z0|]; [|discriminate]. split; [exact Z0|]. unfold isnum. destruct (uintFromBTF h (m_type m)); [eauto|discriminate].
      + intros [(n' & I & E' & _)|G]; [rewrite E6 in E'; cbn [In] in I; destruct I as [<-|[<-|[<-|[<-|[]]]]]; discriminate E'|]. destruct G as [(E' & _)|[(E' & _)|[(_ & K & Z0 & v & Hv)|[(E' & _)|[(E' & _)|(E' & _)]]]]]; try (rewrite E6 in E'; discriminate E'). rewrite Z0, K, Hv. cbn. eauto.
    - intros st H. destruct (F P "key") as [x|] eqn:K; cbn [option_map orb] in H; [discriminate|]. destruct (Z.eqb_spec (sizeSt P "key" "key_size") 0) as [Z0|]; [|discriminate]. cbn [negb] in H. destruct (uintFromBTF h (m_type m)) as [v|] eqn:Hv; [|discriminate]. injection H as <-.
      unfold stateOf, sizeSt. rewrite !F_snoc, (Nw _ E6), Nv, K. this E6 "key_size". other E6. cbn [option_map numOf]. rewrite Hv. rewrite !id_opt; reflexivity. }
  destruct (named m "value_size") eqn:E7.
  { clear E1 E2 E3 E4 E5 E6 Num. apply named_spec in E7. split.
    - split.
      + intros (st & H). right. right. right. right. left. split; [exact E7|]. destruct (F P "value") as [x|]; cbn [option_map orb] in H; [discriminate|]. split; [reflexivity|]. destruct (Z.eqb_spec (sizeSt P "value" "value_size") 0) as [Z0|]; [|discriminate]. split; [exact Z0|]. unfold isnum. destruct (uintFromBTF h (m_type m)); [eauto|discriminate].
      + intros [(n' & I & E' & _)|G]; [rewrite E7 in E'; cbn [In] in I; destruct I as [<-|[<-|[<-|[<-|[]]]]]; discriminate E'|]. destruct G as [(E' & _)|[(E' & _)|[(E' & _)|[(_ & K & Z0 & v & Hv)|[(E' & _)|(E' & _)]]]]]; try (rewrite E7 in E'; discriminate E'). rewrite Z0, K, Hv. cbn. eauto.
    - intros st H. destruct (F P "value") as [x|] eqn:K; cbn [option_map orb] in H; [discriminate|]. destruct (Z.eqb_spec (sizeSt P "value" "value_size") 0) as [Z0|]; [|discriminate]. cbn [negb] in H. destruct (uintFromBTF h (m_type m)) as [v|] eqn:Hv; [|discriminate]. injection H as <-.
      unfold stateOf, sizeSt. rewrite !F_snoc, (Nw _ E7), Nv, K. this E7 "value_size". other E7. cbn [option_map numOf]. rewrite Hv. rewrite !id_opt; reflexivity. }
  destruct (named m "pinning") eqn:E8.
  { clear E1 E2 E3 E4 E5 E6 E7 Num. apply named_spec in E8. split.
    - split.
      + intros (st & H). right. right. right. right. right. left. split; [exact E8|]. destruct inner; [discriminate|]. split; [reflexivity|]. unfold isnum. destruct (uintFromBTF h (m_type m)); [eauto|discriminate].
      + intros [(n' & I & E' & _)|G]; [rewrite E8 in E'; cbn [In] in I; destruct I as [<-|[<-|[<-|[<-|[]]]]]; discriminate E'|]. destruct G as [(E' & _)|[(E' & _)|[(E' & _)|[(E' & _)|[(_ & -> & v & Hv)|(E' & _)]]]]]; try (rewrite E8 in E'; discriminate E'). rewrite Hv. eauto.
    - intros st H. destruct inner; [discriminate|]. destruct (uintFromBTF h (m_type m)) as [v|] eqn:Hv; [|discriminate]. injection H as <-.
      unfold stateOf, sizeSt. rewrite !F_snoc, (Nw _ E8), Nv. this E8 "pinning". other E8. cbn [option_map numOf]. rewrite Hv. rewrite !id_opt; reflexivity. }
  destruct (named m "values") eqn:E9.
  { clear E1 E2 E3 E4 E5 E6 E7 E8 Num. apply named_spec in E9. split.
    - split.
      + intros (st & H). do 6 right. split; [exact E9|]. destruct last; [|discriminate]. cbn [negb] in H. split; [reflexivity|].
        destruct (negb (sizeSt P "value" "value_size" =? 0) && negb (sizeSt P "value" "value_size" =? 4)) eqn:Ez; [discriminate|]. split; [lia|]. unfold goodElem. destruct (resolveBTFArrayMacro h (m_type m)) as [t|] eqn:Ea; [|discriminate]. destruct (deref h t) as [n|] eqn:Ed; [|discriminate].
        split; [exists t; split; [reflexivity|]; rewrite Ed|].
        * destruct n; try discriminate; [left|right].
          -- exists name, size, ms, tags0. split; [reflexivity|]. unfold ArrayOfMaps, HashOfMaps in H. destruct (negb (u32 (numOf (F P "type")) =? 12) && negb (u32 (numOf (F P "type")) =? 13)) eqn:Et; [discriminate|]. split; [lia|]. destruct inner; [discriminate|]. split; [reflexivity|]. destruct (nested ms); [eauto|discriminate].
          -- exists ret, params. split; [reflexivity|]. unfold ProgramArray in H. destruct (Z.eqb_spec (u32 (numOf (F P "type"))) 3) as [Et|]; [exact Et|discriminate].
        * destruct (resolveBTFValuesContents m0 al y m) as [c|]; [eauto|]. destruct (match n with NInt _ _ _ => _ | _ => _ end) in H; discriminate.
      + intros [(n' & I & E' & _)|G]; [rewrite E9 in E'; cbn [In] in I; destruct I as [<-|[<-|[<-|[<-|[]]]]]; discriminate E'|]. destruct G as [(E' & _)|[(E' & _)|[(E' & _)|[(E' & _)|[(E' & _)|(_ & -> & Z0 & (t & Ha & Ge) & c & Hc)]]]]]; try (rewrite E9 in E'; discriminate E').
        cbn [negb]. assert (Ez : negb (sizeSt P "value" "value_size" =? 0) && negb (sizeSt P "value" "value_size" =? 4) = false) by lia. rewrite Ez, Ha, Hc. destruct Ge as [(n & sz & ims & tg & Hd & T & -> & i & Hi)|(r & ps & Hd & T)]; rewrite Hd.
        * unfold ArrayOfMaps, HashOfMaps. assert (Et : negb (u32 (numOf (F P "type")) =? 12) && negb (u32 (numOf (F P "type")) =? 13) = false) by lia. rewrite Et, Hi. eauto.
        * unfold ProgramArray. rewrite T. cbn. eauto.
    - intros st H. destruct last; [|discriminate]. cbn [negb] in H. destruct (negb (sizeSt P "value" "value_size" =? 0) && negb (sizeSt P "value" "value_size" =? 4)); [discriminate|]. destruct (resolveBTFArrayMacro h (m_type m)) as [t|] eqn:Ea; [|discriminate].
      unfold stateOf, sizeSt. rewrite !F_snoc, (Nw _ E9). this E9 "values". other E9. cbn [option_map innerOf contentsOf]. rewrite Ea. destruct (deref h t) as [n|] eqn:Ed; [|discriminate]. destruct n; try discriminate.
      + destruct (negb (u32 (numOf (F P "type")) =? ArrayOfMaps) && negb (u32 (numOf (F P "type")) =? HashOfMaps)); [discriminate|]. destruct inner; [discriminate|]. destruct (nested ms) as [i|]; [|discriminate]. destruct (resolveBTFValuesContents m0 al y m) as [c|]; [|discriminate]. injection H as <-. unfold sizeSt.
        rewrite !id_opt; reflexivity.
      + destruct (negb (u32 (numOf (F P "type")) =? ProgramArray)); [discriminate|]. destruct (resolveBTFValuesContents m0 al y m) as [c|]; [|discriminate]. injection H as <-. unfold sizeSt.
        rewrite !id_opt; reflexivity. }
  destruct (named m "map_extra") eqn:E10.
  { clear E1 E2 E3 E4 E5 E6 E7 E8 E9. apply named_spec in E10. apply (Num "map_extra" _ ltac:(cbn; tauto) E10). intros v Hv. unfold stateOf, sizeSt. rewrite !F_snoc, (Nw _ E10), Nv. this E10 "map_extra". other E10. cbn [numOf]. rewrite Hv. rewrite !id_opt; reflexivity. }
  split; [|discriminate]. split; [intros (st & H); discriminate|]. intros G. exfalso.
  assert (X : forall n, m_name m = lit n -> named m n = false -> False) by (intros n A B; apply named_spec in A; congruence).
  destruct G as [(n & I & E & _)|[(E & _)|[(E & _)|[(E & _)|[(E & _)|[(E & _)|(E & _)]]]]]]; [cbn [In] in I; destruct I as [<-|[<-|[<-|[<-|[]]]]]; eauto|eauto..].
Qed.

Definition isnil {A} (l : list A) : bool := match l with [] => true | _ => false end.
Lemma walk_spec : forall Q P, NoDup (map m_name (P ++ Q)) -> (Q <> [] -> F P "values" = None) ->
  ((exists st, walk h m0 al y nested inner Q (stateOf P) = Ok st) <-> forall A m B, Q = A ++ m :: B -> good (P ++ A) m (isnil B)) /\
  (forall st, walk h m0 al y nested inner Q (stateOf P) = Ok st -> st = stateOf (P ++ Q)).
Proof.
  induction Q as [|m Q IH]; intros P Nd Nv; cbn [walk].
  - rewrite app_nil_r. split; [|intros st H; now injection H]. split; [|eauto]. intros _ A m B E. destruct A; discriminate E.
  - assert (Nw : forall n, m_name m = lit n -> F P n = None).
    { intros n E. apply F_none. intros x (Hx & Ex). rewrite map_app in Nd. cbn in Nd. apply NoDup_remove_2 in Nd. apply Nd. apply in_or_app. left. rewrite E, <- Ex. now apply List.in_map. }
    fold (isnil Q). destruct (step_spec P m (isnil Q) Nw (Nv ltac:(discriminate))) as (A & B). destruct (step h m0 al y nested inner m (isnil Q) (stateOf P)) as [st1|e].
    + specialize (B st1 eq_refl). subst st1. replace (P ++ m :: Q) with ((P ++ [m]) ++ Q) in * by now rewrite <- app_assoc. assert (G : good P m (isnil Q)) by (apply A; eauto).
      assert (Nv' : Q <> [] -> F (P ++ [m]) "values" = None).
      { intros Nq. rewrite F_snoc, (Nv ltac:(discriminate)). destruct (named m "values") eqn:E; [|reflexivity]. apply named_spec in E. exfalso. destruct G as [(n & I & E' & _)|[(E' & _)|[(E' & _)|[(E' & _)|[(E' & _)|[(E' & _)|(_ & E' & _)]]]]]]; try (rewrite E in E'; discriminate E').
        - rewrite E in E'. cbn [In] in I. destruct I as [<-|[<-|[<-|[<-|[]]]]]; discriminate E'.
        - destruct Q; [contradiction|discriminate]. }
      destruct (IH (P ++ [m]) Nd Nv') as (C & D). split; [|exact D]. rewrite C. split.
      * intros H X x Y E. destruct X as [|x0 X]; cbn in E; injection E as <- ->; [now rewrite app_nil_r|]. specialize (H X x Y eq_refl). now rewrite <- app_assoc in H.
      * intros H X x Y ->. rewrite <- app_assoc. apply (H (m :: X) x Y). reflexivity.
    + split; [|discriminate]. split; [intros (st & H); discriminate|]. intros H. specialize (H [] m Q eq_refl). rewrite app_nil_r in H. apply A in H as (st & H). discriminate.
Qed.
End Def.
