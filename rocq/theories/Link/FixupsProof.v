(** Proofs for C84, C85. *)
From Coq Require Import String.
From Verif Require Import Base.GoInt Asm.Model Link.Fixups Link.FixupsSpec.
Open Scope Z_scope.

Section Proof.
Variable T : Type.
Notation insn := (insn T). Notation kernel := (kernel T).
Arguments Found {A}. Arguments Missing {A}. Arguments Broken {A}.
Arguments MKconfig {T}. Arguments MKsym {T}. Arguments MKfunc {T}.

(** ** What is open *)
Definition among (n : nat) (hs : list nat) : bool := existsb (Nat.eqb n) hs.
Lemma among_in : forall n hs, among n hs = true <-> In n hs.
Proof. intros n hs. unfold among. rewrite existsb_exists. split; [intros (x & H & E); apply Nat.eqb_eq in E; congruence|intro H; exists n; split; [exact H|apply Nat.eqb_refl]]. Qed.
Lemma filter_filter : forall A (f g : A -> bool) l, filter f (filter g l) = filter (fun x => g x && f x) l.
Proof. induction l as [|a l IH]; cbn; auto. destruct (g a); cbn; [destruct (f a); cbn; congruence|auto]. Qed.
Lemma filter_all : forall A (f : A -> bool) l, (forall x, In x l -> f x = true) -> filter f l = l.
Proof. induction l as [|a l IH]; cbn; intros H; auto. rewrite H by auto. f_equal. auto. Qed.
Lemma filter_none : forall A (f : A -> bool) l, (forall x, In x l -> f x = false) -> filter f l = [].
Proof. induction l as [|a l IH]; cbn; intros H; auto. rewrite H by auto. auto. Qed.
Lemma closeList_live : forall hs w, live (closeList hs w) = filter (fun h => negb (among (fst h) hs)) (live w) /\ next (closeList hs w) = next w.
Proof.
  induction hs as [|n hs IH]; intro w; cbn; [split; [symmetry; apply filter_all; auto|reflexivity]|].
  destruct (IH (close_ n w)) as [E1 E2]. unfold closeList in *. rewrite E1, E2. split; [|reflexivity]. cbn. rewrite filter_filter.
  apply filter_ext. intro h. unfold among. cbn. destruct (Nat.eqb (fst h) n); reflexivity.
Qed.
(** [w'] has [l] open in addition to [w]. *)
Definition more (w w' : world) (l : list (nat * option string)) : Prop :=
  live w' = l ++ live w /\ (next w <= next w')%nat /\ forall h, In h l -> (next w <= fst h < next w')%nat.
Lemma more_refl : forall w, more w w [].
Proof. intro w. split; [reflexivity|]. split; [lia|]. intros h []. Qed.
Lemma more_trans : forall a b c l m, more a b l -> more b c m -> more a c (m ++ l).
Proof.
  intros a b c l m (E1 & N1 & B1) (E2 & N2 & B2). split; [rewrite E2, E1, app_assoc; reflexivity|]. split; [lia|].
  intros h H. apply in_app_or in H. destruct H as [H|H]; [apply B2 in H|apply B1 in H]; lia.
Qed.
Lemma more_open : forall m w, more w (snd (open_ m w)) [(next w, m)].
Proof. intros m w. split; [reflexivity|]. split; [cbn; lia|]. intros h [<-|[]]; cbn; lia. Qed.
Lemma close_more : forall w w' l hs, earlier w -> more w w' l -> (forall n, In n hs <-> In n (map fst l)) -> live (closeList hs w') = live w.
Proof.
  intros w w' l hs Ea (E & _ & B) H. destruct (closeList_live hs w') as [-> _]. rewrite E, filter_app.
  rewrite filter_none, filter_all; [reflexivity| |].
  - intros x Hx. apply Ea in Hx. destruct (among (fst x) hs) eqn:A; [|reflexivity]. apply among_in, H, in_map_iff in A. destruct A as (y & EQ & Hy). apply B in Hy. lia.
  - intros x Hx. assert (A : among (fst x) hs = true) by (apply among_in, H, in_map; auto). rewrite A. reflexivity.
Qed.
Lemma close_app : forall a b w, closeList (a ++ b) w = closeList b (closeList a w).
Proof. intros. unfold closeList. apply fold_left_app. Qed.
Lemma closeOpt_list : forall o w, closeOpt o w = closeList (match o with Some n => [n] | None => [] end) w.
Proof. intros [n|] w; reflexivity. Qed.

(** ** Kconfig *)
Lemma firstKconfig_none : forall insns : list insn, firstKconfig T insns = None -> forall i m o, ~ In (i, Some (MKconfig m o)) insns.
Proof.
  intros insns H i m o Hin. unfold firstKconfig in H.
  match type of H with context [find ?f insns] => destruct (find f insns) as [[j e]|] eqn:F end.
  - apply find_some in F. destruct F as [_ F]. cbn in F. destruct e as [[| |]|]; discriminate.
  - pose proof (find_none _ _ F _ Hin) as X. discriminate.
Qed.
Lemma firstKconfig_some : forall (insns : list insn) m, firstKconfig T insns = Some m -> exists i o, In (i, Some (MKconfig m o)) insns.
Proof.
  intros insns m H. unfold firstKconfig in H. match type of H with context [find ?f insns] => destruct (find f insns) as [[j e]|] eqn:F end; [|discriminate].
  apply find_some in F. destruct F as [F _]. destruct e as [[a b| |]|]; try discriminate. injection H as ->. eauto.
Qed.

(** After the configuration was resolved: the same references, without those. *)
Definition kc (k : kernel) (map : nat) (x y : insn) : Prop :=
  match snd x with
  | Some (MKconfig _ off) => IsLoadFromMap (fst x) = true /\ snd y = None /\
      fst y = mkIns (OpCode (fst x)) (Dst (fst x)) (Src (fst x)) (Offset (fst x)) (i64 (u64 (Z.shiftl (u32 off) 32))) (Symbol (fst x)) EmptyString (Some (k_fd T k map))
  | _ => y = x
  end.
Lemma setKconfig_ok : forall k spec map insns r, setKconfig T k spec map insns = Ok r -> Forall2 (kc k map) insns r.
Proof.
  intros k spec map. induction insns as [|[i e] insns IH]; intros r H; cbn in H; [injection H as <-; constructor|].
  destruct e as [[m off| |]|].
  - destruct (Nat.eqb m spec); [|discriminate]. cbn in H. unfold ins_AssociateMap in H. destruct (IsLoadFromMap i) eqn:L; [|discriminate]. cbn in H.
    destruct (setKconfig T k spec map insns) as [r1|]; [|discriminate]. injection H as <-. constructor; [|auto]. cbn. auto.
  - destruct (setKconfig T k spec map insns) as [r1|]; [|discriminate]. injection H as <-. constructor; [reflexivity|auto].
  - destruct (setKconfig T k spec map insns) as [r1|]; [|discriminate]. injection H as <-. constructor; [reflexivity|auto].
  - destruct (setKconfig T k spec map insns) as [r1|]; [|discriminate]. injection H as <-. constructor; [reflexivity|auto].
Qed.
Lemma setKconfig_complete : forall k spec map insns, (forall i m o, In (i, Some (MKconfig m o)) insns -> m = spec /\ IsLoadFromMap i = true) ->
  exists r, setKconfig T k spec map insns = Ok r.
Proof.
  intros k spec map. induction insns as [|[i e] insns IH]; intro H; cbn; [eauto|].
  destruct IH as (r & E); [intros; apply (H i0 m o); right; auto|]. rewrite E.
  destruct e as [[m off| |]|]; eauto. destruct (H i m off) as [-> L]; [left; reflexivity|].
  rewrite Nat.eqb_refl. unfold ins_AssociateMap. rewrite L. cbn. eauto.
Qed.
Definition kconf (k : kernel) (o : option nat) (x y : insn) : Prop :=
  match o with Some map => kc k map x y | None => y = x /\ forall m off, snd x <> Some (MKconfig m off) end.
Lemma resolveKconfig_ok : forall k insns w w' r o, resolveKconfigReferences T k insns w = (w', Ok (r, o)) ->
  Forall2 (kconf k o) insns r /\ more w w' (match o with Some n => [(n, None)] | None => [] end).
Proof.
  intros k insns w w' r o H. unfold resolveKconfigReferences in H. destruct (firstKconfig T insns) as [spec|] eqn:F.
  - destruct (k_kconfig T k spec); [|discriminate]. cbn in H. destruct (setKconfig T k spec (next w) insns) as [r1|] eqn:S; [|discriminate].
    injection H as <- <- <-. split; [apply setKconfig_ok in S; exact S|]. exact (more_open None w).
  - injection H as <- <- <-. split; [|apply more_refl]. pose proof (firstKconfig_none _ F) as N. clear F.
    induction insns as [|[i e] insns IH]; constructor.
    + split; [reflexivity|]. cbn. intros m off ->. apply (N i m off). left; reflexivity.
    + apply IH. intros j m off Hin. apply (N j m off). right; auto.
Qed.

(** ** Typed ksyms *)
Definition symOk (k : kernel) (w : world) (s : string * (Z * option nat)) : Prop :=
  exists md u, k_var T k (fst s) = Found (fst (snd s)) md u /\
    match snd (snd s), md with None, None => True | Some h, Some m => In (h, Some m) (live w) | _, _ => False end.
Definition ksymDone (k : kernel) (l : list (nat * option string)) (x y : insn) : Prop :=
  match snd x with
  | Some (MKsym name weak) =>
      match k_var T k name with
      | Found id md _ => exists fd, match md with None => fd = 0 | Some m => handleOf T k l m fd end /\ 
          IsDWordLoad (OpCode (fst x)) = true /\
          y = (set_cons (set_src (fst x) PseudoBtfId) (i64 (Z.lor (u32 id) (u64 (Z.shiftl fd 32)))), snd x)
      | Missing => weak = true /\ y = x
      | Broken => False
      end
  | _ => y = x
  end.
Lemma lookup_in : forall A name (l : list (string * A)) a, lookup name l = Some a -> In (name, a) l.
Proof.
  induction l as [|[n b] l IH]; cbn; intros a H; [discriminate|]. destruct (String.eqb name n) eqn:E.
  - apply String.eqb_eq in E. injection H as ->. left. congruence.
  - right. auto.
Qed.
Lemma handleOf_more : forall k w w' l m fd, more w w' l -> handleOf T k (live w) m fd -> handleOf T k (live w') m fd.
Proof. intros k w w' l m fd (E & _) (h & H & F). exists h. split; [|exact F]. rewrite E. apply in_or_app. auto. Qed.
Lemma ksymDone_more : forall k w w' l x y, more w w' l -> ksymDone k (live w) x y -> ksymDone k (live w') x y.
Proof.
  intros k w w' l x y M H. unfold ksymDone in *. destruct (snd x) as [[| name weak|]|]; auto. destruct (k_var T k name) as [id md u| |]; auto.
  destruct H as (fd & H & E). exists fd. split; [|exact E]. destruct md; auto. eapply handleOf_more; eauto.
Qed.
Lemma symOk_more : forall k w w' l s, more w w' l -> symOk k w s -> symOk k w' s.
Proof.
  intros k w w' l s (E & _) (md & u & H & K). exists md, u. split; [exact H|]. destruct (snd (snd s)), md; auto. rewrite E. apply in_or_app. auto.
Qed.

Lemma typedKsyms_ok : forall k insns syms mods w w' r m, Forall (symOk k w) syms -> typedKsyms T k insns syms mods w = (w', Ok (r, m)) ->
  exists new, more w w' new /\ m = mods ++ rev (map fst new) /\ Forall2 (ksymDone k (live w')) insns r.
Proof.
  intros k. induction insns as [|[i e] insns IH]; intros syms mods w w' r m SO H; cbn in H.
  - injection H as <- <- <-. exists []. split; [apply more_refl|]. rewrite app_nil_r. split; [reflexivity|constructor].
  - destruct e as [[a b|name weak|n1 w1 t1]|].
    1,3,4: destruct (typedKsyms T k insns syms mods w) as [w1' [[r1 m1]|]] eqn:E; [|discriminate]; injection H as <- <- <-;
      destruct (IH _ _ _ _ _ _ SO E) as (new & M & EM & F); exists new; split; [exact M|split; [exact EM|]]; constructor; [reflexivity|exact F].
    destruct (lookup name syms) as [[id h]|] eqn:L.
    + pose proof (proj1 (Forall_forall _ _) SO _ (lookup_in _ _ _ _ L)) as (md & u & V & K). cbn in V, K.
      destruct (AssociateBTFID id _ i) as [i'|] eqn:A; [|discriminate].
      destruct (typedKsyms T k insns syms mods w) as [w1' [[r1 m1]|]] eqn:E; [|discriminate]; injection H as <- <- <-.
      destruct (IH _ _ _ _ _ _ SO E) as (new & M & EM & F). exists new. split; [exact M|]. split; [exact EM|]. constructor; [|exact F].
      unfold ksymDone. cbn. rewrite V. unfold AssociateBTFID in A. destruct (IsDWordLoad (OpCode i)) eqn:D; [|discriminate]. cbn in A. destruct (_ <? 0); [discriminate|]. injection A as <-.
      exists (match h with Some n => k_fd T k n | None => 0 end). split; [|auto].
      destruct h as [h|], md as [md|]; try contradiction; auto. exists h. split; [|reflexivity]. destruct M as (-> & _). apply in_or_app; auto.
    + destruct (k_var T k name) as [id md u| |] eqn:V.
      * destruct md as [md|].
        -- cbn in H. destruct (Z.of_nat (List.length mods) =? 32767); [discriminate|].
           set (w1 := World (S (next w)) ((next w, Some md) :: live w)) in *.
           assert (M1 : more w w1 [(next w, Some md)]) by exact (more_open (Some md) w).
           destruct (AssociateBTFID id _ i) as [i'|] eqn:A; [|discriminate].
           destruct (typedKsyms T k insns _ _ w1) as [w1' [[r1 m1]|]] eqn:E; [|discriminate]; injection H as <- <- <-.
           assert (SO1 : Forall (symOk k w1) ((name, (id, Some (next w))) :: syms)).
           { constructor; [exists (Some md), u; cbn; split; [exact V|left; reflexivity]|].
             eapply Forall_impl; [|exact SO]. intros s Hs. eapply symOk_more; [exact M1|exact Hs]. }
           destruct (IH _ _ _ _ _ _ SO1 E) as (new & M & EM & F).
           exists (new ++ [(next w, Some md)]). split; [exact (more_trans _ _ _ _ _ M1 M)|]. split.
           { rewrite map_app, rev_app_distr. cbn. rewrite EM, <- app_assoc. reflexivity. }
           constructor; [|exact F]. unfold ksymDone. cbn. rewrite V. unfold AssociateBTFID in A. destruct (IsDWordLoad (OpCode i)) eqn:D; [|discriminate]. cbn in A. destruct (_ <? 0); [discriminate|]. injection A as <-.
           exists (k_fd T k (next w)). split; [|auto]. exists (next w). split; [|reflexivity]. destruct M as (-> & _). apply in_or_app. right. left. reflexivity.
        -- destruct (AssociateBTFID id _ i) as [i'|] eqn:A; [|discriminate].
           destruct (typedKsyms T k insns _ mods w) as [w1' [[r1 m1]|]] eqn:E; [|discriminate]; injection H as <- <- <-.
           assert (SO1 : Forall (symOk k w) ((name, (id, None)) :: syms)) by (constructor; [exists None, u; cbn; auto|exact SO]).
           destruct (IH _ _ _ _ _ _ SO1 E) as (new & M & EM & F).
           exists new. split; [exact M|]. split; [exact EM|]. constructor; [|exact F].
           unfold ksymDone. cbn. rewrite V. unfold AssociateBTFID in A. destruct (IsDWordLoad (OpCode i)) eqn:D; [|discriminate]. cbn in A. injection A as <-. exists 0. auto.
      * destruct weak; [|discriminate].
        destruct (typedKsyms T k insns syms mods w) as [w1' [[r1 m1]|]] eqn:E; [|discriminate]; injection H as <- <- <-.
        destruct (IH _ _ _ _ _ _ SO E) as (new & M & EM & F). exists new. split; [exact M|]. split; [exact EM|]. constructor; [|exact F].
        unfold ksymDone. cbn. rewrite V. auto.
      * discriminate.
Qed.

(** The loop over kfuncs as a recursion over the list *)
Fixpoint kfuncs (k : kernel) (insns : list insn) (hs : list nat) (w : world) : world * res failure (list insn * list nat) :=
  match insns with
  | [] => (w, Ok ([], hs))
  | (i, Some (MKfunc name weak ty)) :: rest =>
      let continue cur hs w := match kfuncs k rest hs w with (w, Err e) => (w, Err e) | (w, Ok (r, hs)) => (w, Ok (cur :: r, hs)) end in
      match k_func T k name with
      | Missing => if weak then if IsKfuncCall i then continue (poison, None) hs w
                               else if IsDWordLoad (OpCode i) then continue (set_src (set_cons i 0) 0, Some (MKfunc name weak ty)) hs w
                               else (closeList hs w, Err FKfuncUse)
                   else (closeList hs w, Err FMissing)
      | Broken => (closeList hs w, Err FLookup)
      | Found id md target =>
          let '(h, w) := match md with None => (None, w) | Some m => let '(n, w) := open_ (Some m) w in (Some n, w) end in
          match addHandle h hs with
          | Err e => (closeList hs w, Err e)
          | Ok (idx, hs) => if negb (k_compat T k ty target) then (closeList hs w, Err FIncompatible)
                            else continue (set_off (set_cons i (u32 id)) (i16 idx), Some (MKfunc name weak ty)) hs w
          end
      end
  | x :: rest => match kfuncs k rest hs w with (w, Err e) => (w, Err e) | (w, Ok (r, hs)) => (w, Ok (x :: r, hs)) end
  end.
Definition prefixed (before : list insn) (r : world * res failure (list insn * list nat)) : world * res failure (list insn * list nat) :=
  match r with (w, Err e) => (w, Err e) | (w, Ok (l, hs)) => (w, Ok (before ++ l, hs)) end.
Lemma prefixed_snoc : forall before x r, prefixed (before ++ [x]) r = prefixed before (match r with (w, Err e) => (w, Err e) | (w, Ok (l, hs)) => (w, Ok (x :: l, hs)) end).
Proof. intros before x [w [[l hs]|e]]; cbn; [rewrite <- app_assoc|]; reflexivity. Qed.
Lemma last_default : forall A (l : list A) a b, l <> [] -> last l a = last l b.
Proof. induction l as [|x l IH]; intros a b H; [congruence|]. destruct l; [reflexivity|]. cbn. apply IH. discriminate. Qed.
Lemma kfuncLoop_eq : forall k after fuel before cur hs w,
  (List.length after + 2 <= fuel)%nat -> ~ isMissingAddress T k (last after cur) ->
  kfuncLoop T fuel k before cur after hs w = Some (prefixed before (kfuncs k (cur :: after) hs w)).
Proof.
  intros k. induction after as [|c r IH]; intros fuel before cur hs w Fu NM.
  - cbn [last] in NM. destruct fuel as [|[|fuel]]; [cbn in Fu; lia|cbn in Fu; lia|]. cbn [kfuncLoop kfuncs].
    destruct cur as [i [[a b|a b|name weak ty]|]]; try reflexivity.
    destruct (k_func T k name) as [id md t| |] eqn:V.
    + destruct md as [md|]; cbn; [destruct (_ =? _); [reflexivity|]|]; destruct (k_compat T k ty t); reflexivity.
    + destruct weak; [|reflexivity]. destruct (IsKfuncCall i) eqn:K; [reflexivity|]. destruct (IsDWordLoad (OpCode i)) eqn:D; [|reflexivity].
      exfalso. apply NM. cbn. auto.
    + reflexivity.
  - assert (G : forall fuel before x hs w, (List.length r + 2 <= fuel)%nat ->
      kfuncLoop T fuel k (before ++ [x]) c r hs w = Some (prefixed before (match kfuncs k (c :: r) hs w with (w, Err e) => (w, Err e) | (w, Ok (l, hs)) => (w, Ok (x :: l, hs)) end))).
    { intros. rewrite IH; auto; [rewrite prefixed_snoc; reflexivity|]. destruct r as [|d r]; [exact NM|].
      replace (last (d :: r) c) with (last (c :: d :: r) cur); [exact NM|]. cbn [last]. apply (last_default _ (d :: r)). discriminate. }
    cbn [List.length] in Fu. destruct fuel as [|fuel]; [lia|]. assert (Fu' : (List.length r + 2 <= fuel)%nat) by lia.
    remember (c :: r) as tl eqn:ET. cbn [kfuncLoop kfuncs]. subst tl.
    destruct cur as [i [[a b|a b|name weak ty]|]]; try (rewrite G by auto; reflexivity).
    destruct (k_func T k name) as [id md t| |] eqn:V.
    + destruct md as [md|]; cbn [addHandle open_]; [destruct (_ =? _); [reflexivity|]|]; destruct (k_compat T k ty t); try reflexivity; cbn [negb]; rewrite G by auto; reflexivity.
    + destruct weak; [|reflexivity]. destruct (IsKfuncCall i) eqn:K; [rewrite G by auto; reflexivity|]. destruct (IsDWordLoad (OpCode i)) eqn:D; [|reflexivity].
      rewrite G by auto. reflexivity.
    + reflexivity.
Qed.
Definition kfDone (k : kernel) (hs : list nat) (l : list (nat * option string)) (x y : insn) : Prop :=
  match snd x with
  | Some (MKfunc name weak ty) =>
      match k_func T k name with
      | Found id md t => k_compat T k ty t = true /\ exists idx, y = (set_off (set_cons (fst x) (u32 id)) (Z.of_nat idx), snd x) /\
          match md with None => idx = O | Some m => 0 < Z.of_nat idx <= 32767 /\ exists h, nth_error hs (idx - 1) = Some h /\ In (h, Some m) l end
      | Missing => weak = true /\ if IsKfuncCall (fst x) then y = (poison, None) else y = (set_src (set_cons (fst x) 0) 0, snd x)
      | Broken => False
      end
  | _ => y = x
  end.
Lemma i16_small : forall z, 0 <= z <= 32767 -> i16 z = z.
Proof. intros z H. unfold i16, sext. rewrite Z.mod_small by lia. destruct (Z.ltb_spec z (2 ^ (16 - 1))); lia. Qed.
Lemma kfuncs_ok : forall k insns hs w w' r hs', kfuncs k insns hs w = (w', Ok (r, hs')) -> Z.of_nat (List.length hs) <= 32767 ->
  exists new, more w w' new /\ hs' = hs ++ rev (map fst new) /\ Forall2 (kfDone k hs' (live w')) insns r.
Proof.
  intros k. induction insns as [|[i e] insns IH]; intros hs w w' r hs' H B; cbn in H.
  - injection H as <- <- <-. exists []. split; [apply more_refl|]. rewrite app_nil_r. split; [reflexivity|constructor].
  - destruct e as [[a b|a b|name weak ty]|].
    1,2,4: destruct (kfuncs k insns hs w) as [w1' [[r1 m1]|]] eqn:E; [|discriminate]; injection H as <- <- <-;
      destruct (IH _ _ _ _ _ E B) as (new & M & EM & F); exists new; split; [exact M|split; [exact EM|]]; constructor; [reflexivity|exact F].
    destruct (k_func T k name) as [id md t| |] eqn:V.
    + destruct md as [md|].
      * cbn in H. destruct (Z.eqb_spec (Z.of_nat (List.length hs)) 32767) as [Q|Q]; [discriminate|]. destruct (k_compat T k ty t) eqn:C; [|discriminate]. cbn [negb] in H.
        set (w1 := World (S (next w)) ((next w, Some md) :: live w)) in *.
        assert (M1 : more w w1 [(next w, Some md)]) by exact (more_open (Some md) w).
        destruct (kfuncs k insns (hs ++ [next w]) w1) as [w1' [[r1 m1]|]] eqn:E; [|discriminate]; injection H as <- <- <-.
        destruct (IH _ _ _ _ _ E ltac:(rewrite app_length; cbn; lia)) as (new & M & EM & F).
        exists (new ++ [(next w, Some md)]). split; [exact (more_trans _ _ _ _ _ M1 M)|]. split.
        { rewrite map_app, rev_app_distr. cbn. rewrite EM, <- app_assoc. reflexivity. }
        constructor; [|exact F]. unfold kfDone. cbn [fst snd]. rewrite V. split; [exact C|]. exists (S (List.length hs)).
        split; [do 2 f_equal; rewrite i16_small; lia|]. split; [lia|]. exists (next w). split.
        { rewrite EM, <- app_assoc, nth_error_app2 by lia. replace (S (List.length hs) - 1 - List.length hs)%nat with O by lia. reflexivity. }
        destruct M as (-> & _). apply in_or_app. right. left. reflexivity.
      * cbn in H. destruct (k_compat T k ty t) eqn:C; [|discriminate]. cbn [negb] in H.
        destruct (kfuncs k insns hs w) as [w1' [[r1 m1]|]] eqn:E; [|discriminate]; injection H as <- <- <-.
        destruct (IH _ _ _ _ _ E B) as (new & M & EM & F). exists new. split; [exact M|]. split; [exact EM|]. constructor; [|exact F].
        unfold kfDone. cbn [fst snd]. rewrite V. split; [exact C|]. exists O. auto.
    + destruct weak; [|discriminate]. destruct (IsKfuncCall i) eqn:K; [|destruct (IsDWordLoad (OpCode i)); [|discriminate]];
        (destruct (kfuncs k insns hs w) as [w1' [[r1 m1]|]] eqn:E; [|discriminate]; injection H as <- <- <-;
         destruct (IH _ _ _ _ _ E B) as (new & M & EM & F); exists new; split; [exact M|]; split; [exact EM|]; constructor; [|exact F];
         unfold kfDone; cbn [fst snd]; rewrite V, K; auto).
    + discriminate.
Qed.
Lemma kfuncs_err : forall k insns hs w w' e w0 l, kfuncs k insns hs w = (w', Err e) ->
  earlier w0 -> more w0 w l -> (forall n, In n hs <-> In n (map fst l)) ->
  Z.of_nat (List.length hs + List.length (filter (inModule T k) insns)) <= 32767 -> live w' = live w0.
Proof.
  intros k. induction insns as [|[i e] insns IH]; intros hs w w' er w0 l H EA M HS B; cbn in H; [discriminate|].
  assert (CL : forall er', (closeList hs w, Err er') = (w', Err er) :> world * res failure (list insn * list nat) -> live w' = live w0).
  { intros er' X. injection X as <- _. eapply close_more; eauto. }
  assert (NX : forall cur : insn, inModule T k (i, e) = false ->
    match kfuncs k insns hs w with (w, Err e) => (w, Err e) | (w, Ok (r, hs)) => (w, Ok (cur :: r, hs)) end = (w', Err er) -> live w' = live w0).
  { intros cur IM X. destruct (kfuncs k insns hs w) as [w1' [[r1 m1]|]] eqn:E; [discriminate|]. injection X as <- <-. eapply IH; eauto.
    cbn [filter] in B. rewrite IM in B. exact B. }
  destruct e as [[a b|a b|name weak ty]|]; try (eapply NX; [reflexivity|exact H]).
  destruct (k_func T k name) as [id md t| |] eqn:V.
  - destruct md as [md|].
    + assert (IM : inModule T k (i, Some (MKfunc name weak ty)) = true) by (unfold inModule; cbn; rewrite V; reflexivity).
      cbn [filter] in B. rewrite IM in B. cbn [List.length] in B.
      cbn in H. destruct (Z.eqb_spec (Z.of_nat (List.length hs)) 32767) as [Q|Q]; [lia|].
      set (w1 := World (S (next w)) ((next w, Some md) :: live w)) in *.
      assert (M1 : more w0 w1 ([(next w, Some md)] ++ l)) by (eapply more_trans; [exact M|exact (more_open (Some md) w)]).
      assert (HS1 : forall n, In n (hs ++ [next w]) <-> In n (map fst ([(next w, Some md)] ++ l))).
      { intro n. rewrite in_app_iff, HS. cbn. tauto. }
      destruct (k_compat T k ty t) eqn:C; cbn [negb] in H.
      * destruct (kfuncs k insns (hs ++ [next w]) w1) as [w1' [[r1 m1]|]] eqn:E; [discriminate|]; injection H as <- <-.
        eapply IH; eauto. rewrite app_length. cbn. lia.
      * injection H as <- _. eapply close_more; eauto.
    + cbn in H. destruct (k_compat T k ty t) eqn:C; cbn [negb] in H; [|eapply CL; exact H].
      eapply NX; [|exact H]. unfold inModule. cbn. rewrite V. reflexivity.
  - assert (IM : inModule T k (i, Some (MKfunc name weak ty)) = false) by (unfold inModule; cbn; rewrite V; reflexivity).
    destruct weak; [|eapply CL; exact H]. destruct (IsKfuncCall i); [eapply NX; [exact IM|exact H]|]. destruct (IsDWordLoad (OpCode i)); [eapply NX; [exact IM|exact H]|eapply CL; exact H].
  - eapply CL; exact H.
Qed.

(** ** Validation *)
Definition fv (k : kernel) (x y : insn) : Prop :=
  snd y = snd x /\ fst y = fixupProbeReadKernel T k (fst x) /\
  (IsLoadFromMap (fst x) = true -> Reference (fst x) <> EmptyString -> MapFD (fst x) <> None).
Lemma validate_ok : forall k insns r, fixupAndValidate T k insns = Ok r -> Forall2 (fv k) insns r.
Proof.
  intros k. induction insns as [|[i e] insns IH]; intros r H; cbn in H; [injection H as <-; constructor|].
  match type of H with (if ?c then _ else _) = _ => destruct c eqn:C; [discriminate|] end.
  destruct (fixupAndValidate T k insns) as [r1|] eqn:E; [|discriminate]. injection H as <-. constructor; [|auto].
  split; [reflexivity|]. split; [reflexivity|]. cbn [fst]. intros L R N. rewrite L, N in C. cbn in C.
  destruct (String.eqb_spec (Reference i) EmptyString); [contradiction|]. cbn in C. discriminate.
Qed.
Lemma validate_complete : forall k insns, (forall i e, In (i, e) insns -> (forall m o, e <> Some (MKconfig m o)) /\
    (IsLoadFromMap i = true -> Reference i <> EmptyString -> MapFD i <> None)) -> exists r, fixupAndValidate T k insns = Ok r.
Proof.
  intros k. induction insns as [|[i e] insns IH]; intros H; cbn; [eauto|].
  destruct IH as (r & E); [intros; apply H; right; auto|]. rewrite E. destruct (H i e) as [N V]; [left; reflexivity|].
  match goal with |- context [if ?c then _ else _] => destruct c eqn:C end; [|eauto]. exfalso.
  rewrite !andb_true_iff in C. destruct C as [[C1 C2] C3]. destruct (MapFD i) eqn:F; [discriminate|].
  apply V; auto. intro R. rewrite R in C2. cbn in C2. destruct e as [[m o| |]|]; try discriminate. apply (N m o eq_refl).
Qed.

Lemma last_cons : forall A (l : list A) c d, last l c = last (c :: l) d.
Proof. induction l as [|x l IH]; intros c d; [reflexivity|]. change (last (c :: x :: l) d) with (last (x :: l) d). apply last_default. discriminate. Qed.
Lemma isKfunc_all : forall insns : list insn, existsb (isKfunc T) insns = false -> forall x, In x insns -> isKfunc T x = false.
Proof. intros insns H x Hx. destruct (isKfunc T x) eqn:E; [|reflexivity]. assert (existsb (isKfunc T) insns = true) by (apply existsb_exists; eauto). congruence. Qed.
Lemma fixupKfuncs_ok : forall fuel k insns w w' r hs, (List.length insns + 1 <= fuel)%nat -> (insns <> [] -> ~ isMissingAddress T k (last insns (poison, None))) ->
  fixupKfuncs T fuel k insns w = Some (w', Ok (r, hs)) ->
  exists new, more w w' new /\ hs = rev (map fst new) /\ Forall2 (kfDone k hs (live w')) insns r.
Proof.
  intros fuel k insns w w' r hs Fu NM H. unfold fixupKfuncs in H. destruct (existsb (isKfunc T) insns) eqn:K; cbn [negb] in H.
  - destruct (k_btf T k); [|discriminate]. cbn [negb] in H. destruct insns as [|c insns]; [discriminate|].
    rewrite kfuncLoop_eq in H; [|clear - Fu; unfold Fixups.insn in *; cbn in Fu; lia|].
    + match type of H with Some (prefixed [] ?z) = _ => destruct z as [w1 [[r1 h1]|]] eqn:E end; [|discriminate]. cbn [prefixed app] in H. injection H as <- <- <-.
      assert (B0 : Z.of_nat (List.length (@nil nat)) <= 32767) by (cbn; lia). destruct (kfuncs_ok _ _ _ _ _ _ _ E B0) as (new & M & EM & F). exists new. auto.
    + specialize (NM ltac:(discriminate)). intro X. apply NM. refine (eq_ind _ (isMissingAddress T k) X _ _). apply last_cons.
  - injection H as <- <- <-. exists []. split; [apply more_refl|]. split; [reflexivity|].
    pose proof (isKfunc_all _ K) as N. clear - N. induction insns as [|x insns IH]; constructor; [|apply IH; intros; apply N; right; auto].
    specialize (N x (or_introl eq_refl)). unfold kfDone, isKfunc in *. destruct (snd x) as [[| |]|]; auto; discriminate.
Qed.
Lemma fixupKfuncs_err : forall fuel k insns w w' e, (List.length insns + 1 <= fuel)%nat -> (insns <> [] -> ~ isMissingAddress T k (last insns (poison, None))) ->
  fixupKfuncs T fuel k insns w = Some (w', Err e) -> earlier w -> Z.of_nat (List.length (filter (inModule T k) insns)) <= 32767 -> live w' = live w.
Proof.
  intros fuel k insns w w' e Fu NM H EA B. unfold fixupKfuncs in H. destruct (existsb (isKfunc T) insns) eqn:K; cbn [negb] in H; [|discriminate].
  destruct (k_btf T k); [|injection H as <- _; reflexivity]. cbn [negb] in H. destruct insns as [|c insns]; [discriminate|].
  rewrite kfuncLoop_eq in H; [|clear - Fu; unfold Fixups.insn in *; cbn in Fu; lia|].
  - match type of H with Some (prefixed [] ?z) = _ => destruct z as [w1 [[r1 h1]|]] eqn:E end; [discriminate|]. cbn [prefixed] in H. injection H as <- <-.
    eapply kfuncs_err; eauto; [apply more_refl|cbn; tauto].
  - specialize (NM ltac:(discriminate)). intro X. apply NM. refine (eq_ind _ (isMissingAddress T k) X _ _). apply last_cons.
Qed.
End Proof.
