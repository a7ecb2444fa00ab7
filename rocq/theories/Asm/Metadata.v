(** asm/metadata.go: instruction metadata, a linked list shared between copies of an instruction.

    The heap is the list of all allocated metaElements (an address is an index, allocation appends). A
    Metadata value is its head pointer; copying the value copies the pointer. Keys and values are Go
    interfaces with comparable dynamic types ([==] on an uncomparable value panics; that is not modelled);
    [None] is nil. *)
From Coq Require Import List Arith Lia.
Import ListNotations.

Section Metadata.
  Variables K V : Type.
  Variable keq : forall a b : K, {a = b} + {a <> b}.
  Variable veq : forall a b : V, {a = b} + {a <> b}.

  (** asm/metadata.go:4-11 *)
  Record elem := mkElem { next : option nat; key : K; value : V }.
  Definition heap := list elem.

  (** asm/metadata.go:16-23; outer [None]: dangling pointer or out of fuel *)
  Fixpoint find (fuel : nat) (h : heap) (e : option nat) (k : K) : option (option nat) :=
    match fuel with
    | O => None
    | S fuel' =>
      match e with
      | None => Some None
      | Some a => match nth_error h a with
                  | None => None
                  | Some c => if keq (key c) k then Some (Some a) else find fuel' h (next c) k
                  end
      end
    end.

  (** The variable [current] of remove points either at m.head or at the next field of a cell. *)
  Inductive loc := LHead | LNext (a : nat).
  Definition set_next (h : heap) (a : nat) (v : option nat) : heap :=
    match nth_error h a with
    | None => h
    | Some c => firstn a h ++ mkElem v (key c) (value c) :: skipn (S a) h
    end.
  Definition store (h : heap) (hd : option nat) (l : loc) (v : option nat) : heap * option nat :=
    match l with LHead => (h, v) | LNext a => (set_next h a v, hd) end.

  (** asm/metadata.go:29-46 *)
  Fixpoint remove (fuel : nat) (h : heap) (hd : option nat) (current : loc) (e : option nat) (r : nat)
    : option (heap * option nat) :=
    match fuel with
    | O => None
    | S fuel' =>
      match e with
      | None => Some (h, hd)
      | Some a =>
        match nth_error h a with
        | None => None
        | Some c =>
          if Nat.eqb a r then Some (store h hd current (next c))
          else let cpy := length h in
               let h1 := h ++ [mkElem None (key c) (value c)] in
               let '(h2, hd2) := store h1 hd current (Some cpy) in
               match nth_error h2 a with
               | None => None
               | Some c2 => remove fuel' h2 hd2 (LNext cpy) (next c2) r
               end
        end
      end
    end.

  (** Enough for every acyclic list; [Set_] and [Get] never run out of it (shown below). *)
  Definition fuel_of (h : heap) : nat := S (length h).

  (** asm/metadata.go:52-68 *)
  Definition Set_ (h : heap) (hd : option nat) (k : K) (v : option V) : option (heap * option nat) :=
    match find (fuel_of h) h hd k with
    | None => None
    | Some fe =>
      let removed :=
        match fe with
        | None => Some (Some (h, hd))
        | Some e =>
          match nth_error h e with
          | None => None
          | Some c =>
            if match v with Some v' => if veq (value c) v' then true else false | None => false end
            then Some None     (* return *)
            else match remove (fuel_of h) h hd LHead hd e with
                 | None => None
                 | Some x => Some (Some x)
                 end
          end
        end in
      match removed with
      | None => None
      | Some None => Some (h, hd)
      | Some (Some (h1, hd1)) =>
        match v with
        | None => Some (h1, hd1)
        | Some v' => Some (h1 ++ [mkElem hd1 k v'], Some (length h1))
        end
      end
    end.

  (** asm/metadata.go:73-78 *)
  Definition Get (h : heap) (hd : option nat) (k : K) : option (option V) :=
    match find (fuel_of h) h hd k with
    | None => None
    | Some None => Some None
    | Some (Some e) => match nth_error h e with None => None | Some c => Some (Some (value c)) end
    end.

  (** ** Histories: any number of Metadata variables, all initially the zero value. *)
  Inductive mop :=
  | OSet (x : nat) (k : K) (v : option V)      (* x.Set(k, v) *)
  | OCopy (x y : nat).                         (* x = y *)

  Definition upd {A} (f : nat -> A) (x : nat) (v : A) : nat -> A := fun y => if Nat.eqb y x then v else f y.

  Record mstate := mkSt { mheap : heap; mvar : nat -> option nat }.
  Definition minit : mstate := mkSt [] (fun _ => None).
  Definition mstep (s : mstate) (o : mop) : option mstate :=
    match o with
    | OSet x k v => match Set_ (mheap s) (mvar s x) k v with
                    | None => None
                    | Some (h, hd) => Some (mkSt h (upd (mvar s) x hd))
                    end
    | OCopy x y => Some (mkSt (mheap s) (upd (mvar s) x (mvar s y)))
    end.
  Fixpoint mrun (s : mstate) (os : list mop) : option mstate :=
    match os with
    | [] => Some s
    | o :: os' => match mstep s o with None => None | Some s' => mrun s' os' end
    end.

  (** ** Specification: each variable is a finite map, copies are independent values. *)
  Definition fmap := K -> option V.
  Definition fset (m : fmap) (k : K) (v : option V) : fmap := fun k' => if keq k' k then v else m k'.
  Definition spec_step (s : nat -> fmap) (o : mop) : nat -> fmap :=
    match o with
    | OSet x k v => upd s x (fset (s x) k v)
    | OCopy x y => upd s x (s y)
    end.
  Definition spec_run (os : list mop) : nat -> fmap := fold_left spec_step os (fun _ _ => None).

  (** ** Proof *)
  Inductive chain (h : heap) : option nat -> list (nat * K * V) -> Prop :=
  | chain_nil : chain h None []
  | chain_cons a c l : nth_error h a = Some c -> chain h (next c) l ->
                       chain h (Some a) ((a, key c, value c) :: l).

  Definition addrs (l : list (nat * K * V)) := map (fun x => fst (fst x)) l.
  Definition keys (l : list (nat * K * V)) := map (fun x => snd (fst x)) l.
  Fixpoint assoc (k : K) (l : list (nat * K * V)) : option V :=
    match l with
    | [] => None
    | (_, k', v) :: l' => if keq k k' then Some v else assoc k l'
    end.

  Lemma chain_det h e l l' : chain h e l -> chain h e l' -> l = l'.
  Proof.
    intros H; revert l'; induction H as [|a c l Ha H IH]; intros l' H'; inversion H'; subst; [reflexivity|].
    match goal with E : nth_error h a = Some ?c' |- _ => assert (c' = c) by congruence; subst end.
    f_equal. now apply IH.
  Qed.

  Lemma chain_suffix h e l a : chain h e l -> In a (addrs l) ->
    exists l', chain h (Some a) l' /\ length l' <= length l.
  Proof.
    induction 1 as [|b c l Hb H IH]; intros Hin; [destruct Hin|].
    destruct Hin as [<-|Hin].
    - exists ((b, key c, value c) :: l). split; [constructor; auto|cbn; lia].
    - destruct (IH Hin) as (l' & Hl & Hle). exists l'. split; [auto|cbn; lia].
  Qed.

  Lemma chain_NoDup h e l : chain h e l -> NoDup (addrs l).
  Proof.
    induction 1 as [|a c l Ha H IH]; cbn; constructor; [|exact IH].
    intros Hin. destruct (chain_suffix _ _ _ _ H Hin) as (l' & Hl & Hle).
    assert (Hc : chain h (Some a) ((a, key c, value c) :: l)) by (constructor; auto).
    pose proof (chain_det _ _ _ _ Hl Hc) as E. subst l'. cbn in Hle. lia.
  Qed.

  Lemma chain_addrs h e l : chain h e l -> Forall (fun a => a < length h) (addrs l).
  Proof.
    induction 1 as [|a c l Ha H IH]; cbn; constructor; [|exact IH].
    apply nth_error_Some. congruence.
  Qed.

  Lemma chain_length h e l : chain h e l -> length l <= length h.
  Proof.
    intros H. pose proof (chain_NoDup _ _ _ H) as N. pose proof (chain_addrs _ _ _ H) as F.
    replace (length l) with (length (addrs l)) by apply map_length.
    rewrite <- (seq_length (length h) 0). apply NoDup_incl_length; [exact N|].
    intros a Ha. apply in_seq. rewrite Forall_forall in F. specialize (F a Ha). lia.
  Qed.

  (** Cells below [length h] are the same in [h'] *)
  Definition extends (h h' : heap) : Prop := forall a, a < length h -> nth_error h' a = nth_error h a.

  Lemma extends_refl h : extends h h.
  Proof. intros a Ha. reflexivity. Qed.
  Lemma extends_app h l : extends h (h ++ l).
  Proof. intros a Ha. now apply nth_error_app1. Qed.

  Lemma chain_extends h h' e l : extends h h' -> chain h e l -> chain h' e l.
  Proof.
    intros He. induction 1 as [|a c l Ha H IH]; [constructor|].
    constructor; [|exact IH]. rewrite He; [exact Ha|]. apply nth_error_Some. congruence.
  Qed.

  Lemma set_next_length h a v : length (set_next h a v) = length h.
  Proof.
    unfold set_next. destruct (nth_error h a) eqn:E; [|reflexivity].
    assert (a < length h) by (apply nth_error_Some; congruence).
    rewrite app_length, firstn_length. change (length (mkElem v (key e) (value e) :: skipn (S a) h))
      with (S (length (skipn (S a) h))). rewrite skipn_length. lia.
  Qed.

  Lemma set_next_nth h a v b c : nth_error h a = Some c ->
    nth_error (set_next h a v) b = if Nat.eqb b a then Some (mkElem v (key c) (value c)) else nth_error h b.
  Proof.
    intros E. unfold set_next. rewrite E.
    assert (La : a < length h) by (apply nth_error_Some; congruence).
    assert (Lf : length (firstn a h) = a) by (rewrite firstn_length; lia).
    destruct (Nat.eqb_spec b a) as [->|N].
    - rewrite nth_error_app2 by lia. rewrite Lf, Nat.sub_diag. reflexivity.
    - destruct (Nat.lt_ge_cases b a).
      + rewrite nth_error_app1 by lia. rewrite <- (firstn_skipn a h) at 2. rewrite nth_error_app1 by lia. reflexivity.
      + rewrite nth_error_app2 by lia. rewrite Lf.
        destruct (b - a) as [|d] eqn:Ed; [lia|]. cbn [nth_error].
        rewrite <- (firstn_skipn (S a) h) at 2. rewrite nth_error_app2; rewrite firstn_length; [|lia].
        f_equal. lia.
  Qed.

  Lemma find_spec h e l k : chain h e l -> forall fuel, length l < fuel ->
    match find fuel h e k with
    | None => False
    | Some None => ~ In k (keys l)
    | Some (Some a) => exists l1 v l2, l = l1 ++ (a, k, v) :: l2 /\ ~ In k (keys l1)
    end.
  Proof.
    induction 1 as [|a c l Ha H IH]; intros fuel Hf; (destruct fuel; [cbn in Hf; lia|]); cbn [find].
    - cbn; auto.
    - rewrite Ha. cbn in Hf. destruct (keq (key c) k) as [Ek|Nk].
      + subst k. exists [], (value c), l. split; [reflexivity|]. cbn; auto.
      + specialize (IH fuel ltac:(lia)). destruct (find fuel h (next c) k) as [[b|]|]; [| |exact IH].
        * destruct IH as (l1 & v & l2 & -> & Hn). exists ((a, key c, value c) :: l1), v, l2.
          split; [reflexivity|]. cbn. intros [E|E]; contradiction.
        * cbn. intros [E|E]; contradiction.
  Qed.

  (** the remaining part of the new list: written through [cur] *)
  Definition kv (l : list (nat * K * V)) := map (fun x => (snd (fst x), snd x)) l.

  (** A partially built list: from [hd] it consists of cells of index >= n0 and ends in [cur], a cell with
      next = None (or it is empty and cur = LHead). *)
  Inductive partial (h : heap) (n0 : nat) : option nat -> loc -> list (K * V) -> Prop :=
  | partial_last a c : nth_error h a = Some c -> n0 <= a ->
      partial h n0 (Some a) (LNext a) [(key c, value c)]
  | partial_cons a c cur l : nth_error h a = Some c -> n0 <= a -> cur <> LNext a -> partial h n0 (next c) cur l ->
      partial h n0 (Some a) cur ((key c, value c) :: l).

  Lemma partial_cur h n0 hd cur l : partial h n0 hd cur l -> exists a, cur = LNext a /\ n0 <= a < length h.
  Proof.
    induction 1 as [a c Ha Hn|a c cur l Ha Hn Hc H IH]; [|exact IH].
    exists a. split; [reflexivity|]. split; [auto|]. apply nth_error_Some. congruence.
  Qed.

  Lemma partial_app h n0 hd cur l x : partial h n0 hd cur l -> partial (h ++ x) n0 hd cur l.
  Proof.
    induction 1 as [a c Ha Hn|a c cur l Ha Hn Hc H IH].
    - apply partial_last; [|auto]. rewrite nth_error_app1; [auto|]. apply nth_error_Some; congruence.
    - apply (partial_cons _ _ a c); auto. rewrite nth_error_app1; [auto|]. apply nth_error_Some; congruence.
  Qed.

  (** storing the tail finishes the list *)
  Lemma partial_finish h n0 hd a l v t :
    partial h n0 hd (LNext a) l -> chain h v t -> Forall (fun b => b < n0) (addrs t) ->
    exists l', chain (set_next h a v) hd l' /\ kv l' = l ++ kv t.
  Proof.
    intros H. remember (LNext a) as cur eqn:Ecur. revert Ecur.
    induction H as [b c Hb Hn|b c cur l Hb Hn Hc H IH]; intros Ecur Ht Hlt.
    - inversion Ecur; subst b. exists ((a, key c, value c) :: t). split; [|reflexivity].
      change (key c) with (key (mkElem v (key c) (value c))). change (value c) with (value (mkElem v (key c) (value c))) at 2.
      apply chain_cons; [rewrite (set_next_nth _ _ _ _ c Hb), Nat.eqb_refl; reflexivity|].
      cbn [next]. generalize v at 1. intros v'. clear -Ht Hlt Hb Hn. induction Ht as [|x d t Hx Ht IH]; [constructor|].
      cbn in Hlt. inversion Hlt; subst. apply chain_cons; [|apply IH; auto].
      rewrite (set_next_nth _ _ _ _ c Hb). destruct (Nat.eqb_spec x a); [lia|auto].
    - subst cur. destruct (IH eq_refl Ht Hlt) as (l' & Hl' & Ek).
      exists ((b, key c, value c) :: l'). split; [|change (kv ((b, key c, value c) :: l')) with ((key c, value c) :: kv l'); now rewrite Ek].
      destruct (partial_cur _ _ _ _ _ H) as (a' & E & Ha'). inversion E; subst a'.
      destruct (nth_error h a) as [ca|] eqn:Ea; [|apply nth_error_None in Ea; lia].
      apply chain_cons; [|exact Hl'].
      rewrite (set_next_nth _ _ _ _ ca Ea). destruct (Nat.eqb_spec b a); [congruence|auto].
  Qed.

  (** appending a copied cell *)
  Lemma partial_extend h n0 hd a l k v :
    partial h n0 hd (LNext a) l -> n0 <= length h ->
    partial (set_next (h ++ [mkElem None k v]) a (Some (length h))) n0 hd (LNext (length h)) (l ++ [(k, v)]).
  Proof.
    intros H Hn0. remember (LNext a) as cur eqn:Ecur. revert Ecur.
    set (new := mkElem None k v).
    assert (Hnew : forall ca, nth_error (h ++ [new]) a = Some ca -> a < length h ->
                   nth_error (set_next (h ++ [new]) a (Some (length h))) (length h) = Some new).
    { intros ca Eca La. rewrite (set_next_nth _ _ _ _ ca Eca). destruct (Nat.eqb_spec (length h) a); [lia|].
      rewrite nth_error_app2, Nat.sub_diag by lia. reflexivity. }
    induction H as [b c Hb Hn|b c cur l Hb Hn Hc H IH]; intros Ecur.
    - inversion Ecur; subst b. assert (La : a < length h) by (apply nth_error_Some; congruence).
      assert (Ea : nth_error (h ++ [new]) a = Some c) by (rewrite nth_error_app1; auto).
      change (key c) with (key (mkElem (Some (length h)) (key c) (value c))).
      change (value c) with (value (mkElem (Some (length h)) (key c) (value c))) at 2.
      cbn [app]. apply partial_cons.
      + rewrite (set_next_nth _ _ _ _ c Ea), Nat.eqb_refl. reflexivity.
      + auto.
      + intros E; inversion E; lia.
      + cbn [next]. apply (partial_last _ _ (length h) new); [eauto|auto].
    - subst cur. specialize (IH eq_refl).
      destruct (partial_cur _ _ _ _ _ H) as (a' & E & Ha'). inversion E; subst a'.
      destruct (nth_error h a) as [ca|] eqn:Ea; [|apply nth_error_None in Ea; lia].
      assert (Ea' : nth_error (h ++ [new]) a = Some ca) by (rewrite nth_error_app1; auto; lia).
      assert (Lb : b < length h) by (apply nth_error_Some; congruence).
      cbn [app]. apply partial_cons.
      + rewrite (set_next_nth _ _ _ _ ca Ea'). destruct (Nat.eqb_spec b a); [congruence|].
        rewrite nth_error_app1; auto.
      + auto.
      + intros E'; inversion E'; lia.
      + exact IH.
  Qed.

  Lemma kv_app a b : kv (a ++ b) = kv a ++ kv b.
  Proof. apply map_app. Qed.

  (** the loop of [remove], from any intermediate point *)
  Lemma remove_loop h0 r kr vr t2 :
    forall t1 h hd cur pre fuel e,
    chain h0 e (t1 ++ (r, kr, vr) :: t2) -> ~ In r (addrs t1) ->
    length h0 <= length h -> extends h0 h ->
    (cur = LHead /\ pre = [] \/ partial h (length h0) hd cur pre) ->
    length t1 < fuel ->
    exists h' hd' l', remove fuel h hd cur e r = Some (h', hd') /\ extends h0 h' /\
      length h0 <= length h' /\ chain h' hd' l' /\ kv l' = pre ++ kv t1 ++ kv t2.
  Proof.
    induction t1 as [|[[a ka] va] t1 IH]; intros h hd cur pre fuel e Hch Hnr Hlen Hext Hcur Hf;
      (destruct fuel; [lia|]); cbn [app] in Hch; inversion Hch as [|a0 c l0 Ha Hch']; subst; cbn [remove].
    - assert (Lr : r < length h0) by (apply nth_error_Some; congruence).
      rewrite (Hext r Lr), Ha, Nat.eqb_refl.
      assert (Ht2 : chain h (next c) t2) by (eapply chain_extends; eauto).
      pose proof (chain_addrs _ _ _ Hch') as Hlt.
      destruct Hcur as [(-> & ->)|Hp]; cbn [store].
      + exists h, (next c), t2. split; [reflexivity|]. repeat split; auto.
      + destruct (partial_cur _ _ _ _ _ Hp) as (b & -> & Hb).
        destruct (partial_finish _ _ _ _ _ (next c) t2 Hp Ht2 Hlt) as (l' & Hl' & Ek).
        destruct (nth_error h b) as [cb|] eqn:Eb; [|apply nth_error_None in Eb; lia].
        exists (set_next h b (next c)), hd, l'. split; [reflexivity|]. split; [|split; [|split]]; auto.
        * intros x Hx. rewrite (set_next_nth _ _ _ _ cb Eb). destruct (Nat.eqb_spec x b); [lia|]. now apply Hext.
        * rewrite set_next_length; auto.
    - assert (La : a < length h0) by (apply nth_error_Some; congruence).
      rewrite (Hext a La), Ha. destruct (Nat.eqb_spec a r) as [->|Nar].
      { exfalso. apply Hnr. left. reflexivity. }
      assert (Nth_new : nth_error (h ++ [mkElem None (key c) (value c)]) (length h) = Some (mkElem None (key c) (value c)))
        by (rewrite nth_error_app2, Nat.sub_diag by lia; reflexivity).
      assert (Hnr' : ~ In r (addrs t1)) by (intros C; apply Hnr; right; exact C).
      destruct Hcur as [(-> & ->)|Hp]; cbn [store].
      + rewrite nth_error_app1 by lia. rewrite (Hext a La), Ha.
        destruct (IH (h ++ [mkElem None (key c) (value c)]) (Some (length h)) (LNext (length h)) [(key c, value c)]
                     fuel (next c) Hch' Hnr') as (h' & hd' & l' & E & Hx & Hl & Hc & Ek).
        * rewrite app_length; lia.
        * intros x Hx. rewrite nth_error_app1 by lia. now apply Hext.
        * right. apply (partial_last _ _ (length h) (mkElem None (key c) (value c))); [exact Nth_new|lia].
        * cbn in Hf; lia.
        * exists h', hd', l'. split; [exact E|]. split; [auto|]. split; [auto|]. split; [auto|].
          rewrite Ek. reflexivity.
      + destruct (partial_cur _ _ _ _ _ Hp) as (b & -> & Hb).
        destruct (nth_error h b) as [cb|] eqn:Eb; [|apply nth_error_None in Eb; lia].
        assert (Eb' : nth_error (h ++ [mkElem None (key c) (value c)]) b = Some cb) by (rewrite nth_error_app1; auto; lia).
        cbn [store]. rewrite (set_next_nth _ _ _ _ cb Eb'). destruct (Nat.eqb_spec a b); [lia|].
        rewrite nth_error_app1 by lia. rewrite (Hext a La), Ha.
        destruct (IH (set_next (h ++ [mkElem None (key c) (value c)]) b (Some (length h))) hd (LNext (length h))
                     (pre ++ [(key c, value c)]) fuel (next c) Hch' Hnr') as (h' & hd' & l' & E & Hx & Hl & Hc & Ek).
        * rewrite set_next_length, app_length; lia.
        * intros x Hx. rewrite (set_next_nth _ _ _ _ cb Eb'). destruct (Nat.eqb_spec x b); [lia|].
          rewrite nth_error_app1 by lia. now apply Hext.
        * right. apply partial_extend; auto.
        * cbn in Hf; lia.
        * exists h', hd', l'. split; [exact E|]. split; [auto|]. split; [auto|]. split; [auto|].
          rewrite Ek. cbn. rewrite <- app_assoc. reflexivity.
  Qed.

  Definition good (h : heap) (hd : option nat) (m : fmap) : Prop :=
    exists l, chain h hd l /\ NoDup (keys l) /\ forall k, m k = assoc k l.

  Lemma assoc_kv k l l' : kv l = kv l' -> assoc k l = assoc k l'.
  Proof.
    revert l'; induction l as [|[[a ka] va] l IH]; intros [|[[b kb] vb] l'] H; try discriminate; [reflexivity|].
    cbn in *. inversion H; subst. destruct (keq k kb); [reflexivity|]. now apply IH.
  Qed.
  Lemma keys_kv l : keys l = map fst (kv l).
  Proof. unfold keys, kv. rewrite map_map. reflexivity. Qed.
  Lemma assoc_notin k l : ~ In k (keys l) -> assoc k l = None.
  Proof.
    induction l as [|[[a ka] va] l IH]; cbn; intros H; [reflexivity|].
    destruct (keq k ka) as [->|]; [exfalso; auto|auto].
  Qed.
  Lemma assoc_app k l1 l2 : assoc k (l1 ++ l2) = match assoc k l1 with Some v => Some v | None => assoc k l2 end.
  Proof. induction l1 as [|[[a ka] va] l1 IH]; cbn; [reflexivity|]. destruct (keq k ka); auto. Qed.

  Lemma Get_good h hd m k : good h hd m -> Get h hd k = Some (m k).
  Proof.
    intros (l & Hc & Hn & Hm). unfold Get, fuel_of.
    pose proof (chain_length _ _ _ Hc) as Hl.
    pose proof (find_spec h hd l k Hc (S (length h)) ltac:(lia)) as Hf.
    destruct (find _ _ _ _) as [[a|]|]; [| |contradiction].
    - destruct Hf as (l1 & v & l2 & -> & Hk). rewrite Hm.
      assert (Ha : exists c, nth_error h a = Some c /\ value c = v).
      { clear -Hc. revert Hc. revert hd. induction l1 as [|x l1 IH]; cbn; intros hd Hc; inversion Hc; subst; eauto. }
      destruct Ha as (c & -> & ->). rewrite assoc_app, (assoc_notin _ _ Hk). cbn.
      destruct (keq k k); [reflexivity|contradiction].
    - rewrite Hm, assoc_notin; auto.
  Qed.

  Lemma good_extends h h' hd m : extends h h' -> good h hd m -> good h' hd m.
  Proof. intros He (l & Hc & Hn & Hm). exists l. split; [eapply chain_extends; eauto|auto]. Qed.

  Lemma Set_good h hd m k v : good h hd m ->
    exists h' hd', Set_ h hd k v = Some (h', hd') /\ extends h h' /\ good h' hd' (fset m k v).
  Proof.
    intros (l & Hc & Hn & Hm). unfold Set_, fuel_of.
    pose proof (chain_length _ _ _ Hc) as Hl.
    pose proof (find_spec h hd l k Hc (S (length h)) ltac:(lia)) as Hf.
    (* the final allocation *)
    assert (Fin : forall h1 hd1 l1, extends h h1 -> length h <= length h1 -> chain h1 hd1 l1 -> NoDup (keys l1) ->
              ~ In k (keys l1) -> (forall k', k' <> k -> m k' = assoc k' l1) ->
              exists h' hd', match v with None => Some (h1, hd1)
                             | Some v' => Some (h1 ++ [mkElem hd1 k v'], Some (length h1)) end = Some (h', hd')
                             /\ extends h h' /\ good h' hd' (fset m k v)).
    { intros h1 hd1 l1 He1 Hl1 Hc1 Hn1 Hk1 Hm1. destruct v as [v|].
      - exists (h1 ++ [mkElem hd1 k v]), (Some (length h1)). split; [reflexivity|]. split.
        + intros x Hx. rewrite nth_error_app1 by lia. auto.
        + exists ((length h1, k, v) :: l1). split; [|split].
          * change k with (key (mkElem hd1 k v)) at 2. change v with (value (mkElem hd1 k v)) at 3.
            constructor; [rewrite nth_error_app2, Nat.sub_diag by lia; reflexivity|].
            eapply chain_extends; [apply extends_app|exact Hc1].
          * cbn. constructor; auto.
          * intros k'. unfold fset. cbn. destruct (keq k' k); [reflexivity|auto].
      - exists h1, hd1. split; [reflexivity|]. split; [auto|]. exists l1. split; [auto|]. split; [auto|].
        intros k'. unfold fset. destruct (keq k' k) as [->|]; [symmetry; now apply assoc_notin|auto]. }
    destruct (find _ _ _ _) as [[a|]|]; [| |contradiction].
    - destruct Hf as (l1 & v0 & l2 & -> & Hk).
      assert (Ha : exists c, nth_error h a = Some c /\ value c = v0).
      { clear -Hc. revert Hc. revert hd. induction l1 as [|x l1 IH]; cbn; intros hd Hc; inversion Hc; subst; eauto. }
      destruct Ha as (c & Hca & Hcv). rewrite Hca.
      assert (Hn2 : NoDup (keys (l1 ++ l2)) /\ ~ In k (keys (l1 ++ l2))).
      { unfold keys in Hn |- *. rewrite map_app in *. cbn in Hn.
        apply NoDup_remove in Hn. exact Hn. }
      destruct Hn2 as (Hn2 & Hk2).
      destruct (match v with Some v' => if veq (value c) v' then true else false | None => false end) eqn:Eq.
      + destruct v as [v|]; [|discriminate]. destruct (veq (value c) v) as [Ev|]; [|discriminate].
        exists h, hd. split; [reflexivity|]. split; [apply extends_refl|].
        exists (l1 ++ (a, k, v0) :: l2). split; [auto|]. split; [auto|].
        intros k'. unfold fset. destruct (keq k' k) as [->|]; [|auto].
        rewrite assoc_app, (assoc_notin _ _ Hk). cbn. destruct (keq k k); [congruence|contradiction].
      + assert (Hna : ~ In a (addrs l1)).
        { pose proof (chain_NoDup _ _ _ Hc) as N. unfold addrs in N |- *. rewrite map_app in N. cbn in N.
          apply NoDup_remove in N. intros C. apply N. apply in_or_app. left. exact C. }
        destruct (remove_loop h a k v0 l2 l1 h hd LHead [] (S (length h)) hd Hc Hna (le_n _) (extends_refl h)
                  (or_introl (conj eq_refl eq_refl))) as (h' & hd' & l' & E & He' & Hl' & Hc' & Ek).
        { rewrite app_length in Hl. lia. }
        rewrite E. cbn [app] in Ek.
        assert (Ek2 : kv l' = kv (l1 ++ l2)) by (rewrite Ek; symmetry; apply kv_app).
        apply (Fin h' hd' l'); auto.
        * rewrite keys_kv, Ek2, <- keys_kv. exact Hn2.
        * rewrite keys_kv, Ek2, <- keys_kv. exact Hk2.
        * intros k' Hne. rewrite Hm. rewrite (assoc_kv _ _ _ Ek2), !assoc_app. cbn.
          destruct (keq k' k); [contradiction|reflexivity].
    - apply (Fin h hd l); auto using extends_refl.
  Qed.

  Lemma mrun_good os : forall s ms, (forall x, good (mheap s) (mvar s x) (ms x)) ->
    exists s', mrun s os = Some s' /\ forall x, good (mheap s') (mvar s' x) (fold_left spec_step os ms x).
  Proof.
    induction os as [|o os IH]; intros s ms Hg; cbn [mrun fold_left]; [eauto|].
    destruct o as [x k v|x y]; cbn [mstep spec_step].
    - destruct (Set_good _ _ _ k v (Hg x)) as (h' & hd' & -> & He & Hgx).
      apply IH. intros y. cbn [mheap mvar]. unfold upd. destruct (Nat.eqb y x); [exact Hgx|].
      eapply good_extends; eauto.
    - apply IH. intros z. cbn [mheap mvar]. unfold upd. destruct (Nat.eqb z x); auto.
  Qed.

  (** After any history the implementation has not run out of fuel or dereferenced a bad pointer, and Get
      on every variable agrees with the map in the specification. *)
  Lemma metadata_refines os : exists s, mrun minit os = Some s /\
    forall x k, Get (mheap s) (mvar s x) k = Some (spec_run os x k).
  Proof.
    destruct (mrun_good os minit (fun _ _ => None)) as (s & E & Hg).
    - intros x. exists []. repeat split; constructor.
    - exists s. split; [exact E|]. intros x k. apply Get_good, Hg.
  Qed.
End Metadata.
