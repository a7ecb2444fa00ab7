(** C46: per-CPU values round trip. *)
From Coq Require Import ZArith List Lia Bool.
From Verif.Base Require Import GoInt.
From Verif.Internal Require Import Math MathProof.
From Verif.Maps Require Import PerCPU.
Import ListNotations.

(** ** Specification *)
(** the kernel's layout: one slot per CPU, each a multiple of 8 bytes *)
Definition slot (el : nat) : nat := ((el + 7) / 8 * 8)%nat.
Definition sub (buf : list Z) (off n : nat) : list Z := firstn n (skipn off buf).
(** the bytes CPU [i] sees in [buf] are [bs]'s [i]-th element, or zero if there is none *)
Definition percpu_layout (el ncpu : nat) (buf : list Z) (bs : list (list Z)) : Prop :=
  length buf = (ncpu * slot el)%nat /\
  forall i, (i < ncpu)%nat ->
    sub buf (i * slot el) el = nth i bs (repeat 0%Z el) /\
    sub buf (i * slot el + el) (slot el - el) = repeat 0%Z (slot el - el).

(** ** Proof *)
Definition small (el : nat) : Prop := (Z.of_nat el < 2 ^ 62)%Z.
Lemma stride_slot el : small el -> stride el = slot el.
Proof.
  intros H. unfold stride, slot. unfold small in H. change (2 ^ 62)%Z with 4611686018427387904%Z in H.
  assert (B : in_ity go_int64 (Z.of_nat el + 8)).
  { unfold in_ity, go_int64, in_s. cbn [signed width]. change (2 ^ (64 - 1))%Z with 9223372036854775808%Z. lia. }
  destruct (align_ok go_int64 (Z.of_nat el) 8) as ((q & D) & L & M); [unfold go_int; cbn; lia|lia|lia|exact B|].
  specialize (M (Z.of_nat ((el + 7) / 8 * 8)) ltac:(exists (Z.of_nat ((el + 7) / 8)); lia)).
  pose proof (Nat.div_mod (el + 7) 8 ltac:(lia)). pose proof (Nat.mod_upper_bound (el + 7) 8 ltac:(lia)).
  specialize (M ltac:(lia)). rewrite D in *.
  assert (Z.of_nat ((el + 7) / 8) <= q)%Z by lia. lia.
Qed.
Lemma skipn_skipn {A} (x y : nat) (l : list A) : skipn x (skipn y l) = skipn (x + y) l.
Proof. revert l. induction y as [|y IH]; intros l; [now rewrite Nat.add_0_r|]. rewrite <- plus_n_Sm. destruct l; [now rewrite !skipn_nil|]. cbn [skipn]. apply IH. Qed.
Lemma Forall2_length {A B} {R : A -> B -> Prop} {l m} : Forall2 R l m -> length l = length m.
Proof. induction 1; cbn; congruence. Qed.
Lemma slot_ge el : (el <= slot el)%nat.
Proof. unfold slot. pose proof (Nat.div_mod (el + 7) 8 ltac:(lia)). pose proof (Nat.mod_upper_bound (el + 7) 8 ltac:(lia)). lia. Qed.

Definition pad (el : nat) (b : list Z) : list Z := b ++ repeat 0%Z (slot el - el).
Lemma pad_length el b : length b = el -> length (pad el b) = slot el.
Proof. intros H. unfold pad. rewrite app_length, repeat_length. pose proof (slot_ge el). lia. Qed.
Lemma concat_pad_length el bs : Forall (fun b => length b = el) bs -> length (concat (map (pad el) bs)) = (length bs * slot el)%nat.
Proof. induction 1 as [|b bs H F IH]; [reflexivity|]. cbn [map concat]. rewrite app_length, IH, pad_length by assumption. cbn [length]. lia. Qed.
Lemma repeat_slots n el : repeat 0%Z (n * slot el) = concat (map (pad el) (repeat (repeat 0%Z el) n)).
Proof.
  induction n as [|n IH]; [reflexivity|]. cbn [repeat map concat]. rewrite <- IH. unfold pad. rewrite <- !repeat_app. f_equal.
  pose proof (slot_ge el). lia.
Qed.
Lemma skipn_concat_pad el bs i : Forall (fun b => length b = el) bs ->
  skipn (i * slot el) (concat (map (pad el) bs)) = concat (map (pad el) (skipn i bs)).
Proof.
  intros F. revert i. induction F as [|b bs H F IH]; intros i; [now rewrite !skipn_nil|].
  destruct i as [|i]; [reflexivity|]. cbn [map concat skipn]. cbn [Nat.mul].
  rewrite skipn_app, pad_length by assumption. rewrite skipn_all2 by (rewrite pad_length by assumption; lia).
  replace (slot el + i * slot el - slot el)%nat with (i * slot el)%nat by lia. cbn [app]. apply IH.
Qed.
Lemma nth_skipn_cons {A} (l : list A) i d : (i < length l)%nat -> exists r, skipn i l = nth i l d :: r.
Proof. revert i. induction l as [|a l IH]; intros i H; cbn in H; [lia|]. destruct i as [|i]; [exists l; reflexivity|]. cbn. apply IH. lia. Qed.
Lemma layout_concat el ncpu bs : Forall (fun b => length b = el) bs -> length bs = ncpu ->
  percpu_layout el ncpu (concat (map (pad el) bs)) bs.
Proof.
  intros F L. split; [rewrite concat_pad_length by assumption; lia|]. intros i Hi.
  destruct (nth_skipn_cons bs i (repeat 0%Z el)) as (r & E); [lia|].
  assert (Le : length (nth i bs (repeat 0%Z el)) = el) by (rewrite Forall_forall in F; apply F, nth_In; lia).
  unfold sub. split.
  - rewrite skipn_concat_pad, E by assumption. cbn [map concat]. unfold pad at 1. rewrite <- app_assoc, firstn_app, Le, Nat.sub_diag. cbn [firstn].
    rewrite app_nil_r. apply firstn_all2. lia.
  - replace (i * slot el + el)%nat with (el + i * slot el)%nat by lia. rewrite <- skipn_skipn, skipn_concat_pad, E by assumption. cbn [map concat].
    unfold pad at 1. rewrite <- app_assoc, skipn_app, Le, Nat.sub_diag. cbn [skipn]. rewrite skipn_all2 by lia. cbn [app].
    rewrite firstn_app, repeat_length, Nat.sub_diag. cbn [firstn]. rewrite app_nil_r. apply firstn_all2. rewrite repeat_length. lia.
Qed.

Section C46.
  Variable V : Type.
  Variable enc : V -> option (list Z).
  Variable dec : list Z -> option V.

  (** value [v] marshals to exactly [el] bytes [b] *)
  Definition encodes (el : nat) (v : V) (b : list Z) : Prop := enc v = Some b /\ length b = el.

  Lemma Marshal_encodes v el b : Marshal V enc v el = Ok b <-> encodes el v b.
  Proof.
    unfold Marshal, encodes. destruct (enc v) as [x|]; [|split; [discriminate|intros (E & _); discriminate]].
    destruct (Nat.eqb_spec (length x) el); (split; [intros E; inversion E; subst; auto|intros (E & L); inversion E; subst; congruence]).
  Qed.
  Lemma appendElems_spec buf slice el r : small el ->
    appendElems V enc buf slice el (stride el) = Ok r <->
    exists bs, Forall2 (encodes el) slice bs /\ r = buf ++ concat (map (pad el) bs).
  Proof.
    intros S. revert buf. induction slice as [|v slice IH]; intros buf; cbn [appendElems].
    - split; [intros E; inversion E; exists []; split; [constructor|now rewrite app_nil_r]|].
      intros (bs & F & ->). inversion F; subst. cbn. now rewrite app_nil_r.
    - destruct (Marshal V enc v el) as [b|e] eqn:M.
      + apply Marshal_encodes in M. rewrite IH. rewrite stride_slot by assumption. split.
        * intros (bs & F & ->). exists (b :: bs). split; [constructor; assumption|]. cbn [map concat]. unfold pad at 2. now rewrite !app_assoc.
        * intros (bs & F & ->). inversion F as [|? b' ? bs' (E1 & E2) F']; subst. destruct M as (M1 & M2).
          assert (b' = b) by congruence. subst b'. exists bs'. split; [assumption|]. cbn [map concat]. unfold pad at 1. now rewrite !app_assoc.
      + split; [discriminate|]. intros (bs & F & _). inversion F; subst. assert (M' : Marshal V enc v el = Ok y) by now apply Marshal_encodes. congruence.
  Qed.
  Lemma encodes_length el vs bs : Forall2 (encodes el) vs bs -> Forall (fun b => length b = el) bs.
  Proof. induction 1 as [|v b vs bs (_ & L) F IH]; constructor; assumption. Qed.
  Lemma appendPerCPU_spec buf slice ncpu el r : small el ->
    appendPerCPUSlice V enc buf slice ncpu el (stride el) = Ok r <->
    (length slice <= ncpu)%nat /\
    exists bs, Forall2 (encodes el) slice bs /\
      r = buf ++ concat (map (pad el) (bs ++ repeat (repeat 0%Z el) (ncpu - length slice))).
  Proof.
    intros S. unfold appendPerCPUSlice. destruct (Nat.leb_spec (length slice) ncpu) as [L|L]; [|].
    - replace (ncpu <? length slice)%nat with false by (symmetry; apply Nat.ltb_ge; assumption).
      destruct (appendElems V enc buf slice el (stride el)) as [b|e] eqn:E.
      + apply appendElems_spec in E; [|assumption]. destruct E as (bs & F & ->). split.
        * intros X. inversion X; subst. split; [assumption|]. exists bs. split; [assumption|].
          rewrite map_app, concat_app, <- repeat_slots, app_assoc, stride_slot by assumption. reflexivity.
        * intros (_ & bs' & F' & ->).
          assert (bs' = bs). { clear -F F'. revert bs' F'. induction F as [|v b vs bs (E & _) F IH]; intros bs' F'; inversion F' as [|? b' ? bs'' (E' & _) F'']; subst; [reflexivity|].
            rewrite (IH _ F''). congruence. }
          subst. rewrite map_app, concat_app, <- repeat_slots, app_assoc, stride_slot by assumption. reflexivity.
      + split; [discriminate|]. intros (_ & bs & F & _).
        assert (X : appendElems V enc buf slice el (stride el) = Ok (buf ++ concat (map (pad el) bs))) by (apply appendElems_spec; [assumption|eauto]). congruence.
    - replace (ncpu <? length slice)%nat with true by (symmetry; apply Nat.ltb_lt; assumption). split; [discriminate|lia].
  Qed.

  (** Marshaling succeeds exactly if there are at most as many values as CPUs and each marshals to the element
      size; the buffer then has the kernel's layout: CPU i's slot holds the i-th value, missing values are zero. *)
  Theorem C46_marshal : forall ncpu el vs, small el ->
    ((exists buf, marshalPerCPUValue V enc ncpu vs el = Ok buf) <->
       (length vs <= ncpu)%nat /\ Forall (fun v => exists b, encodes el v b) vs) /\
    (forall buf, marshalPerCPUValue V enc ncpu vs el = Ok buf ->
       exists bs, Forall2 (encodes el) vs bs /\ percpu_layout el ncpu buf bs).
  Proof.
    intros ncpu el vs S. unfold marshalPerCPUValue. split.
    - split.
      + intros (buf & E). apply appendPerCPU_spec in E; [|assumption]. destruct E as (L & bs & F & _). split; [assumption|].
        induction F; constructor; eauto. apply IHF. cbn in L. lia.
      + intros (L & F). assert (F2 : exists bs, Forall2 (encodes el) vs bs).
        { clear L. induction F as [|v vs (b & E) F (bs & IH)]; [exists []; constructor|exists (b :: bs); constructor; assumption]. }
        destruct F2 as (bs & F2). eexists. apply appendPerCPU_spec; [assumption|]. split; [assumption|]. exists bs. split; [assumption|reflexivity].
    - intros buf E. apply appendPerCPU_spec in E; [|assumption]. destruct E as (L & bs & F & ->). exists bs. split; [assumption|]. cbn [app].
      pose proof (Forall2_length F) as Lb.
      assert (FF : Forall (fun b => length b = el) (bs ++ repeat (repeat 0%Z el) (ncpu - length vs))).
      { apply Forall_app. split; [eapply encodes_length; eassumption|]. apply Forall_forall. intros x Hx. apply repeat_spec in Hx. subst. apply repeat_length. }
      destruct (layout_concat el ncpu _ FF) as (P1 & P2); [rewrite app_length, repeat_length; lia|].
      split; [exact P1|]. intros i Hi. destruct (P2 i Hi) as (Q1 & Q2). split; [|exact Q2]. rewrite Q1.
      destruct (Nat.lt_ge_cases i (length bs)); [now apply app_nth1|].
      rewrite app_nth2, nth_repeat by assumption. symmetry. apply nth_overflow. assumption.
  Qed.

  Lemma unmarshalElems_spec n el buf : small el -> length buf = (n * slot el)%nat ->
    exists r, unmarshalElems V dec n el buf = Some r /\
    forall vs, r = Ok vs <-> length vs = n /\ forall i, (i < n)%nat -> dec (sub buf (i * slot el) el) = nth_error vs i.
  Proof.
    intros S. pose proof (slot_ge el) as G. revert buf. induction n as [|n IH]; intros buf L; cbn [unmarshalElems].
    - eexists. split; [reflexivity|]. intros vs. split; [intros E; inversion E; subst; split; [reflexivity|lia]|].
      intros (E & _). destruct vs; [reflexivity|discriminate].
    - rewrite stride_slot by assumption. cbn [Nat.mul] in L.
      destruct (Nat.ltb_spec (length buf) el); [lia|]. destruct (Nat.ltb_spec (length buf) (slot el)); [lia|].
      assert (S0 : sub buf (0 * slot el) el = firstn el buf) by reflexivity.
      assert (Si : forall i, sub buf (Datatypes.S i * slot el) el = sub (skipn (slot el) buf) (i * slot el) el).
      { intros i. unfold sub. rewrite skipn_skipn. do 2 f_equal. lia. }
      destruct (dec (firstn el buf)) as [v|] eqn:D.
      + destruct (IH (skipn (slot el) buf)) as (r & E & Hr); [rewrite skipn_length; lia|]. rewrite E.
        destruct r as [ws|e].
        * eexists. split; [reflexivity|]. destruct (Hr ws) as (Hw & _). destruct (Hw eq_refl) as (Lw & Dw). intros vs. split.
          -- intros X. inversion X; subst. split; [cbn; lia|]. intros [|i] Hi; [rewrite S0; exact D|]. rewrite Si. cbn. apply Dw. lia.
          -- intros (Lv & Dv). destruct vs as [|v' vs]; [discriminate|]. pose proof (Dv 0%nat ltac:(lia)) as D0. rewrite S0, D in D0. inversion D0; subst.
             assert (X : @Ok merr (list V) ws = Ok vs). { apply (Hr vs). split; [cbn in Lv; lia|]. intros i Hi. specialize (Dv (Datatypes.S i) ltac:(lia)). rewrite Si in Dv. exact Dv. }
             inversion X; subst. reflexivity.
        * eexists. split; [reflexivity|]. intros vs. split; [discriminate|]. intros (Lv & Dv). destruct vs as [|v' vs]; [discriminate|]. exfalso.
          assert (X : @Err merr (list V) e = Ok vs). { apply (Hr vs). split; [cbn in Lv; lia|]. intros i Hi. specialize (Dv (Datatypes.S i) ltac:(lia)). rewrite Si in Dv. exact Dv. }
          discriminate X.
      + eexists. split; [reflexivity|]. intros vs. split; [discriminate|]. intros (Lv & Dv). specialize (Dv 0%nat ltac:(lia)). rewrite S0, D in Dv.
        destruct vs; [discriminate Lv|discriminate Dv].
  Qed.

  (** Unmarshaling a buffer of the right size does not panic, and returns for each CPU the decoding of its slot. *)
  Theorem C46_unmarshal : forall ncpu el buf, small el -> length buf = (ncpu * slot el)%nat ->
    (forall n, n <> ncpu -> unmarshalPerCPUValue V dec ncpu n el buf = Some (Err WrongLength)) /\
    exists r, unmarshalPerCPUValue V dec ncpu ncpu el buf = Some r /\
    forall vs, r = Ok vs <-> length vs = ncpu /\ forall i, (i < ncpu)%nat -> dec (sub buf (i * slot el) el) = nth_error vs i.
  Proof.
    intros ncpu el buf S L. split.
    - intros n Hn. unfold unmarshalPerCPUValue. destruct (Nat.eqb_spec n ncpu); [contradiction|reflexivity].
    - unfold unmarshalPerCPUValue. rewrite Nat.eqb_refl. cbn [negb]. now apply unmarshalElems_spec.
  Qed.

  (** Round trip: the values come back, CPUs without a value read as the zero value [z]. *)
  Theorem C46_round_trip : forall ncpu el vs z buf, small el ->
    (forall v b, enc v = Some b -> dec b = Some v) -> dec (repeat 0%Z el) = Some z ->
    marshalPerCPUValue V enc ncpu vs el = Ok buf ->
    unmarshalPerCPUValue V dec ncpu ncpu el buf = Some (Ok (vs ++ repeat z (ncpu - length vs))).
  Proof.
    intros ncpu el vs z buf S ED Z0 M. destruct (C46_marshal ncpu el vs S) as (I & H).
    assert (L : (length vs <= ncpu)%nat) by (apply I; eauto). destruct (H buf M) as (bs & F & P1 & P2).
    destruct (C46_unmarshal ncpu el buf S P1) as (_ & r & -> & R). f_equal. apply R.
    split; [rewrite app_length, repeat_length; lia|]. intros i Hi. destruct (P2 i Hi) as (-> & _). pose proof (Forall2_length F) as Lb.
    destruct (Nat.lt_ge_cases i (length vs)) as [Lt|Ge].
    - rewrite nth_error_app1 by assumption. clear -F Lt ED. revert i Lt. induction F as [|v b vs bs (E & _) F IH]; intros i Lt; [cbn in Lt; lia|].
      destruct i as [|i]; [cbn; now apply ED|]. cbn. apply IH. cbn in Lt. lia.
    - rewrite nth_overflow by lia. rewrite Z0, nth_error_app2 by assumption. symmetry. apply nth_error_repeat. lia.
  Qed.

  Lemma marshalBatches_spec b buf slice ncpu el r : small el -> length slice = (b * ncpu)%nat ->
    marshalBatches V enc buf b slice ncpu el = Ok r ->
    exists parts, length parts = b /\ r = buf ++ concat parts /\
      forall k, (k < b)%nat -> marshalPerCPUValue V enc ncpu (firstn ncpu (skipn (k * ncpu) slice)) el = Ok (nth k parts []).
  Proof.
    intros S. revert buf slice r. induction b as [|b IH]; intros buf slice r L E; cbn [marshalBatches] in E.
    - inversion E; subst. exists []. repeat split; [now rewrite app_nil_r|lia].
    - destruct (appendPerCPUSlice V enc buf (firstn ncpu slice) ncpu el (stride el)) as [b1|e] eqn:A; [|discriminate].
      apply appendPerCPU_spec in A; [|assumption]. destruct A as (La & bs & F & ->).
      apply IH in E; [|rewrite skipn_length; cbn in L; lia]. destruct E as (parts & Lp & -> & Hp).
      set (x := concat (map (pad el) (bs ++ repeat (repeat 0%Z el) (ncpu - length (firstn ncpu slice))))).
      exists (x :: parts). repeat split; [cbn; lia|cbn [concat]; now rewrite app_assoc|].
      intros [|k] Hk; cbn [nth].
      + cbn [Nat.mul skipn]. unfold marshalPerCPUValue. apply appendPerCPU_spec; [assumption|]. split; [assumption|]. exists bs. split; [assumption|reflexivity].
      + specialize (Hp k ltac:(lia)). rewrite skipn_skipn in Hp. replace (Datatypes.S k * ncpu)%nat with (k * ncpu + ncpu)%nat by (cbn; lia). exact Hp.
  Qed.
  (** A batch is the concatenation of its values, each marshaled on its own. *)
  Theorem C46_batch : forall ncpu el batch vs buf, small el ->
    marshalBatchPerCPUValue V enc ncpu vs batch el = Ok buf ->
    length vs = (batch * ncpu)%nat /\
    exists parts, length parts = batch /\ buf = concat parts /\
      forall k, (k < batch)%nat -> marshalPerCPUValue V enc ncpu (firstn ncpu (skipn (k * ncpu) vs)) el = Ok (nth k parts []).
  Proof.
    intros ncpu el batch vs buf S E. unfold marshalBatchPerCPUValue in E. destruct (Nat.eqb_spec (length vs) (batch * ncpu)) as [L|]; [|discriminate]. cbn [negb] in E.
    split; [assumption|]. apply marshalBatches_spec in E; [|assumption|assumption]. destruct E as (parts & A & B & C). exists parts. auto.
  Qed.

  Lemma round_trip_full ncpu el vs buf : small el -> (forall v b, enc v = Some b -> dec b = Some v) -> length vs = ncpu ->
    marshalPerCPUValue V enc ncpu vs el = Ok buf ->
    length buf = (ncpu * slot el)%nat /\ unmarshalPerCPUValue V dec ncpu ncpu el buf = Some (Ok vs).
  Proof.
    intros S ED L M. destruct (C46_marshal ncpu el vs S) as (I & H). destruct (H buf M) as (bs & F & P1 & P2). split; [assumption|].
    destruct (C46_unmarshal ncpu el buf S P1) as (_ & r & -> & R). f_equal. apply R. split; [assumption|]. intros i Hi. destruct (P2 i Hi) as (-> & _).
    assert (Lt : (i < length vs)%nat) by lia. clear -F Lt ED. revert i Lt. induction F as [|v b vs bs (E & _) F IH]; intros i Lt; [cbn in Lt; lia|].
    destruct i as [|i]; [cbn; now apply ED|]. cbn. apply IH. cbn in Lt. lia.
  Qed.
  (** Batches round trip. *)
  Theorem C46_batch_round_trip : forall ncpu el batch vs buf, small el -> (forall v b, enc v = Some b -> dec b = Some v) ->
    marshalBatchPerCPUValue V enc ncpu vs batch el = Ok buf ->
    unmarshalBatchPerCPUValue V dec ncpu (length vs) batch el buf = Some (Ok vs).
  Proof.
    intros ncpu el batch vs buf S ED M. apply C46_batch in M; [|assumption]. destruct M as (L & parts & Lp & -> & Hp).
    assert (Each : forall k, (k < batch)%nat -> length (nth k parts []) = (ncpu * slot el)%nat /\
      unmarshalPerCPUValue V dec ncpu ncpu el (nth k parts []) = Some (Ok (firstn ncpu (skipn (k * ncpu) vs)))).
    { intros k Hk. apply round_trip_full; [assumption|assumption| |now apply Hp]. rewrite firstn_length, skipn_length, L. nia. }
    unfold unmarshalBatchPerCPUValue. rewrite L, Nat.eqb_refl. cbn [negb]. rewrite stride_slot by assumption. clear Hp.
    revert vs parts L Lp Each. induction batch as [|b IH]; intros vs parts L Lp Each.
    - destruct parts; [|discriminate]. destruct vs; [|discriminate]. reflexivity.
    - destruct parts as [|x parts]; [discriminate|].
      destruct (Each 0%nat ltac:(lia)) as (Lx & Ux). cbn [nth Nat.mul skipn] in Lx, Ux.
      specialize (IH (skipn ncpu vs) parts ltac:(rewrite skipn_length; cbn in L; lia) ltac:(cbn in Lp; lia)).
      specialize (IH ltac:(intros k Hk; destruct (Each (Datatypes.S k) ltac:(lia)) as (A & B); cbn [nth] in A, B; split; [exact A|]; rewrite B, skipn_skipn; do 4 f_equal; cbn; lia)).
      destruct (Nat.eqb_spec (length (concat parts)) (b * (ncpu * slot el))) as [Lc|]; [|discriminate IH]. cbn [negb] in IH.
      cbn [concat]. rewrite app_length, Lx, Lc. cbn [Nat.mul]. rewrite Nat.eqb_refl. cbn [negb unmarshalBatches]. rewrite stride_slot by assumption.
      destruct (Nat.ltb_spec (length (x ++ concat parts)) (ncpu * slot el)) as [G|_]; [rewrite app_length in G; lia|].
      rewrite firstn_app, Lx, Nat.sub_diag. cbn [firstn]. rewrite app_nil_r, firstn_all2 by lia. rewrite Ux.
      rewrite skipn_app, Lx, Nat.sub_diag, skipn_all2 by lia. cbn [app skipn]. rewrite IH. now rewrite firstn_skipn.
  Qed.
End C46.

(** uint32 values on a little endian machine, three CPUs, two of which have a value *)
Example C46_example :
  let enc v := Some (put LE 4 v) in let dec b := Some (get LE b) in
  marshalPerCPUValue Z enc 3 [1; 258]%Z 4 = Ok [1;0;0;0;0;0;0;0; 2;1;0;0;0;0;0;0; 0;0;0;0;0;0;0;0]%Z /\
  unmarshalPerCPUValue Z dec 3 3 4 [1;0;0;0;0;0;0;0; 2;1;0;0;0;0;0;0; 0;0;0;0;0;0;0;0]%Z = Some (Ok [1; 258; 0]%Z) /\
  marshalPerCPUValue Z enc 1 [1; 258]%Z 4 = Err TooManyCPUs /\ small 4 /\
  marshalBatchPerCPUValue Z enc 1 [1; 258]%Z 2 4 = Ok [1;0;0;0;0;0;0;0; 2;1;0;0;0;0;0;0]%Z.
Proof. cbv zeta. repeat split. Qed.
