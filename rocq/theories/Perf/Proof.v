From Coq Require Import ZArith List Lia Bool.
From Verif.Base Require Import GoInt.
From Verif.Perf Require Import Spec Model.
From Verif.Ringbuf Require Proof.
Import ListNotations.
Open Scope Z_scope.

Lemma mask_pos k p : 0 <= k <= 63 -> Z.land (u64 p) (2 ^ k - 1) = p mod 2 ^ k.
Proof. exact (Ringbuf.Proof.mask_pos k p). Qed.
Lemma u64_small x : 0 <= x < 2 ^ 64 -> u64 x = x.
Proof. exact (Ringbuf.Proof.u64_small x). Qed.
Lemma u64_sub a b : u64 (u64 a - u64 b) = u64 (a - b).
Proof. exact (Ringbuf.Proof.u64_sub a b). Qed.
Lemma u64_add_l a b : u64 (u64 a + b) = u64 (a + b).
Proof. exact (Ringbuf.Proof.u64_add_l a b). Qed.
Lemma i64_small x : 0 <= x < 2 ^ 63 -> i64 x = x.
Proof. exact (Ringbuf.Proof.i64_small x). Qed.

Lemma stream_length sz mem p n : length (stream sz mem p n) = Z.to_nat n.
Proof. unfold stream. rewrite map_length, seq_length. reflexivity. Qed.

Lemma seq_add a b s : seq s (a + b) = seq s a ++ map (fun i => (a + i)%nat) (seq s b).
Proof.
  rewrite seq_app. f_equal. replace (s + a)%nat with (a + s)%nat by lia.
  revert s. induction b as [|b IH]; intros s; [reflexivity|]. cbn. f_equal.
  rewrite <- IH. f_equal. lia.
Qed.

Lemma stream_split sz mem p a b : 0 <= a -> 0 <= b ->
  stream sz mem p (a + b) = stream sz mem p a ++ stream sz mem (p + a) b.
Proof.
  intros Ha Hb. unfold stream. rewrite Z2Nat.inj_add, seq_add, map_app by lia. f_equal.
  rewrite map_map. apply map_ext. intros i. f_equal. f_equal. lia.
Qed.

(** the bytes before the wrap are contiguous *)
Lemma slice_stream sz mem p n : 0 < sz -> 0 <= n <= sz - p mod sz ->
  mem_slice mem (p mod sz) n = stream sz mem p n.
Proof.
  intros Hs Hn. unfold mem_slice, stream. apply map_ext_in. intros i Hi. apply in_seq in Hi.
  f_equal. rewrite <- Zplus_mod_idemp_l. symmetry. apply Z.mod_small.
  pose proof (Z.mod_pos_bound p sz Hs). lia.
Qed.

(** Abstract view of a reader: position and limit as unbounded integers. *)
Definition view (r : rdr) (sz : Z) (mem : Z -> Z) (p e : Z) : Prop :=
  match r with
  | Fwd f => f_size f = sz /\ f_mem f = mem /\ f_tail f = u64 p /\ f_head f = u64 e
  | Rev v => v_size v = sz /\ v_mem v = mem /\ v_read v = u64 p /\ v_tail v = u64 e
  end.
(** same kind, same shared words *)
Definition same_shared (r r' : rdr) : Prop :=
  match r, r' with
  | Fwd f, Fwd f' => f_mhead f' = f_mhead f /\ f_mtail f' = f_mtail f /\ f_head f' = f_head f
  | Rev v, Rev v' => v_mhead v' = v_mhead v /\ v_head v' = v_head v /\ v_tail v' = v_tail v
  | _, _ => False
  end.
Lemma same_refl r : same_shared r r.
Proof. destruct r; cbn; auto. Qed.
Lemma same_trans a b c : same_shared a b -> same_shared b c -> same_shared a c.
Proof. destruct a, b, c; cbn; try contradiction; intuition congruence. Qed.

Definition chunk (sz p e n : Z) : Z := Z.min (Z.min n (sz - p mod sz)) (e - p).

Lemma eof_iff p e n sz : 0 <= e - p <= sz -> sz <= 2 ^ 61 -> 0 <= n <= e - p ->
  (u64 (p + n) =? u64 e) = (n =? e - p).
Proof.
  intros H Hs Hn. change (2 ^ 61) with 2305843009213693952 in Hs.
  destruct (Z.eqb_spec n (e - p)) as [->|N].
  - replace (p + (e - p)) with e by lia. apply Z.eqb_refl.
  - apply Z.eqb_neq. intros E.
    assert (E0 : u64 (u64 e - u64 (p + n)) = 0) by (rewrite E, Z.sub_diag; reflexivity).
    rewrite u64_sub, u64_small in E0; [lia|]. change (2 ^ 64) with 18446744073709551616. lia.
Qed.

Lemma Read_ok k r mem p e n : 3 <= k <= 61 -> view r (2 ^ k) mem p e ->
  0 <= e - p <= 2 ^ k -> 0 <= n ->
  exists r', Read r n = Some (stream (2 ^ k) mem p (chunk (2 ^ k) p e n), chunk (2 ^ k) p e n =? e - p, r') /\
    view r' (2 ^ k) mem (p + chunk (2 ^ k) p e n) e /\ same_shared r r'.
Proof.
  intros Hk Hv He Hn.
  assert (B : 2 ^ k <= 2 ^ 61) by (apply Z.pow_le_mono_r; lia).
  assert (B0 : 0 < 2 ^ k) by (apply pow2_pos; lia).
  pose proof (Z.mod_pos_bound p (2 ^ k) B0) as Hm.
  assert (Hc : 0 <= chunk (2 ^ k) p e n <= e - p) by (unfold chunk; lia).
  assert (Hc2 : chunk (2 ^ k) p e n <= 2 ^ k - p mod 2 ^ k) by (unfold chunk; lia).
  assert (Hrem : i64 (u64 (u64 e - u64 p)) = e - p).
  { change (2 ^ 61) with 2305843009213693952 in B. rewrite u64_sub.
    rewrite u64_small by (change (2 ^ 64) with 18446744073709551616; lia).
    apply i64_small. change (2 ^ 63) with 9223372036854775808. lia. }
  assert (Hn2 : forall a b, (if (if n >? a then a else n) >? b then b else (if n >? a then a else n)) = Z.min (Z.min n a) b).
  { intros a b. destruct (Z.gtb_spec n a); destruct (Z.gtb_spec (if n >? a then a else n) b); 
      repeat (match goal with |- context[?x >? ?y] => destruct (Z.gtb_spec x y) end); lia. }
  destruct r as [f|v]; cbn [view] in Hv; destruct Hv as (E1 & E2 & E3 & E4).
  - cbn [Read]. unfold fwd_Read. rewrite E1, E2, E3, E4, mask_pos, Hrem by lia.
    rewrite Hn2. fold (chunk (2 ^ k) p e n).
    destruct (Z.ltb_spec (chunk (2 ^ k) p e n) 0); [lia|].
    rewrite slice_stream by lia. rewrite u64_add_l, (eof_iff p e _ (2 ^ k)) by lia.
    eexists. split; [reflexivity|]. cbn. auto.
  - cbn [Read]. unfold rev_Read. rewrite E1, E2, E3, E4, mask_pos, Hrem by lia.
    rewrite Hn2. fold (chunk (2 ^ k) p e n).
    destruct (Z.ltb_spec (chunk (2 ^ k) p e n) 0); [lia|].
    rewrite slice_stream by lia. rewrite u64_add_l, (eof_iff p e _ (2 ^ k)) by lia.
    eexists. split; [reflexivity|]. cbn. auto.
Qed.

(** ReadFull: all of it, nothing, or short *)
Inductive full_spec (k : Z) (mem : Z -> Z) (r : rdr) (p e n : Z) : rf_out -> Prop :=
| FS_ok r' : n <= e - p -> view r' (2 ^ k) mem (p + n) e -> same_shared r r' ->
    full_spec k mem r p e n (RF_Ok (stream (2 ^ k) mem p n) r')
| FS_eof r' : e = p -> 0 < n -> view r' (2 ^ k) mem p e -> same_shared r r' ->
    full_spec k mem r p e n (RF_EOF r')
| FS_short r' : 0 < e - p < n -> view r' (2 ^ k) mem e e -> same_shared r r' ->
    full_spec k mem r p e n (RF_UnexpectedEOF r').

Lemma stream_0 sz mem p : stream sz mem p 0 = [].
Proof. reflexivity. Qed.
Lemma stream_nil sz mem p n : 0 <= n -> stream sz mem p n = [] -> n = 0.
Proof. intros H E. apply (f_equal (@length Z)) in E. rewrite stream_length in E. cbn in E. lia. Qed.

Lemma readFull_ok k r mem p e n : 3 <= k <= 61 -> view r (2 ^ k) mem p e ->
  0 <= e - p <= 2 ^ k -> 0 <= n ->
  full_spec k mem r p e n (readFull r n).
Proof.
  intros Hk Hv He Hn. unfold readFull.
  assert (B0 : 0 < 2 ^ k) by (apply pow2_pos; lia).
  set (sz := 2 ^ k) in *.
  cbn [readFull_loop].
  destruct (Z.leb_spec n 0) as [H0|H0].
  { assert (n = 0) by lia. subst n. rewrite <- (stream_0 sz mem p). apply FS_ok; [lia| |apply same_refl].
    rewrite Z.add_0_r. exact Hv. }
  destruct (Read_ok k r mem p e n Hk Hv He Hn) as (r1 & E1 & V1 & S1). fold sz in E1, V1. rewrite E1.
  pose proof (Z.mod_pos_bound p sz B0) as Hm.
  set (c := chunk sz p e n) in *.
  assert (Hc : c = Z.min (Z.min n (sz - p mod sz)) (e - p)) by reflexivity.
  rewrite stream_length. cbn [app].
  destruct (Z.leb_spec (n - Z.of_nat (Z.to_nat c)) 0) as [Hd|Hd].
  { assert (c = n) by lia. rewrite H. apply FS_ok; [lia|rewrite <- H; assumption|assumption]. }
  destruct (Z.eqb_spec c (e - p)) as [Heof|Hneof].
  { destruct (stream sz mem p c) eqn:Es.
    - apply stream_nil in Es; [|lia]. apply FS_eof; [lia|lia| |assumption]. replace (p + c) with p in V1 by lia. exact V1.
    - assert (c <> 0) by (intros Z0; rewrite Z0 in Es; discriminate).
      apply FS_short; [lia| |assumption]. replace (p + c) with e in V1 by lia. exact V1. }
  (* wrapped: c = sz - p mod sz, second read *)
  assert (Hw : c = sz - p mod sz) by lia.
  assert (Hmod : (p + c) mod sz = 0).
  { rewrite Hw. replace (p + (sz - p mod sz)) with (sz * (p / sz) + 1 * sz) by (pose proof (Z.div_mod p sz ltac:(lia)); lia).
    rewrite Z_mod_plus_full, Z.mul_comm, Z.mod_mul by lia. reflexivity. }
  replace (n - Z.of_nat (Z.to_nat c)) with (n - c) by lia.
  replace (n - Z.of_nat (Z.to_nat c)) with (n - c) in Hd by lia.
  destruct (Z.leb_spec (n - c) 0); [lia|].
  destruct (Read_ok k r1 mem (p + c) e (n - c) Hk V1 ltac:(fold sz; lia) ltac:(lia)) as (r2 & E2 & V2 & S2).
  fold sz in E2, V2. rewrite E2.
  set (c2 := chunk sz (p + c) e (n - c)) in *.
  assert (Hc2 : c2 = Z.min (Z.min (n - c) (sz - 0)) (e - (p + c))) by (unfold c2, chunk; rewrite Hmod; reflexivity).
  rewrite stream_length. rewrite <- stream_split by lia.
  destruct (Z.leb_spec (n - c - Z.of_nat (Z.to_nat c2)) 0).
  { assert (Hcn : c + c2 = n) by lia. rewrite Hcn. apply FS_ok; [lia| |eapply same_trans; eassumption].
    replace (p + n) with (p + c + c2) by lia. assumption. }
  destruct (Z.eqb_spec c2 (e - (p + c))) as [Heof2|Hneof2]; [|exfalso; lia].
  destruct (stream sz mem p (c + c2)) eqn:Es.
  - apply stream_nil in Es; [|lia]. lia.
  - apply FS_short; [lia| |eapply same_trans; eassumption]. replace (p + c + c2) with e in V2 by lia. exact V2.
Qed.

(** * Arbitrary chunking (C19) *)
Fixpoint read_many (r : rdr) (ns : list Z) : option (list (list Z * bool) * rdr) :=
  match ns with
  | [] => Some ([], r)
  | n :: ns' => match Read r n with
                | None => None
                | Some (b, eof, r') =>
                    match read_many r' ns' with
                    | Some (l, r'') => Some ((b, eof) :: l, r'')
                    | None => None
                    end
                end
  end.

Lemma read_many_ok k mem e : 3 <= k <= 61 -> forall ns r p, view r (2 ^ k) mem p e ->
  0 <= e - p <= 2 ^ k -> Forall (fun n => 0 <= n) ns ->
  exists outs r' m, read_many r ns = Some (outs, r') /\
    0 <= m <= e - p /\ concat (map fst outs) = stream (2 ^ k) mem p m /\
    view r' (2 ^ k) mem (p + m) e /\ same_shared r r' /\
    Forall2 (fun n o => Z.of_nat (length (fst o)) <= n) ns outs.
Proof.
  intros Hk ns. induction ns as [|n ns IH]; intros r p Hv He Hn.
  - exists [], r, 0. split; [reflexivity|]. split; [lia|]. split; [reflexivity|]. rewrite Z.add_0_r.
    split; [assumption|]. split; [apply same_refl|constructor].
  - inversion Hn as [|? ? Hn1 Hn2]; subst.
    destruct (Read_ok k r mem p e n Hk Hv He Hn1) as (r1 & E1 & V1 & S1).
    set (c := chunk (2 ^ k) p e n) in *.
    assert (B0 : 0 < 2 ^ k) by (apply pow2_pos; lia).
    pose proof (Z.mod_pos_bound p (2 ^ k) B0) as Hm.
    assert (Hc : 0 <= c <= e - p /\ c <= n) by (unfold c, chunk; lia).
    destruct (IH r1 (p + c) V1 ltac:(lia) Hn2) as (outs & r' & m & E & Hm' & Ec & V & S & F).
    exists ((stream (2 ^ k) mem p c, c =? e - p) :: outs), r', (c + m).
    split; [cbn [read_many]; rewrite E1, E; reflexivity|]. split; [lia|].
    split; [cbn [map concat fst]; rewrite Ec, <- stream_split by lia; reflexivity|].
    split; [rewrite Z.add_assoc; assumption|]. split; [eapply same_trans; eassumption|].
    constructor; [cbn [fst]; rewrite stream_length; lia|assumption].
Qed.

(** * Records (C20) *)
Lemma app_eq_len {A} (a b c d : list A) : length a = length c -> a ++ b = c ++ d -> a = c /\ b = d.
Proof.
  revert c; induction a as [|x a IH]; intros [|y c] L E; cbn in *; try discriminate; [auto|].
  inversion E. destruct (IH c ltac:(lia) H1). subst. auto.
Qed.

Lemma stream_prefix sz mem p l1 l2 :
  stream sz mem p (Z.of_nat (length (l1 ++ l2))) = l1 ++ l2 ->
  stream sz mem p (Z.of_nat (length l1)) = l1 /\
  stream sz mem (p + Z.of_nat (length l1)) (Z.of_nat (length l2)) = l2.
Proof.
  rewrite app_length, Nat2Z.inj_add, stream_split by lia. intros H.
  apply app_eq_len in H; [assumption|]. rewrite stream_length. lia.
Qed.

(** reading exactly the next [l] *)
Lemma readFull_next k r mem p e l rest : 3 <= k <= 61 -> view r (2 ^ k) mem p e ->
  0 <= e - p <= 2 ^ k -> Z.of_nat (length (l ++ rest)) <= e - p ->
  stream (2 ^ k) mem p (Z.of_nat (length (l ++ rest))) = l ++ rest ->
  exists r', readFull r (Z.of_nat (length l)) = RF_Ok l r' /\
    view r' (2 ^ k) mem (p + Z.of_nat (length l)) e /\ same_shared r r' /\
    stream (2 ^ k) mem (p + Z.of_nat (length l)) (Z.of_nat (length rest)) = rest.
Proof.
  intros Hk Hv He Hl Hs. apply stream_prefix in Hs. destruct Hs as [Hs1 Hs2].
  rewrite app_length in Hl.
  destruct (readFull_ok k r mem p e (Z.of_nat (length l)) Hk Hv He ltac:(lia)) as [r' H1 V S|r' H1 H2 V S|r' H1 V S]; try lia.
  rewrite Hs1. exists r'. auto.
Qed.

Lemma get_put_id bo n x : 0 <= x < 256 ^ Z.of_nat n -> get bo (put bo n x) = x.
Proof. intros H. rewrite get_put. apply Z.mod_small. exact H. Qed.

Lemma hdr_app bo t misc size rest :
  put bo 4 t ++ put bo 2 misc ++ put bo 2 size ++ rest = (put bo 4 t ++ put bo 2 misc ++ put bo 2 size) ++ rest.
Proof. rewrite <- !app_assoc. reflexivity. Qed.
Lemma hdr_len bo t misc size : length (put bo 4 t ++ put bo 2 misc ++ put bo 2 size) = 8%nat.
Proof. rewrite !app_length, !put_length. reflexivity. Qed.
Lemma hdr_type bo t misc size : in_u 32 t -> get bo (firstn 4 (put bo 4 t ++ put bo 2 misc ++ put bo 2 size)) = t.
Proof.
  intros H. rewrite firstn_app, put_length, Nat.sub_diag, firstn_O, app_nil_r.
  rewrite firstn_all2 by (rewrite put_length; lia). apply get_put_id. rewrite pow256_4. exact H.
Qed.

Lemma readRecord_ok bo k r mem p e x rest : 3 <= k <= 61 -> prec_ok x -> view r (2 ^ k) mem p e ->
  0 <= e - p <= 2 ^ k -> Z.of_nat (length (wire bo x ++ rest)) <= e - p ->
  stream (2 ^ k) mem p (Z.of_nat (length (wire bo x ++ rest))) = wire bo x ++ rest ->
  exists r', readRecord bo r = (Ok (payload x, lost x), r') /\
    view r' (2 ^ k) mem (p + Z.of_nat (length (wire bo x))) e /\ same_shared r r' /\
    stream (2 ^ k) mem (p + Z.of_nat (length (wire bo x))) (Z.of_nat (length rest)) = rest.
Proof.
  intros Hk Hok Hv He Hl Hs. unfold readRecord, perfEventHeaderSize.
  change 8 with (Z.of_nat 8).
  destruct x as [misc size d|misc size id n]; cbn [wire] in *; rewrite hdr_app in *.
  - rewrite <- app_assoc in Hs, Hl.
    set (H := put bo 4 9 ++ put bo 2 misc ++ put bo 2 size) in *.
    assert (HL : length H = 8%nat) by apply hdr_len.
    destruct (readFull_next k r mem p e H ((put bo 4 (Z.of_nat (length d)) ++ d) ++ rest) Hk Hv He Hl Hs)
      as (r1 & E1 & V1 & S1 & St1).
    rewrite HL in E1. rewrite E1. cbv zeta.
    assert (HT : get bo (firstn 4 H) = 9) by (apply hdr_type; unfold in_u; lia). rewrite !HT.
    change (9 =? PERF_RECORD_LOST) with false. change (9 =? PERF_RECORD_SAMPLE) with true. cbv iota.
    unfold readRawSample, perfEventSampleSize.
    rewrite app_length in Hl. rewrite <- app_assoc in St1.
    destruct (readFull_next k r1 mem (p + Z.of_nat (length H)) e (put bo 4 (Z.of_nat (length d))) (d ++ rest)
                Hk V1 ltac:(lia) ltac:(rewrite <- app_assoc in Hl; lia) St1) as (r2 & E2 & V2 & S2 & St2).
    rewrite put_length in E2. change (Z.of_nat 4) with 4 in E2. rewrite E2.
    rewrite get_put_id by (rewrite pow256_4; cbn in Hok; lia).
    rewrite put_length in V2, St2. 
    rewrite !app_length, put_length in Hl.
    destruct (readFull_next k r2 mem _ e d rest Hk V2 ltac:(lia) ltac:(rewrite app_length; lia) St2)
      as (r3 & E3 & V3 & S3 & St3).
    rewrite E3. exists r3. split; [reflexivity|].
    rewrite !app_length, put_length.
    replace (p + Z.of_nat (length H + (4 + length d))) with (p + Z.of_nat (length H) + Z.of_nat 4 + Z.of_nat (length d)) by lia.
    split; [exact V3|]. split; [eapply same_trans; [eapply same_trans; eassumption|eassumption]|exact St3].
  - rewrite <- app_assoc in Hs, Hl.
    set (H := put bo 4 2 ++ put bo 2 misc ++ put bo 2 size) in *.
    assert (HL : length H = 8%nat) by apply hdr_len.
    destruct (readFull_next k r mem p e H ((put bo 8 id ++ put bo 8 n) ++ rest) Hk Hv He Hl Hs)
      as (r1 & E1 & V1 & S1 & St1).
    rewrite HL in E1. rewrite E1. cbv zeta.
    assert (HT : get bo (firstn 4 H) = 2) by (apply hdr_type; unfold in_u; lia). rewrite !HT.
    change (2 =? PERF_RECORD_LOST) with true. cbv iota.
    unfold readLostRecords.
    rewrite app_length in Hl.
    destruct (readFull_next k r1 mem (p + Z.of_nat (length H)) e (put bo 8 id ++ put bo 8 n) rest
                Hk V1 ltac:(lia) ltac:(lia) St1) as (r2 & E2 & V2 & S2 & St2).
    assert (L16 : length (put bo 8 id ++ put bo 8 n) = 16%nat) by (rewrite app_length, !put_length; reflexivity).
    rewrite L16 in E2. change (Z.of_nat 16) with 16 in E2. rewrite E2.
    exists r2. split.
    + rewrite skipn_app, put_length, skipn_all2 by (rewrite put_length; lia). cbn [Nat.sub skipn app].
      rewrite firstn_all2 by (rewrite put_length; lia). rewrite get_put_id by (rewrite pow256_8; exact Hok). reflexivity.
    + rewrite (app_length H), L16.
      rewrite L16 in V2, St2.
      replace (p + Z.of_nat (length H + 16)) with (p + Z.of_nat (length H) + Z.of_nat 16) by lia.
      split; [exact V2|]. split; [eapply same_trans; eassumption|exact St2].
Qed.

Lemma readRecord_eor bo k r mem p : 3 <= k <= 61 -> view r (2 ^ k) mem p p ->
  exists r', readRecord bo r = (Err EEOR, r') /\ view r' (2 ^ k) mem p p /\ same_shared r r'.
Proof.
  intros Hk Hv. unfold readRecord, perfEventHeaderSize.
  assert (B0 : 0 < 2 ^ k) by (apply pow2_pos; lia).
  destruct (readFull_ok k r mem p p 8 Hk Hv ltac:(lia) ltac:(lia)) as [r' H1 V S|r' H1 H2 V S|r' H1 V S]; try lia.
  exists r'. auto.
Qed.

Lemma writeTail_view r sz mem p e : view r sz mem p e -> view (writeTail r) sz mem p e.
Proof. destruct r; cbn; auto. Qed.

Fixpoint results (bo : byteorder) (cpu : Z) (fw : bool) (l : list prec) : list record :=
  match l with
  | [] => []
  | x :: l' => mkRecord cpu (payload x) (lost x) (if fw then Z.of_nat (length (wires bo l')) else -1) :: results bo cpu fw l'
  end.
Definition is_fwd (r : rdr) : bool := match r with Fwd _ => true | Rev _ => false end.

Lemma remaining_view k r mem p e : 3 <= k <= 61 -> view r (2 ^ k) mem p e -> 0 <= e - p < 2 ^ k ->
  remaining r = if is_fwd r then e - p else -1.
Proof.
  intros Hk Hv He. destruct r; [|reflexivity]. cbn in *. destruct Hv as (E1 & _ & E3 & E4).
  unfold fwd_remaining. rewrite E1, E3, E4, u64_sub, mask_pos by lia.
  assert (B : 2 ^ k <= 2 ^ 61) by (apply Z.pow_le_mono_r; lia).
  change (2 ^ 61) with 2305843009213693952 in B.
  rewrite Z.mod_small by lia. apply i64_small. change (2 ^ 63) with 9223372036854775808. lia.
Qed.

Lemma same_fwd r r' : same_shared r r' -> is_fwd r' = is_fwd r.
Proof. destruct r, r'; cbn; intuition. Qed.

Lemma wire_len bo x : (8 <= length (wire bo x))%nat.
Proof. destruct x; cbn [wire]; rewrite hdr_app, app_length, hdr_len; lia. Qed.

Lemma readAll_ok bo k mem cpu ow : 3 <= k <= 61 -> forall recs fuel r p e,
  Forall prec_ok recs -> view r (2 ^ k) mem p e ->
  e = p + Z.of_nat (length (wires bo recs)) -> e - p <= 2 ^ k ->
  stream (2 ^ k) mem p (Z.of_nat (length (wires bo recs))) = wires bo recs ->
  (length recs < fuel)%nat ->
  exists r', readAll fuel bo cpu ow r = (results bo cpu (is_fwd r) recs, Some EEOR, r') /\
    view r' (2 ^ k) mem e e /\ is_fwd r' = is_fwd r /\
    match r' with Fwd f => f_mtail f = f_tail f | Rev v => True end.
Proof.
  intros Hk recs. induction recs as [|x recs IH]; intros fuel r p e Hok Hv He Hsz Hs Hf.
  - cbn in He. rewrite Z.add_0_r in He. subst e. destruct fuel as [|f]; [cbn in Hf; lia|].
    cbn [readAll]. unfold readRecordFromRing.
    destruct (readRecord_eor bo k r mem p Hk Hv) as (r' & E & V & S). rewrite E.
    replace (ow && is_eof EEOR) with false by (destruct ow; reflexivity).
    exists (writeTail r'). split; [reflexivity|]. split; [apply writeTail_view; assumption|].
    apply same_fwd in S. destruct r'; cbn in *; auto.
  - inversion Hok as [|? ? Hx Hr]; subst. destruct fuel as [|f]; [cbn in Hf; lia|].
    change (wires bo (x :: recs)) with (wire bo x ++ wires bo recs) in *.
    cbn [readAll]. unfold readRecordFromRing.
    destruct (readRecord_ok bo k r mem p _ x (wires bo recs) Hk Hx Hv ltac:(lia) ltac:(lia) Hs)
      as (r1 & E1 & V1 & S1 & St1).
    rewrite E1. pose proof (wire_len bo x) as W. rewrite app_length in *.
    rewrite (remaining_view k r1 mem _ _ Hk V1) by lia.
    destruct (IH f (writeTail r1) (p + Z.of_nat (length (wire bo x))) (p + Z.of_nat (length (wire bo x) + length (wires bo recs))))
      as (r' & E & V & F & T); try assumption; try lia; [apply writeTail_view; assumption|cbn in Hf; lia|].
    rewrite E. exists r'.
    assert (Fw : is_fwd (writeTail r1) = is_fwd r) by (rewrite <- (same_fwd r r1 S1); destruct r1; reflexivity).
    split; [|split; [assumption|split; [congruence|assumption]]].
    rewrite Fw. cbn [results]. rewrite (same_fwd r r1 S1).
    f_equal. f_equal. f_equal. f_equal. destruct (is_fwd r); [lia|reflexivity].
Qed.

(** * Unknown record types *)
Lemma readRecord_unknown bo k r mem p e t misc size rest : 3 <= k <= 61 -> in_u 32 t -> t <> 2 -> t <> 9 ->
  view r (2 ^ k) mem p e -> 0 <= e - p <= 2 ^ k ->
  Z.of_nat (length ((put bo 4 t ++ put bo 2 misc ++ put bo 2 size) ++ rest)) <= e - p ->
  stream (2 ^ k) mem p (Z.of_nat (length ((put bo 4 t ++ put bo 2 misc ++ put bo 2 size) ++ rest)))
    = (put bo 4 t ++ put bo 2 misc ++ put bo 2 size) ++ rest ->
  exists r', readRecord bo r = (Err (EUnknown t), r') /\ view r' (2 ^ k) mem (p + 8) e /\ same_shared r r'.
Proof.
  intros Hk Ht N2 N9 Hv He Hl Hs. unfold readRecord, perfEventHeaderSize. change 8 with (Z.of_nat 8).
  set (H := put bo 4 t ++ put bo 2 misc ++ put bo 2 size) in *.
  assert (HL : length H = 8%nat) by apply hdr_len.
  destruct (readFull_next k r mem p e H rest Hk Hv He Hl Hs) as (r1 & E1 & V1 & S1 & _).
  rewrite HL in *. rewrite E1. cbv zeta.
  assert (HT : get bo (firstn 4 H) = t) by (apply hdr_type; assumption). rewrite !HT.
  unfold PERF_RECORD_LOST, PERF_RECORD_SAMPLE.
  destruct (Z.eqb_spec t 2); [contradiction|]. destruct (Z.eqb_spec t 9); [contradiction|].
  exists r1. auto.
Qed.
