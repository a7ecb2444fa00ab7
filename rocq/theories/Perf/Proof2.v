From Coq Require Import ZArith List Lia Bool.
From Verif.Base Require Import GoInt.
From Verif.Perf Require Import Spec Model Proof.
Import ListNotations.
Open Scope Z_scope.

(** * Overwritable ring (C21) *)
Lemma rev_load_view k mem v h0 h1 : 3 <= k <= 61 -> v_size v = 2 ^ k -> v_mem v = mem ->
  v_head v = u64 h0 -> v_mhead v = u64 h1 -> 0 <= h0 - h1 < 2 ^ 64 ->
  view (Rev (rev_loadHead v)) (2 ^ k) mem h1 (Z.min h0 (h1 + 2 ^ k)) /\ v_head (rev_loadHead v) = u64 h1.
Proof.
  intros Hk E1 E2 E3 E4 Hh. unfold rev_loadHead. cbn. rewrite E1, E3, E4, u64_sub, (u64_small (h0 - h1)) by exact Hh.
  split; [|reflexivity]. unfold view. cbn [v_size v_mem v_read v_tail].
  split; [reflexivity|]. split; [exact E2|]. split; [reflexivity|].
  destruct (Z.gtb_spec (h0 - h1) (2 ^ k)).
  - rewrite u64_add_l. f_equal. lia.
  - f_equal. lia.
Qed.

(** A history of drains: before each one the kernel left memory [mem] and head [h]; then loadHead and reads of
    arbitrary sizes. *)
Fixpoint drains (v : rev) (hist : list ((Z -> Z) * Z * list Z)) : option (list (list Z)) :=
  match hist with
  | [] => Some []
  | (mem, h, ns) :: hist' =>
      match read_many (Rev (rev_loadHead (mkRev (v_size v) mem (u64 h) (v_head v) (v_read v) (v_tail v)))) ns with
      | Some (outs, Rev v') =>
          match drains v' hist' with
          | Some l => Some (concat (map fst outs) :: l)
          | None => None
          end
      | _ => None
      end
  end.

(** [covers sz h0 hist outs]: drain i returns a part, starting at its head, of the bytes written since the
    previous head, and at most the ring size. *)
Fixpoint covers (sz h0 : Z) (hist : list ((Z -> Z) * Z * list Z)) (outs : list (list Z)) : Prop :=
  match hist, outs with
  | [], [] => True
  | (mem, h, _) :: hist', o :: outs' =>
      (exists n, 0 <= n <= sz /\ h + n <= h0 /\ o = stream sz mem h n) /\ covers sz h hist' outs'
  | _, _ => False
  end.

Fixpoint hist_ok (h0 : Z) (hist : list ((Z -> Z) * Z * list Z)) : Prop :=
  match hist with
  | [] => True
  | (_, h, ns) :: hist' => 0 <= h0 - h < 2 ^ 64 /\ Forall (fun n => 0 <= n) ns /\ hist_ok h hist'
  end.

Lemma drains_ok k : 3 <= k <= 61 -> forall hist v h0,
  v_size v = 2 ^ k -> v_head v = u64 h0 -> hist_ok h0 hist ->
  exists outs, drains v hist = Some outs /\ covers (2 ^ k) h0 hist outs.
Proof.
  intros Hk. induction hist as [|[[mem h] ns] hist IH]; intros v h0 E1 E2 Hok.
  - exists []. split; [reflexivity|exact I].
  - destruct Hok as (Hh & Hns & Hok). cbn [drains].
    destruct (rev_load_view k mem (mkRev (v_size v) mem (u64 h) (v_head v) (v_read v) (v_tail v)) h0 h
                Hk E1 eq_refl E2 eq_refl Hh) as [V Vh].
    set (v1 := rev_loadHead _) in *.
    assert (B0 : 0 < 2 ^ k) by (apply pow2_pos; lia).
    destruct (read_many_ok k mem (Z.min h0 (h + 2 ^ k)) Hk ns (Rev v1) h V ltac:(lia) Hns)
      as (outs & r' & m & E & Hm & Ec & V' & S & _).
    rewrite E. destruct r' as [f|v']; [destruct S|]. cbn in S, V'.
    destruct (IH v' h) as (l & El & Cl); [apply V'|destruct S as (_ & -> & _); exact Vh|assumption|].
    rewrite El. exists (concat (map fst outs) :: l). split; [reflexivity|].
    cbn [covers]. split; [|exact Cl]. exists m. split; [lia|]. split; [lia|exact Ec].
Qed.

(** * Overwritable ring, records: the newest complete records, newest first; a record cut off by the end of
    the readable region ends the ring. *)
Lemma readRecord_cut bo k v mem p e misc size d cut : 3 <= k <= 61 ->
  Z.of_nat (length d) < 2 ^ 32 ->
  view (Rev v) (2 ^ k) mem p e -> e = p + Z.of_nat cut -> Z.of_nat cut <= 2 ^ k ->
  (8 <= cut < length (wire bo (PSample misc size d)))%nat ->
  stream (2 ^ k) mem p (Z.of_nat cut) = firstn cut (wire bo (PSample misc size d)) ->
  exists e0 r', readRecord bo (Rev v) = (Err e0, r') /\ is_eof e0 = true.
Proof.
  intros Hk Hd Hv He Hsz Hcut Hs. unfold readRecord, perfEventHeaderSize. change 8 with (Z.of_nat 8).
  cbn [wire] in *. rewrite hdr_app in *.
  set (H := put bo 4 9 ++ put bo 2 misc ++ put bo 2 size) in *.
  assert (HL : length H = 8%nat) by apply hdr_len.
  assert (HT : get bo (firstn 4 H) = 9) by (apply hdr_type; unfold in_u; lia).
  rewrite firstn_app, (firstn_all2 H) in Hs by lia. rewrite HL in Hs.
  assert (Hlen : length (H ++ firstn (cut - 8) (put bo 4 (Z.of_nat (length d)) ++ d)) = cut).
  { rewrite app_length, firstn_length. rewrite app_length in Hcut. lia. }
  rewrite <- Hlen in Hs at 1.
  destruct (readFull_next k (Rev v) mem p e H _ Hk Hv ltac:(lia) ltac:(rewrite Hlen; lia) Hs)
    as (r1 & E1 & V1 & S1 & St1).
  rewrite HL in E1. rewrite E1. cbv zeta. rewrite !HT.
  change (9 =? PERF_RECORD_LOST) with false. change (9 =? PERF_RECORD_SAMPLE) with true. cbv iota.
  unfold readRawSample, perfEventSampleSize. rewrite HL in V1.
  rewrite app_length, HL, app_length, put_length in Hcut.
  destruct (Nat.lt_ge_cases cut 12) as [L|L].
  - destruct (readFull_ok k r1 mem (p + Z.of_nat 8) e 4 Hk V1 ltac:(lia) ltac:(lia))
      as [r' G1 V S|r' G1 G2 V S|r' G1 V S]; try lia; do 2 eexists; (split; [reflexivity|reflexivity]).
  - rewrite firstn_app, (firstn_all2 (put bo 4 _)) in St1 by (rewrite put_length; lia). rewrite put_length in St1.
    assert (Hl2 : (length (firstn (cut - 8 - 4) d) = cut - 12)%nat) by (rewrite firstn_length; lia).
    rewrite HL in St1.
    destruct (readFull_next k r1 mem (p + Z.of_nat 8) e (put bo 4 (Z.of_nat (length d))) (firstn (cut - 8 - 4) d)
                Hk V1 ltac:(lia) ltac:(rewrite app_length, put_length, Hl2; lia) St1) as (r2 & E2 & V2 & S2 & St2).
    rewrite put_length in E2. change (Z.of_nat 4) with 4 in E2. rewrite E2.
    rewrite get_put_id by (rewrite pow256_4; lia). rewrite put_length in V2.
    destruct (readFull_ok k r2 mem _ e (Z.of_nat (length d)) Hk V2 ltac:(lia) ltac:(lia))
      as [r' G1 V S|r' G1 G2 V S|r' G1 V S]; try lia; do 2 eexists; (split; [reflexivity|reflexivity]).
Qed.

Lemma rev_same v r' : same_shared (Rev v) r' -> exists v', r' = Rev v'.
Proof. destruct r' as [f|v']; [intros []|intros _; exists v'; reflexivity]. Qed.

Lemma readAll_overwritable bo k mem cpu misc size d : 3 <= k <= 61 -> Z.of_nat (length d) < 2 ^ 32 ->
  forall recs fuel v p e cut,
  Forall prec_ok recs -> view (Rev v) (2 ^ k) mem p e ->
  (8 <= cut < length (wire bo (PSample misc size d)))%nat ->
  e = p + Z.of_nat (length (wires bo recs) + cut) -> e - p <= 2 ^ k ->
  stream (2 ^ k) mem p (Z.of_nat (length (wires bo recs ++ firstn cut (wire bo (PSample misc size d))))) =
    wires bo recs ++ firstn cut (wire bo (PSample misc size d)) ->
  (length recs < fuel)%nat ->
  exists r', readAll fuel bo cpu true (Rev v) = (results bo cpu false recs, Some EEOR, r').
Proof.
  intros Hk Hd. induction recs as [|x recs IH]; intros fuel v p e cut Hok Hv Hcut He Hsz Hs Hf.
  - destruct fuel as [|f]; [cbn in Hf; lia|]. cbn [wires map concat app length Nat.add] in *.
    assert (HLc : length (firstn cut (wire bo (PSample misc size d))) = cut) by (rewrite firstn_length; lia).
    rewrite HLc in Hs. cbn [readAll]. unfold readRecordFromRing.
    destruct (readRecord_cut bo k v mem p e misc size d cut Hk Hd Hv He ltac:(lia) Hcut Hs) as (e0 & r' & E & Ee).
    rewrite E, Ee. cbn. eexists. reflexivity.
  - inversion Hok as [|? ? Hx Hr]; subst x0 l. destruct fuel as [|f]; [cbn in Hf; lia|].
    change (wires bo (x :: recs)) with (wire bo x ++ wires bo recs) in *.
    assert (HLc : length (firstn cut (wire bo (PSample misc size d))) = cut) by (rewrite firstn_length; lia).
    rewrite <- app_assoc in Hs. 
    cbn [readAll]. unfold readRecordFromRing.
    rewrite app_length in He.
    destruct (readRecord_ok bo k (Rev v) mem p e x (wires bo recs ++ firstn cut (wire bo (PSample misc size d))) Hk Hx Hv
              ltac:(lia) ltac:(rewrite app_length, app_length, HLc; lia) Hs)
      as (r1 & E1 & V1 & S1 & St1).
    rewrite E1. pose proof (wire_len bo x) as W.
    destruct (rev_same v r1 S1) as [v1 ->]. cbn [writeTail remaining].
    destruct (IH f v1 (p + Z.of_nat (length (wire bo x))) e cut) as (r' & E); try assumption; try lia.
    { cbn in Hf; lia. }
    rewrite E. exists r'. reflexivity.
Qed.

(** * Buffer size (C22) *)
Lemma perfBufferSize_ok pageSize n : 0 < pageSize -> 0 < n ->
  exists j, 0 <= j /\ perfBufferSize pageSize n = (1 + 2 ^ j) * pageSize /\
    n <= 2 ^ j * pageSize /\ (forall i, 0 <= i -> n <= 2 ^ i * pageSize -> j <= i).
Proof.
  intros Hp Hn. unfold perfBufferSize.
  set (m := (n + pageSize - 1) / pageSize).
  assert (Hm : 0 < m /\ n <= m * pageSize /\ (m - 1) * pageSize < n).
  { unfold m. pose proof (Z.div_mod (n + pageSize - 1) pageSize ltac:(lia)).
    pose proof (Z.mod_pos_bound (n + pageSize - 1) pageSize ltac:(lia)). nia. }
  destruct Hm as (M1 & M2 & M3).
  exists (Z.log2_up m). split; [apply Z.log2_up_nonneg|]. split; [lia|].
  assert (Hup : m <= 2 ^ Z.log2_up m).
  { destruct (Z.eq_dec m 1) as [->|]; [cbn; lia|]. apply Z.log2_up_spec. lia. }
  split; [nia|]. intros i Hi Hni.
  assert (m <= 2 ^ i) by nia.
  apply Z.log2_up_le_pow2; lia.
Qed.

(** * Slots (C23) *)
Lemma put_all_spec evs : forall i a k,
  put_all i evs a k = if (i <=? k)%nat && (k <? i + length evs)%nat then nth_error evs (k - i) else a k.
Proof.
  induction evs as [|e evs IH]; intros i a k; cbn [put_all].
  - destruct (Nat.leb_spec i k); destruct (Nat.ltb_spec k (i + length (@nil nat))); cbn in *; try lia; reflexivity.
  - rewrite IH. cbn [length].
    destruct (Nat.eqb_spec k i) as [->|Ne].
    + destruct (Nat.leb_spec (S i) i); [lia|]. destruct (Nat.leb_spec i i); [|lia].
      destruct (Nat.ltb_spec i (i + S (length evs))); [|lia]. cbn. rewrite Nat.sub_diag. reflexivity.
    + destruct (Nat.leb_spec (S i) k); destruct (Nat.leb_spec i k); destruct (Nat.ltb_spec k (S i + length evs));
        destruct (Nat.ltb_spec k (i + S (length evs))); cbn; try lia; try reflexivity.
      replace (k - i)%nat with (S (k - S i)) by lia. reflexivity.
Qed.

Lemma resume_spec evs a k :
  resume evs a k = if (k <? length evs)%nat then nth_error evs k else a k.
Proof. unfold resume. rewrite put_all_spec. cbn. rewrite Nat.sub_0_r. destruct (k <? length evs)%nat; reflexivity. Qed.

Lemma filter_all {A} (f : A -> bool) l : (forall x, In x l -> f x = true) -> filter f l = l.
Proof. induction l as [|x l IH]; cbn; intros H; [reflexivity|]. rewrite H by auto. f_equal. apply IH. auto. Qed.

(** online CPUs come first *)
Lemma openEvents_prefix nCPU online m : (m <= nCPU)%nat ->
  (forall c, (c < m)%nat -> online c = true) -> (forall c, (m <= c < nCPU)%nat -> online c = false) ->
  openEvents nCPU online = seq 0 m.
Proof.
  intros Hm H1 H2. unfold openEvents. replace nCPU with (m + (nCPU - m))%nat by lia.
  rewrite seq_app, filter_app.
  rewrite filter_all by (intros x Hx; apply in_seq in Hx; apply H1; lia).
  assert (E : filter online (seq (0 + m) (nCPU - m)) = []).
  { assert (G : forall l, (forall x, In x l -> online x = false) -> filter online l = []).
    { induction l as [|x l IH]; cbn; intros H; [reflexivity|]. rewrite H by auto. apply IH. auto. }
    apply G. intros x Hx. apply in_seq in Hx. apply H2. lia. }
  rewrite E. apply app_nil_r.
Qed.
