(** A forward (non-overwritable) perf ring over its whole life: the kernel appends records while the user
    loads the head and reads records, in any order.  Kernel side: kernel/events/ring_buffer.c
    __perf_output_begin (CIRC_SPACE(head, tail, size) < len refuses the record), which is the environment.
    User side: perf/reader.go ReadInto's calls of loadHead and readRecordFromRing on one ring. *)
From Coq Require Import ZArith List Lia Bool.
From Verif.Base Require Import GoInt.
From Verif.Perf Require Import Spec Model Proof.
Import ListNotations.
Open Scope Z_scope.

(** What a call of readRecordFromRing gave. *)
Record fsys := mkFsys {
  h_rdr : fwd;                          (* memory, shared words and the reader *)
  h_log : list prec;                    (* history: every record the kernel wrote, in order *)
  h_out : list record;                  (* history: every record returned, in order *)
  h_err : list perr                     (* history: every error returned, in order *)
}.

Section S.
Variables (bo : byteorder) (sz p0 cpu : Z).

Definition set_kernel (f : fwd) (mem : Z -> Z) (mhead : Z) : fwd :=
  mkFwd (f_size f) mem mhead (f_mtail f) (f_head f) (f_tail f).

Inductive fstep : fsys -> fsys -> Prop :=
(** The kernel writes record [x] at the head: refused unless it fits; the unread bytes, i.e. those between
    the published tail and the head, stay; then the head moves. *)
| K_write s x mem' :
    let f := h_rdr s in
    let len := Z.of_nat (length (wire bo x)) in
    prec_ok x ->
    u64 (f_mhead f - f_mtail f) + len < sz ->
    stream sz mem' (f_mhead f) len = wire bo x ->
    stream sz mem' (f_mtail f) (u64 (f_mhead f - f_mtail f)) = stream sz (f_mem f) (f_mtail f) (u64 (f_mhead f - f_mtail f)) ->
    fstep s (mkFsys (set_kernel f mem' (u64 (f_mhead f + len))) (h_log s ++ [x]) (h_out s) (h_err s))
| U_load s : fstep s (mkFsys (fwd_loadHead (h_rdr s)) (h_log s) (h_out s) (h_err s))
| U_read s rec f' :
    readRecordFromRing bo cpu false (Fwd (h_rdr s)) = (Ok rec, Fwd f') ->
    fstep s (mkFsys f' (h_log s) (h_out s ++ [rec]) (h_err s))
| U_err s e r' :
    readRecordFromRing bo cpu false (Fwd (h_rdr s)) = (Err e, r') ->
    fstep s (mkFsys (match r' with Fwd f' => f' | Rev _ => h_rdr s end) (h_log s) (h_out s) (h_err s ++ [e])).

(** A fresh empty ring at any position. *)
Definition finit (s : fsys) : Prop :=
  f_size (h_rdr s) = sz /\ f_mhead (h_rdr s) = u64 p0 /\ f_mtail (h_rdr s) = u64 p0 /\
  f_head (h_rdr s) = u64 p0 /\ f_tail (h_rdr s) = u64 p0 /\ h_log s = [] /\ h_out s = [] /\ h_err s = [].

Inductive freach : fsys -> Prop :=
| fr_init s : finit s -> freach s
| fr_step s t : freach s -> fstep s t -> freach t.
End S.

(** ** Invariant *)
Lemma stream_mod k mem p n : 0 <= k <= 61 -> stream (2 ^ k) mem (u64 p) n = stream (2 ^ k) mem p n.
Proof.
  intros Hk. unfold stream. apply map_ext_in. intros i _. f_equal.
  rewrite <- (Zplus_mod_idemp_l (u64 p)), <- (Zplus_mod_idemp_l p). f_equal. f_equal.
  pose proof (wrapu_le k 64 p ltac:(lia)) as W. unfold wrapu in W. unfold u64, wrapu. exact W.
Qed.

Record finv (bo : byteorder) (k p0 cpu : Z) (s : fsys) (T H p h : Z) (done loaded pend : list prec) : Prop := {
  i_view : view (Fwd (h_rdr s)) (2 ^ k) (f_mem (h_rdr s)) p h;
  i_mh : f_mhead (h_rdr s) = u64 H;
  i_mt : f_mtail (h_rdr s) = u64 T;
  i_p : p = p0 + Z.of_nat (length (wires bo done));
  i_T : T <= p; i_room : H - T < 2 ^ k;
  i_ph : h = p + Z.of_nat (length (wires bo loaded));
  i_hH : H = h + Z.of_nat (length (wires bo pend));
  i_log : h_log s = done ++ loaded ++ pend;
  i_ok : Forall prec_ok (loaded ++ pend);
  i_mem : stream (2 ^ k) (f_mem (h_rdr s)) p (Z.of_nat (length (wires bo (loaded ++ pend)))) = wires bo (loaded ++ pend);
  i_out : map (fun r => (CPU r, RawSample r, LostSamples r)) (h_out s) = map (fun x => (cpu, payload x, lost x)) done;
  i_err : Forall (fun e => e = EEOR) (h_err s)
}.

Lemma wires_app bo a b : wires bo (a ++ b) = wires bo a ++ wires bo b.
Proof. unfold wires. rewrite map_app, concat_app. reflexivity. Qed.

Lemma stream_tail k mem mem' a b n m : a <= b -> 0 <= n -> m = n + (b - a) ->
  stream (2 ^ k) mem' a m = stream (2 ^ k) mem a m -> stream (2 ^ k) mem' b n = stream (2 ^ k) mem b n.
Proof.
  intros Hab Hn -> E. rewrite Z.add_comm, !stream_split in E by lia.
  apply app_eq_len in E; [|rewrite !stream_length; reflexivity].
  replace (a + (b - a)) with b in E by lia. apply E.
Qed.

Lemma finv_step bo k p0 cpu s t T H p h done loaded pend : 3 <= k <= 61 ->
  finv bo k p0 cpu s T H p h done loaded pend -> fstep bo (2 ^ k) cpu s t ->
  exists T' H' p' h' done' loaded' pend',
    finv bo k p0 cpu t T' H' p' h' done' loaded' pend' /\ h <= h' /\ H <= H' /\ p <= p' /\ T <= T'.
Proof.
  intros Hk I Hs. destruct I as [V Mh Mt Pd HT Hr Ph HH L Ok M O Er].
  assert (B : 2 ^ k <= 2 ^ 61) by (apply Z.pow_le_mono_r; lia). change (2 ^ 61) with 2305843009213693952 in B.
  assert (Hw : u64 (u64 H - u64 T) = H - T)
    by (rewrite u64_sub; apply u64_small; change (2 ^ 64) with 18446744073709551616; lia).
  destruct Hs as [s x mem' f len Hx Hroom Hnew Hold|s|s rec f' E|s e r' E].
  - fold f in V, Mh, Mt, M. subst len. rewrite Mh, Mt, Hw in *. rewrite u64_add_l.
    set (len := Z.of_nat (length (wire bo x))) in *.
    exists T, (H + len), p, h, done, loaded, (pend ++ [x]).
    rewrite !stream_mod in Hold by lia. rewrite stream_mod in Hnew by lia.
    assert (Ew : wires bo [x] = wire bo x) by (unfold wires; cbn; apply app_nil_r).
    split; [|lia]. constructor; cbn [h_rdr set_kernel f_mem f_mhead f_mtail h_log h_out h_err]; auto.
    + cbn in V |- *. intuition.
    + lia.
    + rewrite wires_app, app_length, Ew. fold len. lia.
    + rewrite L, !app_assoc. reflexivity.
    + rewrite app_assoc. apply Forall_app. split; [assumption|]. constructor; [assumption|constructor].
    + rewrite app_assoc, wires_app, app_length, Nat2Z.inj_add, stream_split by lia. rewrite Ew. f_equal.
      * rewrite wires_app, app_length in *.
        rewrite (stream_tail k (f_mem f) mem' T p _ (H - T)); try assumption; lia.
      * rewrite wires_app, app_length in *. fold len. rewrite <- Hnew. f_equal. lia.
  - exists T, H, p, H, done, (loaded ++ pend), []. rewrite wires_app, app_length in *.
    split; [|lia]. constructor; cbn [h_rdr fwd_loadHead f_mem f_mhead f_mtail h_log h_out h_err]; auto.
    + cbn in V |- *. intuition.
    + rewrite wires_app, app_length. lia.
    + cbn. lia.
    + rewrite app_nil_r. assumption.
    + rewrite app_nil_r. assumption.
    + rewrite app_nil_r, wires_app, app_length. assumption.
  - destruct loaded as [|x loaded].
    + cbn in Ph. replace h with p in * by lia. exfalso. unfold readRecordFromRing in E.
      destruct (readRecord_eor bo k _ _ p Hk V) as (r' & E1 & _ & _). rewrite E1 in E. discriminate.
    + cbn [app] in Ok, M. inversion Ok as [|? ? Hx Hrest]; subst x0 l.
      change (wires bo (x :: loaded ++ pend)) with (wire bo x ++ wires bo (loaded ++ pend)) in M.
      rewrite wires_app, !app_length in M. change (wires bo (x :: loaded)) with (wire bo x ++ wires bo loaded) in Ph.
      rewrite app_length in Ph.
      assert (M2 : stream (2 ^ k) (f_mem (h_rdr s)) p (Z.of_nat (length (wire bo x ++ wires bo loaded)))
                 = wire bo x ++ wires bo loaded).
      { rewrite app_assoc in M. rewrite <- !app_length, app_assoc in M. apply stream_prefix in M. apply M. }
      destruct (readRecord_ok bo k _ _ p h x (wires bo loaded) Hk Hx V ltac:(lia) ltac:(rewrite app_length; lia) M2)
        as (r1 & E1 & V1 & S1 & St1).
      unfold readRecordFromRing in E. rewrite E1 in E. cbv zeta iota in E.
      destruct r1 as [f1|v1]; [|destruct S1]. cbn [writeTail] in E. inversion E; subst rec f'. clear E.
      exists (p + Z.of_nat (length (wire bo x))), H, (p + Z.of_nat (length (wire bo x))), h, (done ++ [x]), loaded, pend.
      destruct S1 as (S1 & S2 & S3). destruct V1 as (V1 & V2 & V3 & V4).
      split; [|lia]. constructor; cbn [h_rdr fwd_writeTail f_mem f_mhead f_mtail h_log h_out h_err].
      * cbn. auto.
      * congruence.
      * assumption.
      * rewrite wires_app, app_length. replace (wires bo [x]) with (wire bo x) by (unfold wires; cbn; symmetry; apply app_nil_r). lia.
      * lia.
      * lia.
      * lia.
      * lia.
      * rewrite L, <- app_assoc. reflexivity.
      * assumption.
      * rewrite V2. rewrite <- !app_length in M. apply stream_prefix in M. rewrite wires_app. apply M.
      * rewrite !map_app, O. reflexivity.
      * assumption.
  - destruct loaded as [|x loaded].
    + cbn in Ph. replace h with p in * by lia. unfold readRecordFromRing in E.
      destruct (readRecord_eor bo k _ _ p Hk V) as (r1 & E1 & V1 & S1). rewrite E1 in E. cbn [andb] in E.
      inversion E; subst e r'. clear E. destruct r1 as [f1|v1]; [|destruct S1]. cbn [writeTail].
      destruct S1 as (S1 & S2 & S3). destruct V1 as (V1 & V2 & V3 & V4).
      exists p, H, p, p, done, [], pend. cbn [app] in *.
      split; [|lia]. constructor; cbn [h_rdr fwd_writeTail f_mem f_mhead f_mtail h_log h_out h_err app]; try assumption; try lia.
      * cbn. auto.
      * congruence.
      * apply Forall_app. split; [assumption|]. constructor; [reflexivity|constructor].
    + exfalso. cbn [app] in Ok, M. inversion Ok as [|? ? Hx Hrest]; subst x0 l.
      change (wires bo (x :: loaded ++ pend)) with (wire bo x ++ wires bo (loaded ++ pend)) in M.
      rewrite wires_app, !app_length in M. change (wires bo (x :: loaded)) with (wire bo x ++ wires bo loaded) in Ph.
      rewrite app_length in Ph.
      assert (M2 : stream (2 ^ k) (f_mem (h_rdr s)) p (Z.of_nat (length (wire bo x ++ wires bo loaded)))
                 = wire bo x ++ wires bo loaded).
      { rewrite <- !app_length, app_assoc in M. apply stream_prefix in M. apply M. }
      destruct (readRecord_ok bo k _ _ p h x (wires bo loaded) Hk Hx V ltac:(lia) ltac:(rewrite app_length; lia) M2)
        as (r1 & E1 & V1 & S1 & St1).
      unfold readRecordFromRing in E. rewrite E1 in E. discriminate.
Qed.

Lemma finv_reach bo k p0 cpu s : 3 <= k <= 61 -> freach bo (2 ^ k) p0 cpu s ->
  exists T H p h done loaded pend, finv bo k p0 cpu s T H p h done loaded pend.
Proof.
  intros Hk R. induction R as [s Hi|s t R IH Hs].
  - destruct Hi as (A1 & A2 & A3 & A4 & A5 & A6 & A7 & A8).
    exists p0, p0, p0, p0, [], [], []. pose proof (pow2_pos k ltac:(lia)).
    constructor; rewrite ?A6, ?A7, ?A8; try assumption; try reflexivity; try constructor; try lia; auto.
    all: cbn; lia.
  - destruct IH as (T & H & p & h & done & loaded & pend & I).
    destruct (finv_step bo k p0 cpu s t T H p h done loaded pend Hk I Hs)
      as (T' & H' & p' & h' & d' & l' & q' & I' & _). exists T', H', p', h', d', l', q'. exact I'.
Qed.

(** ** Consequences *)
Lemma history_ok bo k p0 cpu s : 3 <= k <= 61 -> freach bo (2 ^ k) p0 cpu s ->
  map (fun r => (CPU r, RawSample r, LostSamples r)) (h_out s)
    = map (fun x => (cpu, payload x, lost x)) (firstn (length (h_out s)) (h_log s)) /\
  (length (h_out s) <= length (h_log s))%nat /\
  Forall (fun e => e = EEOR) (h_err s) /\
  exists T H, f_mtail (h_rdr s) = u64 T /\ f_mhead (h_rdr s) = u64 H /\
    T <= p0 + Z.of_nat (length (wires bo (firstn (length (h_out s)) (h_log s)))) <= H /\ H < T + 2 ^ k /\
    H = p0 + Z.of_nat (length (wires bo (h_log s))).
Proof.
  intros Hk R. destruct (finv_reach bo k p0 cpu s Hk R) as (T & H & p & h & done & loaded & pend & I).
  destruct I as [V Mh Mt Pd HT Hr Ph HH L Ok M O Er].
  assert (Lo : length (h_out s) = length done).
  { apply (f_equal (@length _)) in O. rewrite !map_length in O. exact O. }
  rewrite Lo, L, firstn_app, Nat.sub_diag, firstn_all, firstn_O, app_nil_r.
  split; [exact O|]. split; [rewrite !app_length; lia|]. split; [exact Er|].
  exists T, H. rewrite !wires_app, !app_length. repeat split; try assumption; lia.
Qed.

Lemma history_drained bo k p0 cpu s : 3 <= k <= 61 -> freach bo (2 ^ k) p0 cpu s ->
  match readRecordFromRing bo cpu false (Fwd (fwd_loadHead (h_rdr s))) with
  | (Ok rec, _) => exists x, nth_error (h_log s) (length (h_out s)) = Some x /\
      rec = mkRecord cpu (payload x) (lost x) (Z.of_nat (length (wires bo (skipn (S (length (h_out s))) (h_log s)))))
  | (Err e, _) => e = EEOR /\ length (h_out s) = length (h_log s)
  end.
Proof.
  intros Hk R.
  assert (R2 : freach bo (2 ^ k) p0 cpu (mkFsys (fwd_loadHead (h_rdr s)) (h_log s) (h_out s) (h_err s)))
    by (econstructor; [exact R|constructor]).
  destruct (finv_reach bo k p0 cpu s Hk R) as (T & H & p & h & done & loaded & pend & I).
  destruct I as [V Mh Mt Pd HT Hr Ph HH L Ok M O Er].
  assert (Lo : length (h_out s) = length done).
  { apply (f_equal (@length _)) in O. rewrite !map_length in O. exact O. }
  assert (V2 : view (Fwd (fwd_loadHead (h_rdr s))) (2 ^ k) (f_mem (h_rdr s)) p H) by (cbn in V |- *; intuition).
  rewrite Lo, L. rewrite wires_app, app_length in M. unfold readRecordFromRing.
  rewrite nth_error_app2, Nat.sub_diag by lia.
  rewrite skipn_app, (skipn_all2 done) by lia. cbn [app].
  replace (S (length done) - length done)%nat with 1%nat by lia.
  rewrite <- app_length, <- wires_app in M.
  assert (HHp : H = p + Z.of_nat (length (wires bo (loaded ++ pend)))) by (rewrite wires_app, app_length; lia).
  destruct (loaded ++ pend) as [|x q] eqn:Eq.
  - cbn in HHp. replace H with p in * by lia.
    destruct (readRecord_eor bo k _ _ p Hk V2) as (r1 & E1 & _). rewrite E1. cbn [andb].
    split; [reflexivity|]. rewrite app_nil_r. reflexivity.
  - inversion Ok as [|? ? Hx Hq]; subst x0 l.
    change (wires bo (x :: q)) with (wire bo x ++ wires bo q) in *. rewrite app_length in HHp.
    destruct (readRecord_ok bo k _ _ p H x (wires bo q) Hk Hx V2 ltac:(lia) ltac:(rewrite app_length; lia) M)
      as (r1 & E1 & V1 & S1 & St1).
    rewrite E1. exists x. split; [reflexivity|]. cbn [skipn].
    pose proof (wire_len bo x).
    rewrite (remaining_view k r1 _ _ _ Hk V1) by lia. rewrite (same_fwd _ _ S1). cbn [is_fwd]. f_equal. lia.
Qed.
