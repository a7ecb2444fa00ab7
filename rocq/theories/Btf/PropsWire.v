(** C26, C27, C28: the BTF wire format (btf/btf_types.go, btf/btf.go loadRawSpec, btf/unmarshal.go scan). *)
From Coq Require Import ZArith List Lia Bool.
From Verif.Base Require Import GoInt ListExtra.
From Verif.Btf Require Import Strings StringsSpec StringsProof Wire WireSpec WireProof.
Import ListNotations.
Open Scope Z_scope.

(** ** C26 *)
(** Each getter reads its bits of the info word (WireSpec.field). *)
Theorem C26_getters : forall bt,
  Kind bt = field (Info bt) 24 5 /\ Vlen bt = field (Info bt) 0 16 /\ Linkage bt = field (Info bt) 0 16 /\
  FwdKind bt = field (Info bt) 31 1 /\ (kindFlagBool bt = true <-> field (Info bt) 31 1 = 1).
Proof.
  intros bt. split; [apply Kind_field|]. split; [apply Vlen_field|].
  split; [apply readBits_field; unfold btfTypeVlenMask, btfTypeVlenShift; lia|].
  assert (E : info bt btfTypeKindFlagMask btfTypeKindFlagShift = field (Info bt) 31 1)
    by (apply readBits_field; unfold btfTypeKindFlagMask, btfTypeKindFlagShift; lia).
  split; [exact E|]. unfold kindFlagBool. rewrite E. apply Z.eqb_eq.
Qed.

(** Writing through a setter: the field gets the value truncated to its width, all other bits of the info word
    and the other words of the record keep their value. *)
Definition writes (bt r : btfType) (lo n x : Z) : Prop :=
  field (Info r) lo n = x mod 2 ^ n /\ same_outside (Info bt) (Info r) lo n /\
  NameOff r = NameOff bt /\ SizeType r = SizeType bt /\ in_u 32 (Info r).

Lemma setInfo_writes bt x lo n : 0 <= n -> 0 <= lo -> n + lo <= 32 -> in_u 32 (Info bt) -> writes bt (setInfo bt x n lo) lo n x.
Proof.
  intros. unfold writes, setInfo. cbn [Info NameOff SizeType]. split; [apply write_field; assumption|].
  split; [apply write_same; assumption|]. split; [reflexivity|]. split; [reflexivity|]. apply write_range; assumption.
Qed.
Lemma u32_mod x n : 0 <= n <= 32 -> u32 x mod 2 ^ n = x mod 2 ^ n.
Proof. intros H. apply (wrapu_le n 32 x). lia. Qed.

Theorem C26_setters : forall bt x s, in_u 32 (Info bt) ->
  writes bt (SetKind bt x) 24 5 x /\
  writes bt (SetVlen bt x) 0 16 x /\
  writes bt (SetLinkage bt x) 0 16 x /\
  writes bt (SetFwdKind bt x) 31 1 x /\
  writes bt (setKindFlagBool bt s) 31 1 (if s then 1 else 0).
Proof.
  intros bt x s H.
  assert (G : forall lo n, 0 <= n -> 0 <= lo -> n + lo <= 32 -> writes bt (setInfo bt (u32 x) n lo) lo n x).
  { intros lo n H1 H2 H3. destruct (setInfo_writes bt (u32 x) lo n H1 H2 H3 H) as (E & R).
    split; [|exact R]. rewrite E. apply u32_mod. lia. }
  split; [apply (G 24 5); lia|]. split; [apply (G 0 16); lia|]. split; [apply (G 0 16); lia|]. split; [apply (G 31 1); lia|].
  apply (setInfo_writes bt _ 31 1); lia || assumption.
Qed.

(** Hence each getter returns what its setter wrote and is not affected by the setters of the other fields. *)
Lemma writes_other bt r lo n x lo' n' : 0 <= n' -> 0 <= lo' -> writes bt r lo n x -> lo' + n' <= lo \/ lo + n <= lo' ->
  field (Info r) lo' n' = field (Info bt) lo' n'.
Proof.
  intros Hn Hlo (_ & S & _) D. apply Z.bits_inj'. intros i Hi. rewrite !field_bit by assumption.
  destruct (Z.ltb_spec i n'); [|reflexivity]. cbn. apply S; lia.
Qed.
Theorem C26_get_set : forall bt x s, in_u 32 (Info bt) ->
  (Kind (SetKind bt x) = x mod 32 /\ Vlen (SetKind bt x) = Vlen bt /\ kindFlagBool (SetKind bt x) = kindFlagBool bt) /\
  (Vlen (SetVlen bt x) = x mod 65536 /\ Kind (SetVlen bt x) = Kind bt /\ kindFlagBool (SetVlen bt x) = kindFlagBool bt) /\
  (Linkage (SetLinkage bt x) = x mod 65536 /\ Kind (SetLinkage bt x) = Kind bt /\ kindFlagBool (SetLinkage bt x) = kindFlagBool bt) /\
  (FwdKind (SetFwdKind bt x) = x mod 2 /\ Kind (SetFwdKind bt x) = Kind bt /\ Vlen (SetFwdKind bt x) = Vlen bt) /\
  (kindFlagBool (setKindFlagBool bt s) = s /\ Kind (setKindFlagBool bt s) = Kind bt /\ Vlen (setKindFlagBool bt s) = Vlen bt).
Proof.
  intros bt x s H. destruct (C26_setters bt x s H) as (W1 & W2 & W3 & W4 & W5).
  assert (KF : forall r, (forall lo n x0, writes bt r lo n x0 -> (31 + 1 <= lo \/ lo + n <= 31) -> kindFlagBool r = kindFlagBool bt)).
  { intros r lo n x0 W D. destruct (C26_getters r) as (_ & _ & _ & E1 & _), (C26_getters bt) as (_ & _ & _ & E2 & _).
    unfold kindFlagBool. unfold FwdKind in E1, E2. rewrite E1, E2. f_equal. apply (writes_other bt r lo n x0); lia || assumption. }
  repeat split.
  - rewrite Kind_field. apply W1.
  - rewrite !Vlen_field. apply (writes_other _ _ _ _ _ 0 16 ltac:(lia) ltac:(lia) W1). lia.
  - apply (KF _ _ _ _ W1). lia.
  - rewrite Vlen_field. apply W2.
  - rewrite !Kind_field. apply (writes_other _ _ _ _ _ 24 5 ltac:(lia) ltac:(lia) W2). lia.
  - apply (KF _ _ _ _ W2). lia.
  - rewrite (proj1 (proj2 (proj2 (C26_getters _)))). apply W3.
  - rewrite !Kind_field. apply (writes_other _ _ _ _ _ 24 5 ltac:(lia) ltac:(lia) W3). lia.
  - apply (KF _ _ _ _ W3). lia.
  - destruct (C26_getters (SetFwdKind bt x)) as (_ & _ & _ & -> & _). apply W4.
  - rewrite !Kind_field. apply (writes_other _ _ _ _ _ 24 5 ltac:(lia) ltac:(lia) W4). lia.
  - rewrite !Vlen_field. apply (writes_other _ _ _ _ _ 0 16 ltac:(lia) ltac:(lia) W4). lia.
  - destruct (C26_getters (setKindFlagBool bt s)) as (_ & _ & _ & E & _). unfold kindFlagBool. unfold FwdKind in E. rewrite E.
    destruct W5 as [-> _]. destruct s; reflexivity.
  - rewrite !Kind_field. apply (writes_other _ _ _ _ _ 24 5 ltac:(lia) ltac:(lia) W5). lia.
  - rewrite !Vlen_field. apply (writes_other _ _ _ _ _ 0 16 ltac:(lia) ltac:(lia) W5). lia.
Qed.

(** The packed integer description. *)
Theorem C26_int : forall raw x, in_u 32 raw ->
  (IntEncoding (SetEncoding raw x) = x mod 16 /\ IntOffset (SetEncoding raw x) = IntOffset raw /\ IntBits (SetEncoding raw x) = IntBits raw) /\
  (IntOffset (SetOffset raw x) = x mod 256 /\ IntEncoding (SetOffset raw x) = IntEncoding raw /\ IntBits (SetOffset raw x) = IntBits raw) /\
  (IntBits (SetBits raw x) = x mod 256 /\ IntEncoding (SetBits raw x) = IntEncoding raw /\ IntOffset (SetBits raw x) = IntOffset raw) /\
  in_u 32 (SetEncoding raw x) /\ in_u 32 (SetOffset raw x) /\ in_u 32 (SetBits raw x).
Proof.
  intros raw x H.
  assert (EN : forall r, IntEncoding r = field r 24 4).
  { intros r. unfold IntEncoding. rewrite readBits_field by lia. apply wrapu_id. pose proof (field_range r 24 4 ltac:(lia)).
    unfold in_u. change (2 ^ 4) with 16 in *. change (2 ^ 8) with 256. lia. }
  assert (OF : forall r, IntOffset r = field r 16 8) by (intros; apply readBits_field; lia).
  assert (BI : forall r, IntBits r = field r 0 8) by (intros; apply readBits_field; lia).
  rewrite !EN, !OF, !BI. unfold SetEncoding, SetOffset, SetBits.
  rewrite !write_field by lia. rewrite !write_other by lia. rewrite (u32_mod x 4), (u32_mod x 8) by lia.
  repeat split; try (apply write_range; lia || assumption).
Qed.

Example C26_example : let bt := mkBtfType 7 0 9 in
  let r := setKindFlagBool (SetVlen (SetKind bt 4) 3) true in
  in_u 32 (Info bt) /\ Info r = 2214592515 /\ Kind r = 4 /\ Vlen r = 3 /\ kindFlagBool r = true /\ Vlen (SetVlen r 65539) = 3.
Proof. vm_compute. repeat split; congruence. Qed.

(** ** C27 *)
(** A header is accepted exactly if it is valid (WireSpec.valid_header), and what is returned is determined by the bytes. *)
Theorem C27_header : forall buf h l bo, bytes_ok buf ->
  parseBTFHeader buf = Ok (h, l, bo) <-> valid_header buf h l bo.
Proof. intros buf h l bo B. split; [apply parse_sound|apply parse_complete]; assumption. Qed.

Lemma slice_ok buf lo n : 0 <= lo -> 0 <= n -> lo + n <= Z.of_nat (length buf) ->
  slice buf lo (lo + n) = Some (at_ buf (Z.to_nat lo) (Z.to_nat n)).
Proof.
  intros. unfold slice. destruct (Z.leb_spec 0 lo), (Z.leb_spec lo (lo + n)), (Z.leb_spec (lo + n) (Z.of_nat (length buf))); try lia.
  cbn [andb]. do 2 f_equal. lia.
Qed.

(** Loading a blob of less than 4 GiB never panics, and succeeds exactly if the header is valid, the string and type
    sections lie inside the blob, and the string table is well formed; the sections are those bytes of the blob. *)
Theorem C27_sections : forall buf base, bytes_ok buf -> Z.of_nat (length buf) < 2 ^ 32 ->
  (exists r, loadSections buf base = Some r) /\
  forall bo t types, loadSections buf base = Some (Ok (bo, t, types)) <->
    exists h l, valid_header buf h l bo /\
      HdrLen h + StringOff h + StringLen h <= Z.of_nat (length buf) /\
      HdrLen h + TypeOff h + TypeLen h <= Z.of_nat (length buf) /\
      newStringTable (at_ buf (Z.to_nat (HdrLen h + StringOff h)) (Z.to_nat (StringLen h))) base = Ok t /\
      types = at_ buf (Z.to_nat (HdrLen h + TypeOff h)) (Z.to_nat (TypeLen h)).
Proof.
  intros buf base B L. unfold loadSections.
  destruct (parseBTFHeader buf) as [[[h l] bo]|e] eqn:P.
  2:{ split; [eauto|]. intros bo t types. split; [discriminate|]. intros (h & l & V & _). apply parse_complete in V; [congruence|assumption]. }
  pose proof (parse_sound buf h l bo B P) as V. pose proof V as (R & _ & _ & _ & Hh & Hc).
  destruct R as (_ & _ & _ & R4 & R5 & R6 & R7 & R8). unfold in_u in *.
  assert (Hlen : HdrLen h <= Z.of_nat (length buf)).
  { destruct Hc as [(H1 & _ & r & ->)|(H1 & _ & _ & r & ->)]; unfold layout_bytes; rewrite !app_length, header_length, ?app_length, ?put_length, repeat_length; lia. }
  assert (U : forall x, 0 <= x <= Z.of_nat (length buf) -> u32 x = x) by (intros; apply wrapu_id; unfold in_u; lia).
  rewrite (U (Z.of_nat (length buf))) by lia.
  destruct (Z.gtb_spec (HdrLen h) (Z.of_nat (length buf))); [lia|].
  assert (S1 : slice buf (HdrLen h) (Z.of_nat (length buf)) = Some (skipn (Z.to_nat (HdrLen h)) buf)).
  { replace (Z.of_nat (length buf)) with (HdrLen h + (Z.of_nat (length buf) - HdrLen h)) by lia.
    rewrite slice_ok by lia. f_equal. unfold at_. apply firstn_all2. rewrite skipn_length. lia. }
  rewrite S1. rewrite skipn_length.
  replace (Z.of_nat (length buf - Z.to_nat (HdrLen h))) with (Z.of_nat (length buf) - HdrLen h) by lia.
  assert (Uniq : forall h' l' bo', valid_header buf h' l' bo' -> h' = h /\ l' = l /\ bo' = bo).
  { intros h' l' bo' V'. apply parse_complete in V'; [|assumption]. rewrite V' in P. inversion P; auto. }
  assert (AT : forall o n, 0 <= o -> at_ (skipn (Z.to_nat (HdrLen h)) buf) (Z.to_nat o) n = at_ buf (Z.to_nat (HdrLen h + o)) n).
  { intros o n Ho. rewrite at_skipn. f_equal. lia. }
  destruct (Z.gtb_spec (StringOff h + StringLen h) (Z.of_nat (length buf) - HdrLen h)) as [G1|G1].
  { split; [eauto|]. intros bo0 t types. split; [discriminate|]. intros (h' & l' & V' & X & _). destruct (Uniq _ _ _ V') as (-> & _). lia. }
  rewrite (U (StringOff h + StringLen h)) by lia. rewrite slice_ok by (rewrite ?skipn_length; lia). rewrite AT by lia.
  destruct (newStringTable _ base) as [t|e] eqn:ET.
  2:{ split; [eauto|]. intros bo0 t types. split; [discriminate|]. intros (h' & l' & V' & _ & _ & X & _). destruct (Uniq _ _ _ V') as (-> & _). congruence. }
  destruct (Z.gtb_spec (TypeOff h + TypeLen h) (Z.of_nat (length buf) - HdrLen h)) as [G2|G2].
  { split; [eauto|]. intros bo0 t0 types. split; [discriminate|]. intros (h' & l' & V' & _ & X & _). destruct (Uniq _ _ _ V') as (-> & _). lia. }
  rewrite (U (TypeOff h + TypeLen h)) by lia. rewrite slice_ok by (rewrite ?skipn_length; lia). rewrite AT by lia.
  split; [eauto|]. intros bo0 t0 types. split.
  - intros E. inversion E; subst. exists h, l. split; [assumption|]. repeat split; lia || assumption.
  - intros (h' & l' & V' & _ & _ & E1 & E2). destruct (Uniq _ _ _ V') as (-> & -> & ->). congruence.
Qed.

(** The limit of 4 GiB is needed: the section bounds are added in 32 bits, so a larger blob makes the loader panic. *)
Definition big_header : btfHeader := mkHeader 60319 1 0 24 0 0 4294967295 1.
Theorem C27_large_blob_refuted : forall tail, bytes_ok tail -> Z.of_nat (length tail) = 4294967296 ->
  bytes_ok (header_bytes LE big_header ++ tail) /\ loadSections (header_bytes LE big_header ++ tail) None = None.
Proof.
  intros tail Bt Lt. assert (B : bytes_ok (header_bytes LE big_header ++ tail)).
  { apply bytes_ok_app. split; [|exact Bt]. repeat constructor; unfold is_byte; cbn; lia. }
  split; [exact B|]. unfold loadSections.
  assert (V : valid_header (header_bytes LE big_header ++ tail) big_header (mkLayout 0 0) LE).
  { split; [unfold header_ranges, in_u, big_header; cbn; lia|]. repeat split; try reflexivity; try (unfold big_header; cbn; lia).
    left. split; [unfold big_header; cbn; lia|]. split; [reflexivity|]. exists tail. reflexivity. }
  rewrite (parse_complete _ _ _ _ B V). rewrite app_length, header_length.
  replace (Z.of_nat (24 + length tail)) with 4294967320 by lia.
  change (HdrLen big_header >? u32 4294967320) with false. cbv iota.
  unfold slice at 1. rewrite app_length, header_length. replace (Z.of_nat (24 + length tail)) with 4294967320 by lia.
  change ((0 <=? HdrLen big_header) && (HdrLen big_header <=? 4294967320) && (4294967320 <=? 4294967320)) with true. cbv iota.
  set (n := Z.to_nat (4294967320 - HdrLen big_header)). assert (Ln : Z.of_nat n = 4294967296) by (apply Z2Nat.id; discriminate). clearbody n.
  set (sec := at_ _ _ _). assert (Ls : Z.of_nat (length sec) = 4294967296).
  { unfold sec. rewrite at_length; [exact Ln|]. rewrite app_length, header_length. change (Z.to_nat (HdrLen big_header)) with 24%nat. lia. }
  clearbody sec. rewrite Ls.
  change (StringOff big_header + StringLen big_header >? 4294967296) with false. cbv iota.
  unfold slice. rewrite Ls. reflexivity.
Qed.
(** such a blob exists *)
Example C27_large_blob_exists : exists tail, bytes_ok tail /\ Z.of_nat (length tail) = 4294967296.
Proof.
  exists (repeat 0 (Z.to_nat 4294967296)). split; [|rewrite repeat_length; apply Z2Nat.id; discriminate].
  apply Forall_forall. intros x Hx. apply repeat_spec in Hx. subst x. unfold is_byte. lia.
Qed.

Example C27_example : let buf := [159; 235; 1; 0; 24; 0; 0; 0; 0; 0; 0; 0; 12; 0; 0; 0; 12; 0; 0; 0; 3; 0; 0; 0;
                                  1; 0; 0; 0; 0; 0; 0; 7; 0; 0; 0; 0;  0; 97; 0] in
  bytes_ok buf /\ loadSections buf None = Some (Ok (LE, Table None [0; 97; 0], [1; 0; 0; 0; 0; 0; 0; 7; 0; 0; 0; 0])) /\
  parseBTFHeader (firstn 20 buf) = Err ReadHeader.
Proof. cbv zeta. split; [repeat constructor; unfold is_byte; lia|]. split; reflexivity. Qed.

(** ** C28 *)
(** The scan succeeds exactly on sequences of whole records and returns their offsets and headers. *)
Theorem C28_scan : forall bo buf l, bytes_ok buf ->
  allBtfTypeOffsets bo buf = Ok l <-> records bo 0 buf l.
Proof.
  intros bo buf l B. split.
  - intros E. apply scan_sound in E; [exact E|assumption|lia|lia].
  - intros R. apply scan_complete; [lia|cbn; lia|lia|exact R].
Qed.

(** The records partition the section: reading them as words loses nothing and encoding them gives the bytes back... *)
Theorem C28_lossless : forall bo buf rs, bytes_ok buf -> readRecs bo buf = Ok rs ->
  Forall rec_ok rs /\ buf = concat (map (encodeRec bo) rs).
Proof. exact readRecs_sound. Qed.

(** ... and every sequence of well formed records is scanned into exactly these records. *)
Theorem C28_encoded : forall bo rs, Forall rec_ok rs -> readRecs bo (concat (map (encodeRec bo) rs)) = Ok rs.
Proof. exact readRecs_encode. Qed.

Example C28_example :
  let rs := [mkRec (mkBtfType 1 16777216 4) [16777248]; mkRec (mkBtfType 0 33554432 1) [];
             mkRec (mkBtfType 5 67108866 8) [1; 1; 0; 3; 2; 32]] in
  Forall rec_ok rs /\ readRecs BE (concat (map (encodeRec BE) rs)) = Ok rs /\
  allBtfTypeOffsets BE (concat (map (encodeRec BE) rs)) = Ok [(0, hdr (nth 0 rs (mkRec (mkBtfType 0 0 0) [])));
     (16, mkBtfType 0 33554432 1); (28, mkBtfType 5 67108866 8)] /\
  allBtfTypeOffsets BE (removelast (concat (map (encodeRec BE) rs))) = Err AuxTruncated.
Proof.
  cbv zeta. split; [|split; [reflexivity|split; reflexivity]].
  repeat (apply Forall_cons; [split; [unfold type_ranges, in_u; cbn; lia|split;
    [apply DataLen_aux; reflexivity|repeat constructor; unfold in_u; cbn; lia]]|]). constructor.
Qed.
