(** Proofs about btf/ext_info.go: parsing. *)
From Coq Require Import ZArith List Lia Bool Sorting.Sorted Permutation.
From Verif.Base Require Import GoInt ListExtra.
From Verif.Btf Require Import Strings StringsSpec StringsProof Wire WireSpec WireProof Names Types Decode Encode EncodeDone ExtInfo ExtInfoSpec.
Import ListNotations.
Open Scope Z_scope.

Lemma firstn_app_len {A} (a b : list A) n : length a = n -> firstn n (a ++ b) = a.
Proof. intros <-. rewrite firstn_app, firstn_all, Nat.sub_diag. cbn. apply app_nil_r. Qed.
Lemma skipn_app_len {A} (a b : list A) n : length a = n -> skipn n (a ++ b) = b.
Proof. intros <-. rewrite skipn_app, skipn_all, Nat.sub_diag. reflexivity. Qed.
Lemma encode_record_length bo ws : length (encode_record bo ws) = (4 * length ws)%nat.
Proof. unfold encode_record. induction ws as [|w ws IH]; [reflexivity|]. cbn [map concat]. rewrite app_length, put_length, IH. cbn [length]. lia. Qed.
Lemma get_put4 bo x : in_u 32 x -> get bo (put bo 4 x) = x.
Proof. intros H. rewrite get_put. apply Z.mod_small. exact H. Qed.
Lemma decodeWords_encode bo ws r : Forall (in_u 32) ws -> decodeWords bo (length ws) (encode_record bo ws ++ r) = ws.
Proof.
  intros F. induction F as [|w ws Hw F IH]; [reflexivity|]. cbn [length decodeWords]. unfold encode_record. cbn [map concat]. rewrite <- app_assoc. fold (encode_record bo ws).
  rewrite firstn_app_len by apply put_length. rewrite skipn_app_len by apply put_length. rewrite IH, get_put4; auto.
Qed.
Lemma decodeWords_sound bo : forall k b, bytes_ok b -> length b = (4 * k)%nat -> encode_record bo (decodeWords bo k b) = b /\ Forall (in_u 32) (decodeWords bo k b).
Proof.
  induction k as [|k IH]; intros b B L; cbn [decodeWords]; [destruct b; [split; [reflexivity|constructor]|discriminate L]|].
  rewrite <- (firstn_skipn 4 b) in B. apply bytes_ok_app in B as (B1 & B2). assert (L1 : length (firstn 4 b) = 4%nat) by (rewrite firstn_length; lia).
  destruct (IH (skipn 4 b) B2) as (E & F); [rewrite skipn_length; lia|]. split.
  - unfold encode_record in *. cbn [map concat]. rewrite E. rewrite <- L1 at 1. rewrite put_get by exact B1. apply firstn_skipn.
  - constructor; [|exact F]. unfold in_u. pose proof (get_range bo _ B1) as R. rewrite L1 in R. exact R.
Qed.
Lemma decodeWords_length bo k b : length (decodeWords bo k b) = k.
Proof. revert b. induction k as [|k IH]; intros b; cbn; [reflexivity|now rewrite IH]. Qed.

Lemma readWords_encode bo k ws r : (0 < k)%nat -> words_ok k ws -> readWords bo k (encode_record bo ws ++ r) = Ok (ws, r).
Proof.
  intros K (L & F). unfold readWords, readFull. rewrite app_length, encode_record_length, L. destruct (Nat.ltb_spec (4 * k + length r) (4 * k)); [lia|].
  rewrite firstn_app_len, skipn_app_len by (rewrite encode_record_length; lia). pose proof (decodeWords_encode bo ws [] F) as D. rewrite app_nil_r, L in D. now rewrite D.
Qed.
Lemma readWords_sound bo k r ws r' : bytes_ok r -> readWords bo k r = Ok (ws, r') -> r = encode_record bo ws ++ r' /\ words_ok k ws /\ bytes_ok r'.
Proof.
  intros B E. unfold readWords, readFull in E. assert (Hn : exists n, n = (4 * k)%nat) by (eexists; reflexivity). destruct Hn as (n & Hn). rewrite <- Hn in E.
  destruct (Nat.ltb_spec (length r) n); [destruct r; discriminate E|]. injection E as <- <-.
  pose proof B as B'. rewrite <- (firstn_skipn n r) in B'. apply bytes_ok_app in B' as (B1 & B2).
  destruct (decodeWords_sound bo k (firstn n r) B1) as (E & F); [rewrite firstn_length; lia|]. rewrite E. split; [symmetry; apply firstn_skipn|]. split; [split; [apply decodeWords_length|exact F]|exact B2].
Qed.
Lemma readWords_eof bo k r e : (0 < k)%nat -> readWords bo k r = Err e -> e = XEOF -> r = [].
Proof. intros K E ->. unfold readWords, readFull in E. destruct (Nat.ltb_spec (length r) (4 * k)); [destruct r; [reflexivity|discriminate E]|discriminate E]. Qed.

(** ** records *)
Definition aligned (ws : list Z) : Prop := nth 0 ws 0 mod 8 = 0.
Lemma toInsns_ok ws x : toInsns ws = Ok x <-> aligned ws /\ x = in_insns ws.
Proof.
  unfold toInsns, insnOff, aligned. destruct (Z.eqb_spec (nth 0 ws 0 mod 8) 0) as [E|E]; cbn [negb].
  - split; [intros H; injection H as <-; now split|]. intros (_ & ->). reflexivity.
  - split; [discriminate|]. intros (X & _). contradiction.
Qed.
Lemma opaque_ok {A} (x : res xerr A) a : opaque x = Ok a <-> x = Ok a.
Proof. destruct x as [y|[]]; cbn; split; intros H; congruence. Qed.
Lemma encode_records_length bo k rs : Forall (words_ok k) rs -> length (encode_records bo rs) = (4 * k * length rs)%nat.
Proof. unfold encode_records. induction 1 as [|ws rs (L & _) F IH]; [cbn; lia|]. cbn [map concat]. rewrite app_length, encode_record_length, IH. cbn [length]. lia. Qed.
Lemma readRecords_spec bo k inBytes : (0 < k)%nat -> forall n r l r', bytes_ok r ->
  readRecords bo k inBytes n r = Ok (l, r') <->
  exists rs, r = encode_records bo rs ++ r' /\ length rs = n /\ Forall (words_ok k) rs /\ (inBytes = true -> Forall aligned rs) /\ l = if inBytes then map in_insns rs else rs.
Proof.
  intros K. induction n as [|n IH]; intros r l r' B; cbn [readRecords].
  - split.
    + intros E. injection E as <- <-. exists []. repeat split; auto. now destruct inBytes.
    + intros (rs & Er & L & _ & _ & ->). destruct rs; [|discriminate L]. cbn in Er. subst r'. now destruct inBytes.
  - split.
    + intros E. destruct (opaque (readWords bo k r)) as [(ws, r1)|] eqn:Ew; [|discriminate E]. apply (proj1 (opaque_ok _ _)) in Ew. destruct (readWords_sound bo k r ws r1 B Ew) as (Er & Wk & B1).
      assert (T : exists x, (if inBytes then toInsns ws else Ok ws) = Ok x /\ (inBytes = true -> aligned ws) /\ x = if inBytes then in_insns ws else ws).
      { destruct inBytes; [|eexists; repeat split; discriminate]. destruct (toInsns ws) as [x|] eqn:Et; [|discriminate E]. exists x. apply toInsns_ok in Et as (A & ->). repeat split; auto. }
      destruct T as (x & Ex & A & ->). rewrite Ex in E. destruct (readRecords bo k inBytes n r1) as [(l1, r2)|] eqn:E1; [|discriminate E]. injection E as <- <-.
      apply IH in E1; [|exact B1]. destruct E1 as (rs & -> & L & F & Al & ->). exists (ws :: rs). split; [rewrite Er; unfold encode_records; cbn [map concat]; now rewrite <- app_assoc|].
      split; [cbn [length]; now rewrite L|]. split; [now constructor|]. split; [intros H; constructor; auto|]. now destruct inBytes.
    + intros (rs & -> & L & F & Al & ->). destruct rs as [|ws rs]; [discriminate L|]. unfold encode_records in *. cbn [map concat] in *. rewrite <- app_assoc in *.
      rewrite readWords_encode; [|exact K|exact (Forall_inv F)]. cbn [opaque].
      assert (T : (if inBytes then toInsns ws else Ok ws) = Ok (if inBytes then in_insns ws else ws)).
      { destruct inBytes; [|reflexivity]. apply toInsns_ok. split; [exact (Forall_inv (Al eq_refl))|reflexivity]. }
      rewrite T. apply bytes_ok_app in B as (_ & B). assert (X : readRecords bo k inBytes n (concat (map (encode_record bo) rs) ++ r') = Ok (if inBytes then map in_insns rs else rs, r')).
      { apply IH; [exact B|]. exists rs. split; [reflexivity|]. split; [cbn in L; lia|]. split; [exact (Forall_inv_tail F)|]. split; [intros H; exact (Forall_inv_tail (Al H))|reflexivity]. }
      rewrite X. now destruct inBytes.
Qed.

(** *** in chunks *)
Lemma splitWords_encode bo rs r : Forall (words_ok 4) rs -> splitWords bo (length rs) (encode_records bo rs ++ r) = rs.
Proof.
  induction 1 as [|ws rs (L & F) Fs IH]; [reflexivity|]. cbn [length splitWords]. unfold encode_records. cbn [map concat]. rewrite <- app_assoc. fold (encode_records bo rs).
  rewrite firstn_app_len by (rewrite encode_record_length; lia). rewrite skipn_app_len by (rewrite encode_record_length; lia). rewrite IH. f_equal.
  pose proof (decodeWords_encode bo ws [] F) as D. rewrite app_nil_r, L in D. exact D.
Qed.
Lemma splitWords_sound bo : forall n b, bytes_ok b -> length b = (16 * n)%nat -> encode_records bo (splitWords bo n b) = b /\ Forall (words_ok 4) (splitWords bo n b) /\ length (splitWords bo n b) = n.
Proof.
  induction n as [|n IH]; intros b B L; cbn [splitWords]; [destruct b; [repeat split; constructor|discriminate L]|].
  rewrite <- (firstn_skipn 16 b) in B. apply bytes_ok_app in B as (B1 & B2).
  destruct (IH (skipn 16 b) B2) as (E & F & Ln); [rewrite skipn_length; lia|]. assert (L1 : length (firstn 16 b) = 16%nat) by (rewrite firstn_length; lia).
  destruct (decodeWords_sound bo 4 (firstn 16 b) B1) as (E1 & F1); [exact L1|]. split; [|split].
  - unfold encode_records in *. cbn [map concat]. rewrite E, E1. apply firstn_skipn.
  - constructor; [|exact F]. split; [apply decodeWords_length|exact F1].
  - cbn [length]. now rewrite Ln.
Qed.
Lemma encode_records_app bo a b : encode_records bo (a ++ b) = encode_records bo a ++ encode_records bo b.
Proof. unfold encode_records. now rewrite map_app, concat_app. Qed.
Lemma readChunks_spec bo : forall fuel n out r l r', bytes_ok r -> (Z.to_nat n < fuel)%nat -> 0 <= n ->
  readChunks fuel bo n out r = Ok (l, r') <->
  exists rs, r = encode_records bo rs ++ r' /\ Z.of_nat (length rs) = n /\ Forall (words_ok 4) rs /\ l = out ++ rs.
Proof.
  induction fuel as [|f IH]; intros n out r l r' B Fu N; [lia|]. cbn [readChunks]. destruct (Z.gtb_spec n 0) as [P|P]; cbn [negb].
  - set (m := Z.min 1024 n). unfold readFull. destruct (Nat.ltb_spec (length r) (16 * Z.to_nat m)) as [Sh|Sh].
    + split; [destruct r; discriminate|]. intros (rs & -> & L & F & _). rewrite app_length, (encode_records_length bo 4 rs F) in Sh. lia.
    + cbn [opaque]. set (b := firstn (16 * Z.to_nat m) r). pose proof B as B'. rewrite <- (firstn_skipn (16 * Z.to_nat m) r) in B'. apply bytes_ok_app in B' as (B1 & B2).
      destruct (splitWords_sound bo (Z.to_nat m) b B1) as (E1 & F1 & L1); [unfold b; rewrite firstn_length; lia|].
      rewrite IH; [|exact B2|lia|lia]. split.
      * intros (rs & E2 & L2 & F2 & ->). exists (splitWords bo (Z.to_nat m) b ++ rs). split; [|split; [|split]].
        -- rewrite encode_records_app, E1, <- app_assoc, <- E2. symmetry. apply firstn_skipn.
        -- rewrite app_length, L1. lia.
        -- apply Forall_app. now split.
        -- now rewrite app_assoc.
      * intros (rs & E2 & L2 & F2 & ->). assert (Sp : rs = firstn (Z.to_nat m) rs ++ skipn (Z.to_nat m) rs) by (symmetry; apply firstn_skipn).
        pose proof F2 as F2'. rewrite Sp in F2'. apply Forall_app in F2' as (Fa & Fb). assert (La : length (firstn (Z.to_nat m) rs) = Z.to_nat m) by (rewrite firstn_length; lia).
        assert (Lc : length (encode_records bo (firstn (Z.to_nat m) rs)) = (16 * Z.to_nat m)%nat) by (rewrite (encode_records_length bo 4) by exact Fa; lia).
        exists (skipn (Z.to_nat m) rs). assert (Er : r = encode_records bo (firstn (Z.to_nat m) rs) ++ encode_records bo (skipn (Z.to_nat m) rs) ++ r') by (rewrite app_assoc, <- encode_records_app, <- Sp; exact E2).
        assert (Eb : b = encode_records bo (firstn (Z.to_nat m) rs)) by (unfold b; rewrite Er; now apply firstn_app_len).
        split; [rewrite Er; now apply skipn_app_len|]. split; [rewrite skipn_length; lia|]. split; [exact Fb|]. rewrite <- app_assoc. f_equal. rewrite Sp at 1. f_equal.
        rewrite Eb. pose proof (splitWords_encode bo (firstn (Z.to_nat m) rs) [] Fa) as X. rewrite app_nil_r, La in X. now rewrite X.
  - split.
    + intros E. injection E as <- <-. exists []. cbn. repeat split; auto; [lia|now rewrite app_nil_r].
    + intros (rs & -> & L & _ & ->). destruct rs; [|cbn in L; lia]. cbn. now rewrite app_nil_r.
Qed.
Lemma mapRes_insns rs : forall l, mapRes toInsns rs = Ok l <-> Forall aligned rs /\ l = map in_insns rs.
Proof.
  induction rs as [|ws rs IH]; intros l; cbn [mapRes map].
  - split; [intros E; injection E as <-; auto|]. intros (_ & ->). reflexivity.
  - destruct (toInsns ws) as [x|e] eqn:Et.
    + apply toInsns_ok in Et as (A & ->). destruct (mapRes toInsns rs) as [ys|e] eqn:Em.
      * pose proof (proj1 (IH ys) eq_refl) as (Al & ->). split; [intros E; injection E as <-; split; [now constructor|reflexivity]|]. intros (_ & ->). reflexivity.
      * split; [discriminate|]. intros (F & ->). pose proof (proj2 (IH (map in_insns rs)) (conj (Forall_inv_tail F) eq_refl)) as X. discriminate X.
    + split; [discriminate|]. intros (F & _). pose proof (proj2 (toInsns_ok ws _) (conj (Forall_inv F) eq_refl)) as X. congruence.
Qed.
Definition records_spec (k : nat) (parse : Z -> list Z -> res xerr (list (list Z) * list Z)) bo inBytes : Prop :=
  forall n r l r', bytes_ok r -> 0 <= n ->
  parse n r = Ok (l, r') <->
  exists rs, r = encode_records bo rs ++ r' /\ Z.of_nat (length rs) = n /\ Forall (words_ok k) rs /\ (inBytes = true -> Forall aligned rs) /\ l = if inBytes then map in_insns rs else rs.
Lemma func_records bo size inBytes : size = 8 -> records_spec 2 (fun n r => parseFuncInfoRecords bo size n inBytes r) bo inBytes.
Proof.
  intros -> n r l r' B N. unfold parseFuncInfoRecords. cbn [FuncInfoSize Z.eqb negb]. change (FuncInfoSize =? 8) with true. cbn [negb]. rewrite (readRecords_spec bo 2 inBytes ltac:(lia) (Z.to_nat n) r l r' B).
  split; intros (rs & E & L & X); exists rs; (split; [exact E|]); (split; [lia|exact X]).
Qed.
Lemma line_records bo size inBytes : size = 16 -> records_spec 4 (fun n r => parseLineInfoRecords bo size n inBytes r) bo inBytes.
Proof.
  intros -> n r l r' B N. unfold parseLineInfoRecords. change (LineInfoSize =? 16) with true. cbn [negb].
  pose proof (readChunks_spec bo (S (Z.to_nat n)) n [] r) as Sp. destruct (readChunks (S (Z.to_nat n)) bo n [] r) as [(out, r1)|e] eqn:Ec.
  - pose proof (proj1 (Sp out r1 B ltac:(lia) N) eq_refl) as (rs & -> & L & F & ->). cbn [app] in *. split.
    + destruct inBytes.
      * destruct (mapRes toInsns rs) as [ys|] eqn:Em; [|discriminate]. intros E. injection E as <- <-. apply mapRes_insns in Em as (Al & ->). exists rs. repeat split; auto.
      * intros E. injection E as <- <-. exists rs. repeat split; auto. discriminate.
    + intros (rs' & E' & L' & F' & Al & ->). pose proof (proj2 (Sp rs' r' B ltac:(lia) N)) as X. assert (Y := X ltac:(exists rs'; auto)). injection Y as Y1 Y2. subst.
      destruct inBytes; [|reflexivity]. rewrite (proj2 (mapRes_insns _ _) (conj (Al eq_refl) eq_refl)). reflexivity.
  - split; [discriminate|]. intros (rs' & E' & L' & F' & Al & ->). pose proof (proj2 (Sp rs' r' B ltac:(lia) N)) as X. assert (Y := X ltac:(exists rs'; auto)). discriminate Y.
Qed.
Lemma relo_records bo : records_spec 4 (fun n r => readRecords bo 4 true (Z.to_nat n) r) bo true.
Proof.
  intros n r l r' B N. rewrite (readRecords_spec bo 4 true ltac:(lia) (Z.to_nat n) r l r' B). split; intros (rs & E & L & X); exists rs; (split; [exact E|]); (split; [lia|exact X]).
Qed.

(** ** sections *)
Definition named_section (t : table) (sec : Z * list (list Z)) (name : str) : Prop := Lookup t (fst sec) = Some (Ok name) /\ name <> [].
Fixpoint puts {A} (m : list (str * A)) (l : list (str * A)) : list (str * A) := match l with [] => m | (k, v) :: l' => puts (m_put m k v) l' end.
Definition insn_sections (names : list str) (secs : list (Z * list (list Z))) : list (str * list (list Z)) := combine names (map (fun sec => map in_insns (snd sec)) secs).
Lemma secs_bytes bo secs : bytes_ok (concat (map (encode_section bo) secs)).
Proof.
  induction secs as [|sec secs IH]; [constructor|]. cbn [map concat]. apply bytes_ok_app. split; [|exact IH]. unfold encode_section. rewrite !bytes_ok_app. repeat split; try apply put_ok.
  unfold encode_records. induction (snd sec) as [|ws rs IH']; [constructor|]. cbn [map concat]. apply bytes_ok_app. split; [|exact IH']. unfold encode_record. clear. induction ws as [|w ws IH]; [constructor|]. cbn [map concat]. apply bytes_ok_app. split; [apply put_ok|exact IH].
Qed.
Lemma parseSections_sound bo t k parse : records_spec k parse bo true -> forall fuel acc r m, bytes_ok r -> parseSections fuel bo t parse acc r = Ok m ->
  exists secs names, r = concat (map (encode_section bo) secs) /\ Forall (section_ok k) secs /\ Forall2 (named_section t) secs names /\ m = puts acc (insn_sections names secs).
Proof.
  intros Sp. induction fuel as [|f IH]; intros acc r m B E; [discriminate E|]. cbn [parseSections] in E. unfold parseExtInfoSec in E.
  destruct (readWords bo 2 r) as [(ws, r1)|e] eqn:Ew.
  - destruct (readWords_sound bo 2 r ws r1 B Ew) as (Er & (Lw & Fw) & B1). destruct ws as [|nameOff [|num [|? ?]]]; try discriminate Lw.
    unfold lookupName in E. destruct (Lookup t nameOff) as [[name|]|] eqn:El; try discriminate E. destruct name as [|c name]; [discriminate E|].
    destruct (Z.eqb_spec num 0) as [|Nz]; [discriminate E|]. inversion Fw as [|? ? W1 Fw1]; subst. inversion Fw1 as [|? ? W2 _]; subst.
    destruct (parse num r1) as [(records, r2)|] eqn:Ep; [|discriminate E]. apply (Sp num r1 records r2 B1) in Ep; [|unfold in_u in W2; lia]. destruct Ep as (rs & -> & Ln & F & Al & ->).
    apply bytes_ok_app in B1 as (_ & B2). destruct (IH _ _ _ B2 E) as (secs & names & -> & Fs & Fn & ->).
    exists ((nameOff, rs) :: secs), ((c :: name) :: names). split; [|split; [|split]].
    + cbn [map concat]. unfold encode_section. cbn [fst snd]. rewrite Ln. unfold encode_record. cbn [map concat]. rewrite app_nil_r, <- !app_assoc. reflexivity.
    + constructor; [|exact Fs]. split; [exact W1|]. cbn [snd]. split; [intros ->; cbn in Ln; lia|]. split; [unfold in_u in W2; lia|]. specialize (Al eq_refl). clear -F Al. induction F as [|ws rs H F IH]; constructor; inversion Al; auto.
    + constructor; [|exact Fn]. split; [exact El|discriminate].
    + reflexivity.
  - destruct e; try discriminate E. injection E as <-. apply (readWords_eof bo 2 r XEOF ltac:(lia)) in Ew; [|reflexivity]. subst r. exists [], []. repeat split; constructor.
Qed.
Lemma parseSections_complete bo t k parse : records_spec k parse bo true -> forall secs names fuel acc,
  Forall (section_ok k) secs -> Forall2 (named_section t) secs names -> (length (concat (map (encode_section bo) secs)) < fuel)%nat ->
  parseSections fuel bo t parse acc (concat (map (encode_section bo) secs)) = Ok (puts acc (insn_sections names secs)).
Proof.
  intros Sp. induction secs as [|(nameOff, rs) secs IH]; intros names fuel acc Fs Fn Fu; (destruct fuel as [|f]; [lia|]); cbn [parseSections].
  - inversion Fn; subst. reflexivity.
  - inversion Fn as [|? name ? names' (El & Nn) Fn']; subst. inversion Fs as [|? ? (W & Ne & Ln & F) Fs']; subst. cbn [fst snd] in *.
    cbn [map concat] in *. unfold encode_section at 1. cbn [fst snd].
    assert (En : put bo 4 nameOff ++ put bo 4 (Z.of_nat (length rs)) = encode_record bo [nameOff; Z.of_nat (length rs)]) by (unfold encode_record; cbn [map concat]; now rewrite app_nil_r).
    replace ((put bo 4 nameOff ++ put bo 4 (Z.of_nat (length rs)) ++ encode_records bo rs) ++ concat (map (encode_section bo) secs)) with (encode_record bo [nameOff; Z.of_nat (length rs)] ++ encode_records bo rs ++ concat (map (encode_section bo) secs)) by (rewrite <- En, <- !app_assoc; reflexivity).
    unfold parseExtInfoSec. rewrite readWords_encode; [|lia|split; [reflexivity|]; constructor; [exact W|]; constructor; [unfold in_u; lia|constructor]].
    unfold lookupName. rewrite El. destruct name as [|c name]; [contradiction|]. destruct (Z.eqb_spec (Z.of_nat (length rs)) 0) as [Z0|_]; [destruct rs; [contradiction|cbn in Z0; lia]|].
    assert (Wk : Forall (words_ok k) rs /\ Forall aligned rs) by (clear -F; induction F as [|ws rs (Hw & Ha) F (I1 & I2)]; split; constructor; auto). destruct Wk as (Wk & Al).
    assert (Ep : parse (Z.of_nat (length rs)) (encode_records bo rs ++ concat (map (encode_section bo) secs)) = Ok (map in_insns rs, concat (map (encode_section bo) secs))).
    { apply Sp; [|lia|exists rs; repeat split; auto]. pose proof (secs_bytes bo ((nameOff, rs) :: secs)) as B. cbn [map concat] in B. unfold encode_section at 1 in B. cbn [fst snd] in B. rewrite !bytes_ok_app in B. apply bytes_ok_app. tauto. }
    rewrite Ep. rewrite IH with (names := names'); [reflexivity|exact Fs'|exact Fn'|]. rewrite app_length in Fu. unfold encode_section at 1 in Fu. rewrite !app_length, put_length in Fu. lia.
Qed.

Lemma recordSize_spec bo r size r' : bytes_ok r -> parseExtInfoRecordSize bo r = Ok (size, r') <-> r = put bo 4 size ++ r' /\ 4 <= size <= 256.
Proof.
  intros B. unfold parseExtInfoRecordSize. split.
  - destruct (opaque (readWords bo 1 r)) as [(ws, r1)|] eqn:Ew; [|discriminate]. apply (proj1 (opaque_ok _ _)) in Ew. destruct (readWords_sound bo 1 r ws r1 B Ew) as (-> & (L & F) & _). destruct ws as [|w [|? ?]]; try discriminate L.
    destruct (Z.ltb_spec w 4); [discriminate|]. rewrite Z.gtb_ltb. destruct (Z.ltb_spec 256 w); [discriminate|]. intros E. injection E as <- <-. split; [unfold encode_record; cbn; now rewrite app_nil_r|lia].
  - intros (-> & R). assert (X : put bo 4 size ++ r' = encode_record bo [size] ++ r') by (unfold encode_record; cbn; now rewrite app_nil_r). rewrite X, readWords_encode; [|lia|split; [reflexivity|]; constructor; [unfold in_u; lia|constructor]]. cbn [opaque].
    destruct (Z.ltb_spec size 4); [lia|]. rewrite Z.gtb_ltb. destruct (Z.ltb_spec 256 size); [lia|]. reflexivity.
Qed.
(** the three kinds of subsections *)
Definition subsection bo t k size (r : list Z) (m : list (str * list (list Z))) : Prop :=
  exists secs names, r = encode_infos bo size secs /\ Forall (section_ok k) secs /\ Forall2 (named_section t) secs names /\ m = puts [] (insn_sections names secs).
(** without sections, the size of the records doesn't matter for function and line infos *)
Lemma parseInfos_complete bo t k size parse secs names : 4 <= size <= 256 -> records_spec k (parse size) bo true -> Forall (section_ok k) secs -> Forall2 (named_section t) secs names ->
  match parseExtInfoRecordSize bo (encode_infos bo size secs) with
  | Err e => Err e
  | Ok (size, r) => parseSections (S (length r)) bo t (parse size) [] r
  end = Ok (puts [] (insn_sections names secs)).
Proof.
  intros R Sp F N. assert (B : bytes_ok (encode_infos bo size secs)) by (unfold encode_infos; apply bytes_ok_app; split; [apply put_ok|apply secs_bytes]).
  rewrite (proj2 (recordSize_spec bo (encode_infos bo size secs) size (concat (map (encode_section bo) secs)) B) (conj eq_refl R)). eapply parseSections_complete; eauto.
Qed.
Lemma parseFuncInfos_complete bo t secs names : Forall (section_ok 2) secs -> Forall2 (named_section t) secs names -> parseFuncInfos bo t (encode_infos bo 8 secs) = Ok (puts [] (insn_sections names secs)).
Proof. intros. unfold parseFuncInfos. apply (parseInfos_complete bo t 2 8 (fun size num r => parseFuncInfoRecords bo size num true r)); auto; [lia|]. now apply func_records. Qed.
Lemma parseLineInfos_complete bo t secs names : Forall (section_ok 4) secs -> Forall2 (named_section t) secs names -> parseLineInfos bo t (encode_infos bo 16 secs) = Ok (puts [] (insn_sections names secs)).
Proof. intros. unfold parseLineInfos. apply (parseInfos_complete bo t 4 16 (fun size num r => parseLineInfoRecords bo size num true r)); auto; [lia|]. now apply line_records. Qed.
Lemma parseCORERelos_complete bo t secs names : Forall (section_ok 4) secs -> Forall2 (named_section t) secs names -> parseCORERelos bo t (encode_infos bo 16 secs) = Ok (puts [] (insn_sections names secs)).
Proof.
  intros F N. pose proof (parseInfos_complete bo t 4 16 (fun size num r => readRecords bo 4 true (Z.to_nat num) r) secs names ltac:(lia) (relo_records bo) F N) as X. unfold parseCORERelos.
  assert (B : bytes_ok (encode_infos bo 16 secs)) by (unfold encode_infos; apply bytes_ok_app; split; [apply put_ok|apply secs_bytes]).
  rewrite (proj2 (recordSize_spec bo (encode_infos bo 16 secs) 16 (concat (map (encode_section bo) secs)) B)) in * by (split; [reflexivity|lia]). exact X.
Qed.
Lemma parseFuncInfos_sound bo t r m : bytes_ok r -> parseFuncInfos bo t r = Ok m -> exists size, (size = 8 \/ m = []) /\ subsection bo t 2 size r m.
Proof.
  intros B E. unfold parseFuncInfos in E. destruct (parseExtInfoRecordSize bo r) as [(size, r1)|] eqn:Es; [|discriminate E]. apply recordSize_spec in Es as (-> & R); [|exact B]. apply bytes_ok_app in B as (_ & B).
  destruct (Z.eq_dec size 8) as [->|Ns].
  - destruct (parseSections_sound bo t 2 _ (func_records bo 8 true eq_refl) _ _ _ _ B E) as (secs & names & -> & X). exists 8. split; [now left|]. exists secs, names. split; [reflexivity|exact X].
  - cbn [parseSections] in E. destruct (parseExtInfoSec bo t r1) as [((name, num), r2)|e] eqn:Ex.
    + unfold parseFuncInfoRecords in E. unfold FuncInfoSize in E. destruct (Z.eqb_spec 8 size); [congruence|discriminate E].
    + destruct e; try discriminate E. injection E as <-. exists size. split; [now right|]. exists [], []. split; [|repeat split; constructor]. unfold encode_infos. cbn. f_equal. unfold parseExtInfoSec in Ex. destruct (readWords bo 2 r1) as [(ws, r2)|e] eqn:Ew.
      * destruct (readWords_sound bo 2 r1 ws r2 B Ew) as (_ & (L & _) & _). destruct ws as [|a [|b [|? ?]]]; try discriminate L. unfold lookupName in Ex. destruct (Lookup t a) as [[[|c n]|]|]; try discriminate Ex. destruct (b =? 0); discriminate Ex.
      * injection Ex as ->. now apply (readWords_eof bo 2 r1 XEOF ltac:(lia)) in Ew.
Qed.
Lemma parseLineInfos_sound bo t r m : bytes_ok r -> parseLineInfos bo t r = Ok m -> exists size, (size = 16 \/ m = []) /\ subsection bo t 4 size r m.
Proof.
  intros B E. unfold parseLineInfos in E. destruct (parseExtInfoRecordSize bo r) as [(size, r1)|] eqn:Es; [|discriminate E]. apply recordSize_spec in Es as (-> & R); [|exact B]. apply bytes_ok_app in B as (_ & B).
  destruct (Z.eq_dec size 16) as [->|Ns].
  - destruct (parseSections_sound bo t 4 _ (line_records bo 16 true eq_refl) _ _ _ _ B E) as (secs & names & -> & X). exists 16. split; [now left|]. exists secs, names. split; [reflexivity|exact X].
  - cbn [parseSections] in E. destruct (parseExtInfoSec bo t r1) as [((name, num), r2)|e] eqn:Ex.
    + unfold parseLineInfoRecords in E. unfold LineInfoSize in E. destruct (Z.eqb_spec 16 size); [congruence|discriminate E].
    + destruct e; try discriminate E. injection E as <-. exists size. split; [now right|]. exists [], []. split; [|repeat split; constructor]. unfold encode_infos. cbn. f_equal. unfold parseExtInfoSec in Ex. destruct (readWords bo 2 r1) as [(ws, r2)|e] eqn:Ew.
      * destruct (readWords_sound bo 2 r1 ws r2 B Ew) as (_ & (L & _) & _). destruct ws as [|a [|b [|? ?]]]; try discriminate L. unfold lookupName in Ex. destruct (Lookup t a) as [[[|c n]|]|]; try discriminate Ex. destruct (b =? 0); discriminate Ex.
      * injection Ex as ->. now apply (readWords_eof bo 2 r1 XEOF ltac:(lia)) in Ew.
Qed.
Lemma parseCORERelos_sound bo t r m : bytes_ok r -> parseCORERelos bo t r = Ok m -> subsection bo t 4 16 r m.
Proof.
  intros B E. unfold parseCORERelos in E. destruct (parseExtInfoRecordSize bo r) as [(size, r1)|] eqn:Es; [|discriminate E]. apply recordSize_spec in Es as (-> & R); [|exact B]. apply bytes_ok_app in B as (_ & B).
  destruct (Z.eqb_spec size 16) as [->|]; [|discriminate E]. cbn [negb] in E. destruct (parseSections_sound bo t 4 _ (relo_records bo) _ _ _ _ B E) as (secs & names & -> & X). exists secs, names. split; [reflexivity|exact X].
Qed.

(** ** maps *)
Lemma get_put_same {A} m k (v : A) : m_get (m_put m k v) k = Some v.
Proof. induction m as [|(k', v') m IH]; cbn; [now rewrite (proj2 (str_eqb_eq k k) eq_refl)|]. destruct (str_eqb k k') eqn:E; cbn; [now rewrite (proj2 (str_eqb_eq k k) eq_refl)|]. rewrite E. exact IH. Qed.
Lemma get_put_other {A} m k k' (v : A) : k <> k' -> m_get (m_put m k v) k' = m_get m k'.
Proof.
  intros N. assert (F : str_eqb k' k = false) by (destruct (str_eqb k' k) eqn:E; [apply str_eqb_eq in E; congruence|reflexivity]).
  induction m as [|(q, w) m IH]; cbn; [now rewrite F|]. destruct (str_eqb k q) eqn:E; cbn; [|now rewrite IH]. apply str_eqb_eq in E. subst q. now rewrite F.
Qed.
Lemma put_keys {A} m k (v : A) : map fst (m_put m k v) = if existsb (str_eqb k) (map fst m) then map fst m else map fst m ++ [k].
Proof.
  induction m as [|(q, w) m IH]; cbn; [reflexivity|]. destruct (str_eqb k q) eqn:E; cbn; [apply str_eqb_eq in E; now subst|]. rewrite IH. destruct (existsb (str_eqb k) (map fst m)); reflexivity.
Qed.
Lemma put_NoDup {A} m k (v : A) : NoDup (map fst m) -> NoDup (map fst (m_put m k v)).
Proof.
  intros N. rewrite put_keys. destruct (existsb (str_eqb k) (map fst m)) eqn:E; [exact N|]. assert (X : ~ In k (map fst m)).
  { intros H. assert (Y : existsb (str_eqb k) (map fst m) = true) by (apply existsb_exists; exists k; split; [exact H|now apply str_eqb_eq]). congruence. }
  clear E. induction (map fst m) as [|a l IH]; cbn; [repeat constructor; intros []|]. inversion N; subst. constructor; [|apply IH; auto; intros H; apply X; now right].
  intros H. apply in_app_or in H as [H|[<-|[]]]; [contradiction|]. apply X. now left.
Qed.
Lemma puts_NoDup {A} (l : list (str * A)) : forall m, NoDup (map fst m) -> NoDup (map fst (puts m l)).
Proof. induction l as [|(k, v) l IH]; intros m N; cbn; [exact N|]. apply IH. now apply put_NoDup. Qed.
Lemma m_get_In {A} (m : list (str * A)) k v : m_get m k = Some v -> In (k, v) m.
Proof. induction m as [|(q, w) m IH]; cbn; [discriminate|]. destruct (str_eqb k q) eqn:E; [|auto]. apply str_eqb_eq in E. intros H. left. congruence. Qed.
Lemma m_get_NoDup {A} (m : list (str * A)) k v : NoDup (map fst m) -> In (k, v) m -> m_get m k = Some v.
Proof.
  induction m as [|(q, w) m IH]; cbn; intros N H; [destruct H|]. inversion N as [|? ? Nq N']; subst. destruct H as [H|H]; [injection H as -> ->; now rewrite (proj2 (str_eqb_eq k k) eq_refl)|].
  destruct (str_eqb k q) eqn:E; [|auto]. apply str_eqb_eq in E. subst q. exfalso. apply Nq. change k with (fst (k, v)). now apply in_map.
Qed.
Lemma put_In {A} (m : list (str * A)) k v e : In e (m_put m k v) -> e = (k, v) \/ In e m.
Proof. induction m as [|(q, w) m IH]; cbn; [intros [<-|[]]; auto|]. destruct (str_eqb k q); cbn; [intros [<-|H]; auto|]. intros [<-|H]; auto. destruct (IH H); auto. Qed.
Lemma puts_In {A} (l : list (str * A)) : forall m e, In e (puts m l) -> In e m \/ In e l.
Proof. induction l as [|(k, v) l IH]; intros m e H; cbn in *; [auto|]. apply IH in H as [H|H]; [|auto]. apply put_In in H as [->|H]; auto. Qed.
Lemma puts_distinct {A} (l : list (str * A)) : forall m, NoDup (map fst m ++ map fst l) -> puts m l = m ++ l.
Proof.
  induction l as [|(k, v) l IH]; intros m N; cbn; [now rewrite app_nil_r|]. assert (X : m_put m k v = m ++ [(k, v)]).
  { cbn in N. apply NoDup_remove in N as (_ & N). clear -N. induction m as [|(q, w) m IH]; cbn; [reflexivity|]. destruct (str_eqb k q) eqn:E; [apply str_eqb_eq in E; subst; exfalso; apply N; now left|]. f_equal. apply IH. intros H. apply N. now right. }
  rewrite X, IH; [now rewrite <- app_assoc|]. rewrite map_app, <- app_assoc. exact N.
Qed.
