(** C107: information about maps. *)
From Coq Require Import ZArith List Bool Lia String.
From Verif Require Import Base.GoInt Internal.Kallsyms Internal.Kconfig Internal.KconfigSpec Internal.KconfigProof Maps.FdInfo Maps.FdInfoSpec.
Import ListNotations.
Open Scope Z_scope.

Lemma eqb_true a b : str_eqb a b = true <-> a = b.
Proof. unfold str_eqb. destruct (list_eq_dec _ _ _); split; auto; discriminate. Qed.
Lemma cut_app k r : ~ In 58 k -> cut (k ++ 58 :: r) = Some (k, r).
Proof. induction k as [|c k IH]; intros N; [reflexivity|]. cbn [app cut]. destruct (Z.eqb_spec c 58); [exfalso; apply N; now left|]. rewrite IH; [reflexivity|]. intros I. apply N. now right. Qed.
Lemma cut_none s : ~ In 58 s -> cut s = None.
Proof. induction s as [|c s IH]; intros N; [reflexivity|]. cbn [cut]. destruct (Z.eqb_spec c 58); [exfalso; apply N; now left|]. rewrite IH; [reflexivity|]. intros I. apply N. now right. Qed.
Lemma trim_text s : Forall (fun c => 33 <= c <= 126) s -> TrimSpace (9 :: s) = s.
Proof.
  intros F. unfold TrimSpace. change (trimFront (9 :: s)) with (trimFront s).
  assert (G : forall s, Forall (fun c => 33 <= c <= 126) s -> trimFront s = s) by (intros [|c t] H; [reflexivity|]; inversion H; subst; cbn [trimFront]; assert (SP : isSpace c = false) by (unfold isSpace; lia); rewrite SP; reflexivity).
  rewrite (G s) by auto. rewrite G by (now apply Forall_rev). apply rev_involutive.
Qed.
Lemma fscan_text bits s v : textOf bits s v -> fscan bits s = Some v.
Proof.
  intros [_ [[-> [[-> ->] | [-> ->]]] | (B & N & V)]]; [reflexivity|reflexivity|]. unfold fscan. replace (bits =? 1) with false by lia.
  assert (P : ParseUint s bits = Ok v) by (apply ParseUint_spec; [lia|auto]). now rewrite P.
Qed.
Definition shape (fs : list field) : list (str * Z) := map (fun f => (fkey f, fbits f)) fs.
Lemma shape_assign k v fs : shape (assign k v fs) = shape fs.
Proof. unfold shape, assign. rewrite map_map. apply map_ext. intros f. destruct (str_eqb _ _); reflexivity. Qed.
Lemma lookup_in k bits fs : NoDup (map fst (shape fs)) -> In (k, bits) (shape fs) -> exists f, lookup k fs = Some f /\ In f fs /\ fkey f = k /\ fbits f = bits.
Proof.
  unfold shape, lookup. rewrite map_map. cbn [fst]. induction fs as [|f fs IH]; cbn [map find In]; intros N I; [easy|]. inversion N; subst. destruct (str_eqb (fkey f) k) eqn:E.
  - apply eqb_true in E. destruct I as [I|I]; [injection I as I1 I2; exists f; auto|]. exfalso. apply H1. rewrite E. apply in_map_iff in I as (g & I & J). injection I as <- I2. now apply in_map.
  - destruct I as [I|I]; [injection I as I1 I2; apply eqb_true in I1; congruence|]. destruct (IH H2 I) as (g & A & B & C & D). exists g. auto.
Qed.
Lemma lookup_none k fs : ~ In k (map fst (shape fs)) -> lookup k fs = None.
Proof. unfold shape, lookup. rewrite map_map. cbn [fst]. induction fs as [|f fs IH]; cbn [map find In]; intros N; [reflexivity|]. destruct (str_eqb (fkey f) k) eqn:E; [apply eqb_true in E; tauto|]. apply IH. tauto. Qed.
Definition isIn (k : str) (ks : list str) : bool := existsb (str_eqb k) ks.
Definition supplement (m : str -> Z) (ks : list str) (f : field) : field := Field (fkey f) (fbits f) (if fval f =? 0 then if isIn (fkey f) ks then m (fkey f) else 0 else fval f).
Lemma supplement_nil m fs : map (supplement m []) fs = fs.
Proof. induction fs as [|[k b v] fs IH]; [reflexivity|]. cbn [map]. rewrite IH. f_equal. unfold supplement. cbn. destruct (Z.eqb_spec v 0); congruence. Qed.
Lemma scan_file m keys lines ks : file m keys lines ks -> (forall k, In k (map fst keys) -> ~ In 58 k) -> NoDup (map fst keys) -> forall fs n, shape fs = keys -> scanLines lines fs n = Ok ((n + List.length ks)%nat, map (supplement m ks) fs).
Proof.
  intros F NC ND. induction F as [|l ls k ks L F IH|l ls ks L F IH]; intros fs n S; cbn [scanLines List.length].
  - rewrite supplement_nil, Nat.add_0_r. reflexivity.
  - inversion L as [k' bits s I T E1 E2| |]; subst. rewrite cut_app by (apply NC; now apply (in_map fst) in I). destruct (lookup_in k bits fs ND I) as (f & A & B & C & D). rewrite A. destruct (Z.eqb_spec (fval f) 0) as [Z0|NZ]; cbn [negb].
    + rewrite trim_text by apply T. rewrite D, (fscan_text _ _ _ T). rewrite IH by apply shape_assign. do 2 f_equal; [lia|]. unfold assign. rewrite map_map. apply map_ext_in. intros g G.
      unfold supplement, isIn. cbn [existsb]. destruct (str_eqb (fkey g) k) eqn:EK; cbn [fkey fbits fval orb]; [|destruct (Z.eqb_spec (fval g) 0); reflexivity].
      apply eqb_true in EK. assert (g = f) as ->.
      { clear - ND G B C EK. subst. revert ND G B. unfold shape. rewrite map_map. cbn [fst]. induction fs as [|h fs IH]; cbn [map In]; intros ND G B; [easy|]. inversion ND; subst. destruct G as [<-|G], B as [<-|B]; auto.
        - exfalso. apply H1. rewrite EK. now apply in_map. - exfalso. apply H1. rewrite <- EK. now apply in_map. }
      rewrite C, Z0. cbn. destruct (Z.eqb_spec (m k) 0) as [Q|]; [rewrite Q; destruct (existsb _ ks); reflexivity|reflexivity].
    + rewrite IH by auto. do 2 f_equal; [lia|]. apply map_ext_in. intros g G. unfold supplement, isIn. cbn [existsb]. destruct (Z.eqb_spec (fval g) 0) as [Z0|]; auto. destruct (str_eqb (fkey g) k) eqn:EK; auto. exfalso. apply eqb_true in EK. apply NZ. rewrite <- Z0. f_equal.
      clear - ND G B C EK. subst. revert ND G B. unfold shape. rewrite map_map. cbn [fst]. induction fs as [|h fs IH]; cbn [map In]; intros ND G B; [easy|]. inversion ND; subst. destruct G as [<-|G], B as [<-|B]; auto.
      * exfalso. apply H1. rewrite EK. now apply in_map. * exfalso. apply H1. rewrite <- EK. now apply in_map.
  - inversion L as [|k s N1 N2 E1 E2|s N E1 E2]; subst.
    + rewrite cut_app by auto. rewrite lookup_none by auto. auto.
    + rewrite cut_none by auto. auto.
Qed.
Lemma allKeys_ok : (forall k, In k (map fst allKeys) -> ~ In 58 k) /\ NoDup (map fst allKeys).
Proof.
  split.
  - intros k I. assert (B : forallb (fun k => negb (existsb (Z.eqb 58) k)) (map fst allKeys) = true) by (vm_compute; reflexivity). rewrite forallb_forall in B. specialize (B k I). intros J. assert (E : existsb (Z.eqb 58) k = true) by (apply existsb_exists; exists 58; split; auto). rewrite E in B. discriminate.
  - assert (D : (fix nodup (l : list str) : bool := match l with [] => true | a :: l => negb (existsb (str_eqb a) l) && nodup l end) (map fst allKeys) = true) by (vm_compute; reflexivity).
    revert D. generalize (map fst allKeys). induction l as [|a l IH]; intros D; [constructor|]. apply andb_prop in D as [D1 D2]. constructor; auto. intros I. assert (E : existsb (str_eqb a) l = true) by (apply existsb_exists; exists a; split; auto; now apply eqb_true). rewrite E in D1. discriminate.
Qed.
(** a field of the result *)
Definition fieldOf (mi : MapInfo) (k : str) : Z := match lookup k (fields_ mi) with Some f => fval f | None => 0 end.
(** The values of the map where [known], 0 elsewhere *)
Definition tells (m : str -> Z) (known : str -> bool) (mi : MapInfo) : Prop := Type_ mi = (if known map_type then m map_type else 0) /\ forall k, In k (map fst (tl allKeys)) -> fieldOf mi k = if known k then m k else 0.
Lemma lookup_map (h : field -> field) (g : str * Z -> field) (keys : list (str * Z)) (k : str) : (forall x, fkey (h x) = fkey x) -> In k (map fst keys) -> (forall x, In x keys -> fkey (g x) = fst x) -> exists b, lookup k (map h (map g keys)) = Some (h (g (k, b))) /\ In (k, b) keys.
Proof.
  intros H I G. induction keys as [|[a b] keys IH]; [easy|]. cbn [map] in *. unfold lookup. cbn [find]. rewrite H, (G (a, b)) by now left. cbn [fst] in *. destruct (str_eqb a k) eqn:E.
  - apply eqb_true in E. subst. exists b. split; [auto|now left].
  - destruct I as [I|I]; [apply eqb_true in I; congruence|]. destruct IH as (b' & A & B); auto; [intros x X; apply G; now right|]. exists b'. split; [exact A|now right].
Qed.
Lemma proc m lines ks t g : file m allKeys lines ks -> (forall x, fkey (g x) = fst x /\ fbits (g x) = snd x) -> let fs := map g mapFields in
  readMapInfoFromProc (Ok lines) (Info t fs) = match ks with [] => (Some ENotSupported, Info t fs) | _ => (None, Info (if t =? 0 then if isIn map_type ks then m map_type else 0 else t) (map (supplement m ks) fs)) end.
Proof.
  intros F G fs. unfold readMapInfoFromProc, scanFdInfoReader. cbn [fields_ Type_]. destruct allKeys_ok as [A1 A2].
  rewrite (scan_file m allKeys lines ks F A1 A2).
  2:{ change allKeys with ((map_type, 32) :: mapFields). unfold shape, fs. cbn [map fkey fbits]. f_equal. rewrite map_map. rewrite <- (map_id mapFields) at 2. apply map_ext. intros [a b]. destruct (G (a, b)) as [E1 E2]. rewrite E1, E2. reflexivity. }
  cbn [map]. unfold supplement at 1 3. cbn [fkey fbits fval Z.eqb]. destruct ks as [|k ks]; reflexivity.
Qed.
Lemma in_fields k : In k (map fst mapFields) -> exists b, In (k, b) mapFields.
Proof. intros I. apply in_map_iff in I as ([a b] & <- & I). eauto. Qed.
(** Every field that the kernel tells or that is printed in fdinfo has the value of the map, in whichever order, between whichever other lines and in whichever base they are printed; other fields are 0. *)
Theorem C107_info : forall m (told : str -> bool) lines ks, file m allKeys lines ks ->
  exists mi, newMapInfoFromFd (Ok (fun k : str => if told k then m k else 0)) (Ok lines) = Ok mi /\
  tells m (fun k => (told k && negb (str_eqb k (lit "memlock")) && negb (str_eqb k (lit "frozen"))) || isIn k ks) mi.
Proof.
  intros m told lines ks F. unfold newMapInfoFromFd. match goal with |- context[map ?h mapFields] => set (g := h) end. rewrite (proc m lines ks _ g F) by (intros; split; reflexivity).
  assert (NT : str_eqb map_type (lit "memlock") = false /\ str_eqb map_type (lit "frozen") = false) by (split; vm_compute; reflexivity). destruct NT as [NT1 NT2].
  assert (V : forall ks' k, In k (map fst mapFields) -> match lookup k (map (supplement m ks') (map g mapFields)) with Some f => fval f | None => 0 end = if (told k && negb (str_eqb k (lit "memlock")) && negb (str_eqb k (lit "frozen"))) || isIn k ks' then m k else 0).
  { intros ks' k I. destruct (lookup_map (supplement m ks') g mapFields k) as (b & L & _); auto. rewrite L. unfold supplement, g. cbn [fkey fval fst].
    destruct (str_eqb k (lit "memlock")); cbn [orb negb andb]; [rewrite ?andb_false_r; reflexivity|]. destruct (str_eqb k (lit "frozen")); cbn [orb negb andb]; [rewrite ?andb_false_r; reflexivity|]. rewrite !andb_true_r.
    destruct (told k); cbn [orb]; [|reflexivity]. destruct (Z.eqb_spec (m k) 0) as [Q|]; [rewrite Q; destruct (isIn k ks'); reflexivity|reflexivity]. }
  destruct ks as [|k0 ks]; eexists; (split; [reflexivity|]); (split; [cbn [Type_]; rewrite NT1, NT2; cbn [negb]; rewrite !andb_true_r|intros k I; unfold fieldOf; cbn [fields_]]).
  - unfold isIn. cbn [existsb]. now rewrite orb_false_r.
  - specialize (V [] k I). rewrite supplement_nil in V. exact V.
  - destruct (told map_type); cbn [orb]; [|reflexivity]. destruct (Z.eqb_spec (m map_type) 0) as [Q|]; [rewrite Q; destruct (isIn _ _); reflexivity|reflexivity].
  - now apply V.
Qed.
(** On kernels that don't tell anything, fdinfo is enough; if it has nothing either, that is an error. *)
Theorem C107_old : forall m lines ks, file m allKeys lines ks -> match newMapInfoFromFd (Err EINVAL) (Ok lines) with Ok mi => ks <> [] /\ tells m (fun k => isIn k ks) mi | Err e => ks = [] /\ e = EBoth end.
Proof.
  intros m lines ks F. unfold newMapInfoFromFd. change (EINVAL =? EINVAL) with true. cbn [negb]. match goal with |- context[map ?h mapFields] => set (g := h) end. rewrite (proc m lines ks _ g F) by (intros; split; reflexivity). destruct ks as [|k0 ks]; [auto|]. split; [easy|]. split; [reflexivity|].
  intros k I. unfold fieldOf. cbn [fields_]. destruct (lookup_map (supplement m (k0 :: ks)) g mapFields k) as (b & L & _); auto. rewrite L. reflexivity.
Qed.
(** Other errors of the kernel are reported; so is fdinfo that can't be opened, even if the kernel told everything. *)
Theorem C107_errors : (forall n p, n <> EINVAL -> newMapInfoFromFd (Err n) p = Err (EErrno n)) /\ (forall o n, newMapInfoFromFd o (Err n) = Err (EErrno match o with Err e => if e =? EINVAL then n else e | Ok _ => n end)).
Proof.
  split.
  - intros n p H. unfold newMapInfoFromFd. apply Z.eqb_neq in H. now rewrite H.
  - intros [f|e] n; unfold newMapInfoFromFd, readMapInfoFromProc; [reflexivity|]. destruct (e =? EINVAL); reflexivity.
Qed.
(** A line whose value can't be read is an error, unless the kernel told the value. *)
Theorem C107_malformed : forall m (told : str -> bool) lines ks k b s more, file m allKeys lines ks -> ~ In k ks -> In (k, b) allKeys -> (k = map_type \/ told k = false \/ m k = 0 \/ k = lit "memlock" \/ k = lit "frozen") -> fscan b (TrimSpace s) = None ->
  newMapInfoFromFd (Ok (fun k => if told k then m k else 0)) (Ok (lines ++ (k ++ 58 :: s) :: more)) = Err (EParse k).
Proof.
  intros m told lines ks k b s more F NI I Z0 BAD. unfold newMapInfoFromFd. match goal with |- context[map ?h mapFields] => set (g := h) end. unfold readMapInfoFromProc, scanFdInfoReader. cbn [fields_ Type_]. destruct allKeys_ok as [A1 A2].
  assert (APP : forall l1 l2 fs n, scanLines (l1 ++ l2) fs n = match scanLines l1 fs n with Ok (n, fs) => scanLines l2 fs n | Err e => Err e end).
  { clear. induction l1 as [|l l1 IH]; intros l2 fs n; cbn [app scanLines]; [reflexivity|]. destruct (cut l) as [[a r]|]; auto. destruct (lookup a fs); auto. destruct (negb _); auto. destruct (fscan _ _); auto. }
  set (fs := Field map_type 32 0 :: map g mapFields). assert (S : shape fs = allKeys) by (vm_compute; reflexivity).
  rewrite APP, (scan_file m allKeys lines ks F A1 A2 fs 0 S). cbn [scanLines]. rewrite cut_app by (apply A1; now apply (in_map fst) in I).
  assert (S' : shape (map (supplement m ks) fs) = allKeys) by (rewrite <- S; unfold shape; rewrite map_map; reflexivity). rewrite <- S' in I, A2. destruct (lookup_in k b _ A2 I) as (f & L & J & K & B). rewrite L.
  assert (V : fval f = 0).
  { apply in_map_iff in J as (f' & <- & J). cbn [supplement fkey fval] in *. assert (NK : isIn (fkey f') ks = false) by (rewrite K; destruct (isIn k ks) eqn:Q; auto; apply existsb_exists in Q as (x & X & Q); apply eqb_true in Q; now subst). rewrite NK.
    destruct (Z.eqb_spec (fval f') 0) as [|NZ]; [reflexivity|]. exfalso. apply NZ. unfold fs in J. destruct J as [<-|J]; [reflexivity|]. apply in_map_iff in J as ([k' b'] & <- & J). cbn [g fkey fval fst] in *. subst k'.
    destruct (_ || _) eqn:M; [reflexivity|]. apply orb_false_elim in M as [M1 M2]. destruct Z0 as [-> |[T|[T|[-> | ->]]]].
    - exfalso. clear - J. apply (in_map fst) in J. cbn [fst] in J. assert (X : existsb (str_eqb map_type) (map fst mapFields) = true) by (apply existsb_exists; exists map_type; split; auto; now apply eqb_true). vm_compute in X. discriminate.
    - now rewrite T. - rewrite T. now destruct (told k). - assert (str_eqb (lit "memlock") (lit "memlock") = true) by now apply eqb_true. congruence. - assert (str_eqb (lit "frozen") (lit "frozen") = true) by now apply eqb_true. congruence. }
  rewrite V. cbn [Z.eqb negb]. rewrite B, BAD. reflexivity.
Qed.
(** A hash map with flags 0x80, frozen *)
Definition exMap (k : str) : Z := if str_eqb k map_type then 1 else if str_eqb k (lit "key_size") then 4 else if str_eqb k (lit "map_flags") then 128 else if str_eqb k (lit "memlock") then 4096 else if str_eqb k (lit "frozen") then 1 else 7.
Definition exLines : list str := [lit "pos:" ++ [9; 48]; lit "map_type:" ++ [9; 49]; lit "key_size:" ++ [9; 52]; lit "map_flags:" ++ [9] ++ lit "0x80"; lit "memlock:" ++ [9] ++ lit "4096"; lit "frozen:" ++ [9; 49]].
Theorem C107_example : file exMap allKeys exLines (map lit ["map_type"; "key_size"; "map_flags"; "memlock"; "frozen"]%string) /\
  match newMapInfoFromFd (Ok (fun k => if str_eqb k (lit "map_id") then 7 else 0)) (Ok exLines) with Ok mi => Type_ mi = 1 /\ map (fun k => fieldOf mi (lit k)) ["map_id"; "key_size"; "value_size"; "map_flags"; "memlock"; "frozen"]%string = [7; 4; 0; 128; 4096; 1] | Err _ => False end.
Proof.
  split; [|vm_compute; split; reflexivity].
  assert (P : forall s, forallb (fun c => (33 <=? c) && (c <=? 126)) s = true -> Forall (fun c => 33 <= c <= 126) s) by (intros s H; rewrite forallb_forall in H; apply Forall_forall; intros c I; specialize (H c I); lia).
  assert (T : forall bits s v, 1 < bits <= 64 -> forallb (fun c => (33 <=? c) && (c <=? 126)) s = true -> ParseUint s bits = Ok v -> textOf bits s v) by (intros bits s v B H E; split; [auto|]; right; split; [auto|]; apply ParseUint_spec; auto; lia).
  unfold exLines. apply fileOther; [apply (lineOther _ _ (lit "pos")); [cbn; lia|]|].
  { intros I. assert (X : existsb (str_eqb (lit "pos")) (map fst allKeys) = true) by (apply existsb_exists; exists (lit "pos"); split; auto; now apply eqb_true). vm_compute in X. discriminate. }
  cbn [map]. apply fileKey; [apply (lineKey _ _ map_type 32 [49]); [now left|apply T; [lia|reflexivity|vm_compute; reflexivity]]|].
  apply fileKey; [apply (lineKey _ _ (lit "key_size") 32 [52]); [do 2 right; now left|apply T; [lia|reflexivity|vm_compute; reflexivity]]|].
  apply fileKey; [apply (lineKey _ _ (lit "map_flags") 32 (lit "0x80")); [do 5 right; now left|apply T; [lia|reflexivity|vm_compute; reflexivity]]|].
  apply fileKey; [apply (lineKey _ _ (lit "memlock") 64 (lit "4096")); [do 7 right; now left|apply T; [lia|reflexivity|vm_compute; reflexivity]]|].
  apply fileKey; [apply (lineKey _ _ (lit "frozen") 1 [49]); [do 8 right; now left|split; [apply P; reflexivity|left; split; [reflexivity|right; split; [reflexivity|vm_compute; reflexivity]]]]|]. apply fileEnd.
Qed.

Print Assumptions C107_info.
Print Assumptions C107_old.
Print Assumptions C107_errors.
Print Assumptions C107_malformed.
Print Assumptions C107_example.
