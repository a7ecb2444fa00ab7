(** C74: the contents of .kconfig. *)
From Coq Require Import Permutation.
From Verif.Base Require Import GoInt.
From Verif.Internal Require Import Kallsyms KallsymsSpec KallsymsProof Kconfig KconfigSpec KconfigParse KconfigProof KconfigResolve.

(** ** The configuration file *)
(** Parsing a file returns the first value of each wanted option, and fails iff a line is broken or reading fails before
    all the wanted options have been found. *)
Theorem C74_parse : forall ls rerr f, Forall line_ok ls -> NoDup f ->
  match Parse (unlines ls) rerr (Some f) with
  | Ok m => (Forall valid_line ls /\ rerr = false \/ suffices f ls) /\ (forall k v, cget m k = Some v <-> In k f /\ first_value ls k v)
  | Err _ => ~ (Forall valid_line ls /\ rerr = false) /\ ~ suffices f ls
  end.
Proof.
  intros ls rerr f H Hf. pose proof (Parse_spec ls rerr (Some f) H Hf) as P. change (stops (Some f) [] ls) with (suffices f ls) in P.
  destruct (Parse (unlines ls) rerr (Some f)); auto. destruct P as [P1 P2]. split; auto. intros k v. rewrite P2. cbn [wanted]. now rewrite mem_spec.
Qed.
(** Without a filter all options are returned, and every line must be valid. *)
Theorem C74_parse_all : forall ls rerr, Forall line_ok ls ->
  match Parse (unlines ls) rerr None with
  | Ok m => Forall valid_line ls /\ rerr = false /\ (forall k v, cget m k = Some v <-> first_value ls k v)
  | Err _ => ~ (Forall valid_line ls /\ rerr = false)
  end.
Proof.
  intros ls rerr H. pose proof (Parse_spec ls rerr None H I) as P. assert (NS : ~ stops None [] ls) by (intros (? & ? & ? & ? & ? & C); exact C).
  destruct (Parse (unlines ls) rerr None); [|tauto]. destruct P as [[[P1 P2]|P] P3]; [|contradiction]. split; auto. split; auto. intros k v. rewrite P3. cbn [wanted]. tauto.
Qed.
(* "CONFIG_A=y", "# CONFIG_B is not set", "CONFIG_A=n", "CONFIG_C=" *)
Definition cA : str := CONFIG ++ [65]. Definition cC : str := CONFIG ++ [67].
Definition ex_lines : list str := [[35; 32]; cA ++ [61; 121]; cA ++ [61; 110]; cC ++ [61]].
Lemma ex_line_ok : Forall line_ok ex_lines.
Proof. unfold ex_lines, line_ok. repeat constructor; cbn; lia. Qed.
Example C74_parse_first : Parse (unlines ex_lines) true (Some [cA]) = Ok [(cA, [121])]. Proof. vm_compute. reflexivity. Qed.
Example C74_parse_broken : Parse (unlines ex_lines) false (Some [cA; cC]) = Err PNoValue. Proof. vm_compute. reflexivity. Qed.

(** ** Values *)
(** The bytes of a variable are those which its type gives to the option's text, and types which can't represent the text
    are rejected. *)
Theorem C74_value : forall bo t text d, type_ok t -> 0 < sizeof t -> Z.of_nat (length text) < 2 ^ 32 -> plain_text text ->
  PutValue bo (repeat 0 (Z.to_nat (sizeof t))) t text = Ok d <-> represents bo (underlying t) text d.
Proof. exact PutValue_spec. Qed.
(* -5 as a signed 16 bit integer, 0x1ff as an unsigned one, 256 doesn't fit 8 bits, "ab" in four characters *)
Example C74_value_ex : PutValue LE [0; 0] (KWrap (KInt 2 encSigned)) [45; 53] = Ok [251; 255] /\ PutValue BE [0; 0] (KInt 2 0) [48; 120; 49; 102; 102] = Ok [1; 255]
  /\ PutValue LE [0] (KInt 1 0) [50; 53; 54] = Err (VNumber NRange) /\ PutValue LE [0; 0; 0; 0] (KArray (KInt 1 encChar) 4) [34; 97; 98; 34] = Ok [97; 98; 0; 0].
Proof. vm_compute. auto. Qed.
(** The empty string is accepted for a lone quote. *)
Theorem C74_lone_quote_refuted : exists d, PutValue LE (repeat 0 4) (KArray (KInt 1 encChar) 4) [34] = Ok d /\ forall s, [34] <> 34 :: s ++ [34].
Proof. exists [0; 0; 0; 0]. split; [reflexivity|]. intros [|? s] H; discriminate. Qed.
(** Strings which contain quotes at their ends lose them: the option's contents are an a, a backslash and a quote. *)
Theorem C74_quotes_refuted : exists s d, PutValue LE (repeat 0 4) (KArray (KInt 1 encChar) 4) (34 :: s ++ [34]) = Ok d /\ ~ represents LE (KArray (KInt 1 encChar) 4) (34 :: s ++ [34]) d.
Proof.
  exists [97; 92; 34], [97; 92; 0; 0]. split; [reflexivity|]. intros H. remember (KArray (KInt 1 encChar) 4) as t eqn:Et. remember (34 :: [97; 92; 34] ++ [34]) as x eqn:Ex. remember [97; 92; 0; 0] as d eqn:Ed.
  destruct H as [| | | | | | |elem enc n s H1 H2]; try discriminate. injection Et as -> ->. injection Ex as Ex. change [97; 92; 34; 34] with ([97; 92; 34] ++ [34]) in Ex. apply app_inj_tail in Ex. destruct Ex as [-> _]. discriminate Ed.
Qed.
(** A string which doesn't fit is cut off without a terminating zero. *)
Theorem C74_terminated_refuted : exists text d, plain_text text /\ PutValue LE (repeat 0 2) (KArray (KInt 1 encChar) 2) text = Ok d /\ ~ In 0 d.
Proof.
  exists [34; 97; 98; 99; 34], [97; 98]. split; [|split; [reflexivity|cbn; lia]]. split; [discriminate|]. intros s E. injection E as E. change [97; 98; 99; 34] with ([97; 98; 99] ++ [34]) in E.
  apply app_inj_tail in E. destruct E as [<- _]. cbn. lia.
Qed.

(** ** resolveKconfig *)
(** The map gets exactly these contents, in whatever order Go's maps are iterated; otherwise loading fails. *)
Theorem C74_contents : forall bo version wrapper ls rerr order size vars d, layout size vars -> good_file ls -> (forall l, Permutation (order l) l) ->
  resolveKconfig bo version wrapper (file_of ls rerr) order size vars = Ok d <-> contents bo version wrapper ls size vars d /\ readable vars ls rerr.
Proof.
  intros bo version wrapper ls rerr order size vars d Lay Good Perm. pose proof (resolve_spec bo version wrapper ls rerr order size vars Lay Good Perm) as P.
  destruct (resolveKconfig bo version wrapper (file_of ls rerr) order size vars) as [d0|e]; split.
  - intros E. injection E as <-. exact P.
  - intros [C _]. f_equal. apply (contents_unique bo version wrapper ls size vars); auto. apply P.
  - discriminate.
  - intros [C R]. destruct P as [_ P]. elim P. split; auto. now exists d.
Qed.
Theorem C74_no_panic : forall bo version wrapper ls rerr order size vars n, layout size vars -> good_file ls -> (forall l, Permutation (order l) l) ->
  resolveKconfig bo version wrapper (file_of ls rerr) order size vars <> Err (CPanic n) /\ resolveKconfig bo version wrapper (file_of ls rerr) order size vars <> Err (CPut n VPanic).
Proof.
  intros bo version wrapper ls rerr order size vars n Lay Good Perm. pose proof (resolve_spec bo version wrapper ls rerr order size vars Lay Good Perm) as P.
  destruct (resolveKconfig bo version wrapper (file_of ls rerr) order size vars) as [d0|e]; split; try discriminate; intros E; injection E as ->; destruct P as [P _]; now apply P.
Qed.
(** an example: the kernel's version, a bool and the wrapper *)
Definition ex_vars : list kvar := [mkVar KVERSION 0 4 (KInt 4 0); mkVar cA 4 1 (KWrap (KInt 1 encBool)); mkVar KWRAPPER 8 4 (KInt 4 encSigned)].
Example C74_layout_ex : layout 12 ex_vars.
Proof.
  constructor.
  - change (2 ^ 32) with 4294967296. lia.
  - cbn [map ex_vars kv_name]. repeat constructor; cbn [In]; intros H; repeat (destruct H as [H|H]; [discriminate H|]); exact H.
  - unfold ex_vars, type_ok. repeat constructor; cbn; try (change (2 ^ 32) with 4294967296); lia.
  - unfold ex_vars, disjoint. repeat constructor; cbn; lia.
Qed.
Example C74_file_ex : good_file (Some ex_lines).
Proof.
  split; [apply ex_line_ok|]. intros k t ([P1 P2] & Hne & pre & post & E & _). unfold plain_text.
  assert (Hin : In (k ++ 61 :: t) ex_lines) by (rewrite E; apply in_app_iff; right; now left).
  assert (C : cut 61 (k ++ 61 :: t) = Some (k, t)) by now apply cut_first.
  cbn [ex_lines In] in Hin. destruct Hin as [Hin|[Hin|[Hin|[Hin|[]]]]]; rewrite <- Hin in C; vm_compute in C; try discriminate; injection C as <- <-; try (now elim Hne); (split; [discriminate|intros s H; discriminate]).
Qed.
Example C74_contents_ex : resolveKconfig LE (Some 0x60102) (Some true) (file_of (Some ex_lines) true) (@rev kvar) 12 ex_vars = Ok [2; 1; 6; 0; 1; 0; 0; 0; 1; 0; 0; 0].
Proof. vm_compute. reflexivity. Qed.
(** The version can't be behind a typedef although options can. *)
Theorem C74_typedef_refuted : exists v, layout 4 [v] /\ kv_name v = KVERSION /\ underlying (kv_type v) = KInt 4 0 /\ resolveKconfig LE (Some 1) None None (fun l => l) 4 [v] = Err (CType KVERSION).
Proof.
  exists (mkVar KVERSION 0 4 (KWrap (KInt 4 0))). split; [|repeat split; reflexivity]. constructor; cbn [map kv_name]; [change (2 ^ 32) with 4294967296; lia|repeat constructor; intros []|unfold type_ok; repeat constructor; cbn; try (change (2 ^ 32) with 4294967296); lia|repeat constructor].
Qed.
(** A section which is too small for its variables makes loading panic. *)
Theorem C74_layout_refuted : exists size vars, NoDup (map kv_name vars) /\ resolveKconfig LE (Some 1) None None (fun l => l) size vars = Err (CPanic KVERSION).
Proof. exists 2, [mkVar KVERSION 0 4 (KInt 4 0)]. split; [repeat constructor; intros []|reflexivity]. Qed.

Print Assumptions C74_parse. Print Assumptions C74_parse_all. Print Assumptions C74_value. Print Assumptions C74_contents. Print Assumptions C74_no_panic.
Print Assumptions C74_lone_quote_refuted. Print Assumptions C74_quotes_refuted. Print Assumptions C74_terminated_refuted. Print Assumptions C74_typedef_refuted. Print Assumptions C74_layout_refuted.
