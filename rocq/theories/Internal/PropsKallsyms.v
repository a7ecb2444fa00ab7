(** Properties C72 (addresses of kernel symbols) and C73 (programs which refer to them). *)
From Verif.Base Require Import GoInt.
From Verif.Internal Require Import Kallsyms KallsymsSpec KallsymsProof KsymProof.

(** ** C72 *)
(** One lookup with an empty cache: it succeeds iff each requested name belongs to no symbol or to exactly one, whose
    address is visible; then every requested name, and nothing else, has that address, or 0 without a symbol. *)
Theorem C72_lookup : forall ks symbols, Forall wf ks -> NoDup (map fst symbols) ->
  match AssignAddresses [] (Some (file ks, false)) symbols with
  | (_, m, None) => map fst m = map fst symbols /\ forall n, In n (map fst symbols) -> exists a, sget m n = Some a /\ resolves ks n a
  | (cache, m, Some e) => cache = [] /\ m = symbols /\ exists n, In n (map fst symbols) /\ (e = KAmbiguous n /\ ambiguous ks n \/ e = KRestricted n /\ restricted ks n)
  end.
Proof.
  intros ks symbols Hw ND. pose proof (assign_kernel ks [] symbols Hw ND) as K. destruct (AssignAddresses [] (Some (file ks, false)) symbols) as [[c m] [e|]].
  - destruct K as (-> & -> & n & Hn & _ & He). split; auto. split; [|exists n; auto]. unfold fromCache. cbn. induction symbols as [|[k v] s IH]; cbn; auto. f_equal. clear -s. induction s as [|[k v] s IH]; cbn; auto. now rewrite IH.
  - destruct K as (K1 & K2 & _). split; auto. intros n Hn. destruct (K2 n Hn) as (a & Ha & _ & [Hc|[_ Hr]]); [discriminate|]. exists a. auto.
Qed.
(** Any sequence of calls while the kernel's symbols change: each answer was read by this call or an earlier successful one;
    calls after a successful one (even those that fail) give the same answer for the names it requested; errors name a
    requested symbol of the kernel at the time of the call. *)
Theorem C72_history : forall cs, Forall call_ok cs ->
  (forall i c m n a, nth_error cs i = Some c -> nth_error (run [] cs) i = Some (m, None) -> requested c n -> sget m n = Some a ->
     exists j c' ks m', (j <= i)%nat /\ nth_error cs j = Some c' /\ nth_error (run [] cs) j = Some (m', None) /\ requested c' n /\ c_kernel c' = Some ks /\ resolves ks n a) /\
  (forall i j ci cj mi mj ej n a, (i <= j)%nat -> nth_error cs i = Some ci -> nth_error (run [] cs) i = Some (mi, None) -> requested ci n -> sget mi n = Some a ->
     nth_error cs j = Some cj -> nth_error (run [] cs) j = Some (mj, ej) -> requested cj n -> sget mj n = Some a) /\
  (forall i c m e, nth_error cs i = Some c -> nth_error (run [] cs) i = Some (m, e) -> map fst m = map fst (c_symbols c) /\
     match e with
     | None => True
     | Some e => c_kernel c = None /\ e = KOpen \/ exists ks n, c_kernel c = Some ks /\ requested c n /\ (e = KAmbiguous n /\ ambiguous ks n \/ e = KRestricted n /\ restricted ks n)
     end).
Proof.
  intros cs Hok. split; [|split].
  - intros i c m n a H1 H2 H3 H4. destruct (run_sound cs [] i c m n a Hok H1 H2 H3 H4) as [H|H]; [discriminate|exact H].
  - intros i j ci cj mi mj ej n a. intros. eapply (run_consistent cs [] i j); eauto.
  - intros i c m e H1 H2. split; [eapply run_keys; eauto|]. destruct e as [e|]; auto. eapply run_error; eauto.
Qed.
(** Calls which fail, for whatever reason and with whatever contents of the file, aren't remembered. *)
Theorem C72_failure : forall cache f symbols cache' m e, AssignAddresses cache f symbols = (cache', m, Some e) -> cache' = cache.
Proof. intros cache f symbols cache' m e H. pose proof (assign_any cache f symbols) as A. rewrite H in A. tauto. Qed.
(** Any file: a read error, or a line which is too long for the scanner, is never success with names that aren't cached. *)
Theorem C72_read_error : forall cache f e symbols n cache' m, In n (map fst symbols) -> sget cache n = None ->
  e = true \/ (exists pre l post, f = pre ++ l ++ post /\ Forall (fun b => b <> 10) l /\ 65536 <= Z.of_nat (length l)) ->
  AssignAddresses cache (Some (f, e)) symbols <> (cache', m, None).
Proof.
  intros cache f e symbols n cache' m Hn Hc He E. unfold AssignAddresses in E. destruct symbols as [|kv s]; [contradiction|]. assert (R := proj2 (request_In cache (kv :: s) n) (conj Hn Hc)).
  destruct (request cache (kv :: s)) as [|r req]; [contradiction|]. assert (A : forall m, assignAddresses f e (r :: req) <> Ok m).
  { intros m' H. unfold assignAddresses, lines in H. destruct He as [->|(pre & l & post & -> & Hl & Hlen)].
    - destruct (scan [] f) as [ls t]. destruct (assignLines _ _); [|discriminate]. rewrite orb_true_r in H. discriminate.
    - pose proof (scan_too_long pre [] l post Hl Hlen ltac:(cbn; lia)) as T. destruct (scan [] (pre ++ l ++ post)) as [ls t]. cbn in T. subst t. destruct (assignLines _ _); discriminate. }
  destruct (assignAddresses f e (r :: req)) as [a|x]; [exact (A a eq_refl)|discriminate].
Qed.
(** The cache also remembers that a symbol is missing, so that a module which is loaded later isn't found, and addresses of
    modules which were loaded again are old: success doesn't mean that the answer is that of the kernel at that time. *)
Definition sym (a : Z) (n : str) (m : option str) := mkSymbol a 116 n m.
Theorem C72_refuted_stale : exists cs i c ks m n a, Forall call_ok cs /\ nth_error cs i = Some c /\ c_kernel c = Some ks /\ nth_error (run [] cs) i = Some (m, None) /\
  requested c n /\ sget m n = Some a /\ ~ resolves ks n a /\ exists b, resolves ks n b /\ b <> 0.
Proof.
  exists [mkCall (Some []) [([97], 0)]; mkCall (Some [sym 4096 [97] (Some [109])]) [([97], 0)]], 1%nat, (mkCall (Some [sym 4096 [97] (Some [109])]) [([97], 0)]), [sym 4096 [97] (Some [109])], [([97], 0)], [97], 0.
  split; [|split; [|split; [|split; [|split; [|split; [|split]]]]]]; try reflexivity.
  - repeat constructor; cbn; intuition discriminate.
  - left. reflexivity.
  - unfold resolves. intros [[H _]|[_ H]]; [discriminate H|now apply H].
  - exists 4096. split; [|discriminate]. right. split; [reflexivity|discriminate].
Qed.
(** A map with cached and new names is changed although the lookup fails. *)
Theorem C72_refuted_untouched : exists cache f symbols cache' m e, AssignAddresses cache f symbols = (cache', m, Some e) /\ m <> symbols.
Proof. exists [([97], 4096)], None, [([97], 0); ([98], 0)], [([97], 4096)], [([97], 4096); ([98], 0)], KOpen. split; [reflexivity|discriminate]. Qed.

(** the hypotheses are met: a module's symbol, a duplicate and a hidden one *)
Definition ks0 := [sym 18446744071579394048 [95; 116; 101; 120; 116] None; sym 4096 [97] (Some [109; 49]); sym 8192 [98] None; sym 12288 [98] (Some [109; 49]); sym 0 [99] None].
Example ks0_wf : Forall wf ks0.
Proof. repeat constructor; cbn; try lia; unfold in_u, graphic; try lia; try discriminate. Qed.
Example kallsyms_ex :
  AssignAddresses [] (Some (file ks0, false)) [([97], 0); ([122], 0)] = ([([97], 4096); ([122], 0)], [([97], 4096); ([122], 0)], None)
  /\ AssignAddresses [] (Some (file ks0, false)) [([97], 0); ([98], 0)] = ([], [([97], 0); ([98], 0)], Some (KAmbiguous [98]))
  /\ AssignAddresses [] (Some (file ks0, false)) [([99], 0)] = ([], [([99], 0)], Some (KRestricted [99]))
  /\ AssignAddresses [] (Some (file ks0, false)) [([95; 116; 101; 120; 116], 0)] = ([([95; 116; 101; 120; 116], 18446744071579394048)], [([95; 116; 101; 120; 116], 18446744071579394048)], None).
Proof. vm_compute. repeat split. Qed.

(** ** C73 *)
(** A program's untyped references while the kernel's symbols don't change, whatever was looked up before (the cache agrees with
    the kernel, and still does afterwards). *)
Theorem C73_program : forall ks cache refs cache' r, Forall wf ks -> agrees ks cache -> resolveProgram cache (Some (file ks, false)) refs = (cache', r) ->
  let untyped := filter r_untyped refs in
  agrees ks cache' /\
  match r with
  | Ok cs => Forall2 (reference_ok ks) untyped cs
             \/ (exists r, In r untyped /\ restricted ks (r_name r)) /\ Forall2 (fun r c => reference_ok ks r c \/ r_weak r = true /\ c = Some 0) untyped cs
  | Err (RLookup e) => exists r, In r untyped /\ e = KAmbiguous (r_name r) /\ ambiguous ks (r_name r)
  | Err (RMissing ns) => ns <> [] /\ NoDup ns /\ forall n, In n ns <-> exists r, In r untyped /\ r_name r = n /\ r_weak r = false /\ addresses ks n = []
  | Err (RRequired ns e) => ns <> [] /\ NoDup ns /\ (forall n, In n ns -> exists r, In r untyped /\ r_name r = n /\ r_weak r = false) /\ exists r, In r untyped /\ e = KRestricted (r_name r) /\ restricted ks (r_name r)
  end.
Proof.
  intros ks cache refs cache' r Hw Hag E untyped. pose proof (applyUntyped_spec ks cache untyped Hw Hag) as A. unfold resolveProgram in E. fold untyped in E. rewrite E in A. destruct A as (A1 & _ & A2). auto.
Qed.
(** Whenever each untyped reference names a visible, unambiguous symbol or is weak and names none, all references are resolved. *)
Theorem C73_complete : forall ks cache refs, Forall wf ks -> agrees ks cache ->
  (forall r, In r refs -> r_untyped r = true -> exists a, resolves ks (r_name r) a /\ (a <> 0 \/ r_weak r = true)) ->
  exists cs, snd (resolveProgram cache (Some (file ks, false)) refs) = Ok cs /\ Forall2 (reference_ok ks) (filter r_untyped refs) cs.
Proof.
  intros ks cache refs Hw Hag H. destruct (resolveProgram cache (Some (file ks, false)) refs) as [cache' r] eqn:E. apply C73_program in E; auto. cbn zeta in E. cbn [snd]. destruct E as [_ E].
  assert (G : forall r, In r (filter r_untyped refs) -> exists a, resolves ks (r_name r) a /\ (a <> 0 \/ r_weak r = true)) by (intros r0 Hr; apply filter_In in Hr; destruct Hr; auto).
  assert (Gn : forall r, In r (filter r_untyped refs) -> ~ ambiguous ks (r_name r) /\ ~ restricted ks (r_name r)) by (intros r0 Hr; destruct (G r0 Hr) as (a & Ha & _); eapply resolves_not; eauto).
  destruct r as [cs|[e|ns|ns e]].
  - exists cs. split; auto. destruct E as [?|[(r & Hr & Hx) _]]; auto. destruct (Gn r Hr). contradiction.
  - destruct E as (r & Hr & _ & Hx). destruct (Gn r Hr). contradiction.
  - destruct E as (Hne & _ & E). destruct ns as [|n ns]; [contradiction|]. destruct (proj1 (E n)) as (r & Hr & <- & Hwk & Hn); [now left|]. destruct (G r Hr) as (a & [[_ Ha]|[Ha _]] & [Hz|Hz]); congruence.
  - destruct E as (_ & _ & _ & r & Hr & _ & Hx). destruct (Gn r Hr). contradiction.
Qed.
(** Collections: all references of all programs are looked up first; if that works all programs see the same symbols, and
    /proc/kallsyms isn't read again. *)
Theorem C73_collection : forall ks cache progs, Forall wf ks -> agrees ks cache ->
  match snd (loadCollection cache (Some (file ks, false)) progs) with
  | Ok css => Forall2 (fun p cs => Forall2 (reference_ok ks) (filter r_untyped p) cs) progs css
  | Err (RLookup e) => exists p r, In p progs /\ In r p /\ (e = KAmbiguous (r_name r) /\ ambiguous ks (r_name r) \/ e = KRestricted (r_name r) /\ restricted ks (r_name r))
  | Err (RMissing _) => exists p r, In p progs /\ In r p /\ r_untyped r = true /\ r_weak r = false /\ addresses ks (r_name r) = []
  | Err (RRequired _ _) => False
  end.
Proof.
  intros ks cache progs Hw Hag. unfold loadCollection. pose proof (populate_spec ks cache progs Hw Hag) as P. destruct (populateKallsyms cache (Some (file ks, false)) progs) as [cache' [e|]].
  - cbn [snd]. destruct P as [_ (p & r & H)]. exists p, r. exact H.
  - destruct P as [P1 P2]. pose proof (resolvePrograms_spec ks progs cache' Hw P1) as R. destruct (snd (resolvePrograms cache' (Some (file ks, false)) progs)) as [css|e].
    + apply R. intros p r Hp Hr. destruct (P2 p r Hp Hr) as (a & _ & Ha). eauto.
    + destruct R as [[ns ->] R]; [intros p r Hp Hr; destruct (P2 p r Hp Hr) as (a & _ & Ha); eauto|]. exact R.
Qed.
Theorem C73_one_read : forall ks cache progs cache', Forall wf ks -> agrees ks cache -> populateKallsyms cache (Some (file ks, false)) progs = (cache', None) ->
  forall f g, resolvePrograms cache' f progs = resolvePrograms cache' g progs.
Proof.
  intros ks cache progs cache' Hw Hag E f g. pose proof (populate_spec ks cache progs Hw Hag) as P. rewrite E in P. destruct P as [_ P]. apply resolvePrograms_cached. intros p r Hp Hr. destruct (P p r Hp Hr) as (a & Ha & _). congruence.
Qed.
(** A collection can't always be loaded although each of its programs can: the first lookup doesn't tolerate hidden addresses
    of weak references, and includes typed references, whose addresses aren't needed. *)
Theorem C73_refuted_weak : exists ks p, Forall wf ks /\ Forall (fun r => r_weak r = true) p /\
  (exists cs, snd (resolveProgram [] (Some (file ks, false)) p) = Ok cs) /\ snd (loadCollection [] (Some (file ks, false)) [p]) = Err (RLookup (KRestricted [99])).
Proof. exists ks0, [mkRef [99] true true]. split; [apply ks0_wf|]. split; [repeat constructor|]. vm_compute. split; eauto. Qed.
Theorem C73_refuted_typed : exists ks p, Forall wf ks /\ Forall (fun r => r_untyped r = false) p /\
  snd (resolveProgram [] (Some (file ks, false)) p) = Ok [] /\ snd (loadCollection [] (Some (file ks, false)) [p]) = Err (RLookup (KAmbiguous [98])).
Proof. exists ks0, [mkRef [98] false false]. split; [apply ks0_wf|]. split; [repeat constructor|]. vm_compute. auto. Qed.

Example ksym_ex : snd (loadCollection [] (Some (file ks0, false)) [[mkRef [97] false true; mkRef [122] true true]; [mkRef [95; 116; 101; 120; 116] false true]]) = Ok [[Some 4096; Some 0]; [Some (-2130157568)]].
Proof. vm_compute. reflexivity. Qed.
Example agrees_ex : agrees ks0 [([97], 4096); ([122], 0)].
Proof. intros n a H. cbn in H. destruct (str_eqb_spec [97] n); [injection H as <-; subst; right; split; [reflexivity|discriminate]|]. destruct (str_eqb_spec [122] n); [injection H as <-; subst; left; auto|discriminate]. Qed.

Print Assumptions C72_lookup.
Print Assumptions C72_history.
Print Assumptions C72_refuted_stale.
Print Assumptions C73_program.
Print Assumptions C73_complete.
Print Assumptions C73_collection.
Print Assumptions C73_one_read.
