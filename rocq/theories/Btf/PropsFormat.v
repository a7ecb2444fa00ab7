(** C59: the Go declaration of a type has the layout of the C type. *)
From Coq Require Import ZArith List Lia Bool.
From Verif.Base Require Import GoInt ListExtra.
From Verif.Btf Require Import Types TypesSpec TypesProof PropsTypes Format FormatSpec FormatProof.
Import ListNotations.
Open Scope Z_scope.

(** C59, without padding.  If the fields of the declared Go struct are put one directly after the other, they are at the
    offsets of the C members, and the struct has the size of the C struct; this also holds for all nested structs. *)
Theorem C59_packed pf h names ident name r g consts :
  c_heap h -> (forall t s d z, names t = Some s -> has_size h t d z -> named_size pf s = z) ->
  TypeDeclaration h names ident name r = Ok (g, consts) ->
  shows (poffsets pf 0) (psize pf) h names ident r g.
Proof.
  intros Hh Hn E. refine (declaration_ok pf h names ident _ _ (fun _ => True) _ _ Hh Hn name r g consts E Coq.Init.Logic.I); auto.
  intros fs _. split; [now apply Forall_forall|auto].
Qed.

Lemma roundup_divides x a : 0 < a -> (a | x) -> roundup x a = x.
Proof. intros A (k & ->). unfold roundup. replace (k * a + a - 1) with (a - 1 + k * a) by lia. rewrite Z.div_add, Z.div_small by lia. lia. Qed.
Fixpoint places (pf : platform) (off last : Z) (l : list gofield) : Z * Z :=
  match l with
  | [] => (off, last)
  | (_, t) :: l' => let o := roundup off (galign pf t) in places pf (o + gsize pf t) (gsize pf t) l'
  end.
Lemma gsize_struct pf fs : gsize pf (GStruct fs) = let '(off, last) := places pf 0 1 fs in roundup (if (last =? 0) && (off >? 0) then off + 1 else off) (galign pf (GStruct fs)).
Proof.
  change (gsize pf (GStruct fs)) with (let place := fix place (off : Z) (last : Z) (l : list (option str * gotype)) : Z * Z :=
          match l with
          | [] => (off, last)
          | (_, t) :: l' => let o := roundup off (galign pf t) in place (o + gsize pf t) (gsize pf t) l'
          end in
        let '(off, last) := place 0 1 fs in
        roundup (if (last =? 0) && (off >? 0) then off + 1 else off) (galign pf (GStruct fs))).
  cbv zeta. match goal with |- context [?p 0 1 fs] => match p with places pf => fail 1 | _ => assert (G : forall l off last, p off last l = places pf off last l) end end.
  { induction l as [|(s, t) l IH]; intros off last; cbn [places]; [reflexivity|]. apply IH. }
  rewrite G. reflexivity.
Qed.
Fixpoint naturals (pf : platform) (al off last : Z) (l : list gofield) : Prop :=
  match l with
  | [] => (al | off) /\ (last <> 0 \/ off = 0)
  | (_, t) :: l' => natural pf t /\ (galign pf t | off) /\ 0 <= psize pf t /\ naturals pf al (off + psize pf t) (psize pf t) l'
  end.
Lemma natural_struct pf fs : natural pf (GStruct fs) <-> naturals pf (galign pf (GStruct fs)) 0 1 fs.
Proof.
  change (natural pf (GStruct fs)) with ((fix all (off : Z) (last : Z) (l : list (option str * gotype)) : Prop :=
        match l with
        | [] => (galign pf (GStruct fs) | off) /\ (last <> 0 \/ off = 0)
        | (_, t) :: l' => natural pf t /\ (galign pf t | off) /\ 0 <= psize pf t /\ all (off + psize pf t) (psize pf t) l'
        end) 0 1 fs).
  generalize (galign pf (GStruct fs)) as al. intros al. match goal with |- ?p 0 1 fs <-> _ => enough (G : forall l off last, p off last l <-> naturals pf al off last l) by apply G end.
  induction l as [|(s, t) l IH]; intros off last; cbn [naturals]; [reflexivity|]. rewrite <- IH. reflexivity.
Qed.
Fixpoint gotype_ind2 (Q : gotype -> Prop) (q1 : Q GBool) (q2 : forall n, Q (GUint n)) (q3 : forall n, Q (GInt n)) (q4 : forall n, Q (GBytes n)) (q5 : forall n e, Q e -> Q (GArray n e))
  (q6 : forall fs, Forall (fun f => Q (snd f)) fs -> Q (GStruct fs)) (q7 : forall s, Q (GNamed s)) (g : gotype) : Q g :=
  match g with
  | GBool => q1 | GUint n => q2 n | GInt n => q3 n | GBytes n => q4 n
  | GArray n e => q5 n e (gotype_ind2 Q q1 q2 q3 q4 q5 q6 q7 e)
  | GStruct fs => q6 fs ((fix go l : Forall (fun f => Q (snd f)) l := match l with [] => Forall_nil _ | f :: l' => Forall_cons _ (gotype_ind2 Q q1 q2 q3 q4 q5 q6 q7 (snd f)) (go l') end) fs)
  | GNamed s => q7 s
  end.
Lemma galign_pos pf g : sane pf -> 0 < galign pf g.
Proof.
  intros (W & N). induction g as [| | | | |fs F|] using gotype_ind2; cbn [galign]; auto; try lia. induction F as [|f fs Hf F IH]; cbn [fold_right]; lia.
Qed.
Lemma natural_size pf g : sane pf -> natural pf g -> gsize pf g = psize pf g.
Proof.
  intros S. induction g as [| | | |n e IH|fs F|] using gotype_ind2; intros N; try reflexivity; [cbn [gsize psize]; rewrite IH; auto|].
  apply natural_struct in N. rewrite gsize_struct. pose proof (galign_pos pf (GStruct fs) S) as Ap. revert Ap N. generalize (galign pf (GStruct fs)) as al. intros al Ap N. cbn [psize].
  assert (G : forall l off last, Forall (fun f => natural pf (snd f) -> gsize pf (snd f) = psize pf (snd f)) l -> naturals pf al off last l -> 0 <= off ->
    let '(o, lst) := places pf off last l in o = off + fold_right (fun f z => psize pf (snd f) + z) 0 l /\ (al | o) /\ (lst <> 0 \/ o = 0)).
  { induction l as [|(s, t) l IH]; intros off last Fl Nl O0; cbn [places naturals fold_right] in *; [split; [lia|exact Nl]|].
    inversion Fl as [|? ? Ft Fl']; subst. cbn [snd] in *. destruct Nl as (Nt & Dt & P0 & Nl). rewrite (roundup_divides off _ (galign_pos pf t S) Dt), (Ft Nt).
    specialize (IH (off + psize pf t) (psize pf t) Fl' Nl ltac:(lia)). destruct (places pf (off + psize pf t) (psize pf t) l) as (o, lst). destruct IH as (-> & D & K). split; [lia|auto]. }
  specialize (G fs 0 1 F N (Z.le_refl 0)). destruct (places pf 0 1 fs) as (o, lst). destruct G as (Eo & D & K).
  replace ((lst =? 0) && (o >? 0)) with false by (symmetry; apply andb_false_iff; destruct K as [K|K]; [left; now apply Z.eqb_neq|right; subst o; rewrite K; reflexivity]).
  rewrite (roundup_divides o al Ap D). lia.
Qed.
Lemma naturals_fields pf al : forall l off last, naturals pf al off last l -> Forall (fun f => natural pf (snd f)) l.
Proof. induction l as [|(s, t) l IH]; intros off last N; constructor; cbn [naturals] in N; destruct N as (Nt & _ & _ & Nl); [exact Nt|eauto]. Qed.
Lemma natural_offsets pf al : sane pf -> forall l off last, naturals pf al off last l -> goffsets pf off l = poffsets pf off l.
Proof.
  intros S. induction l as [|(s, t) l IH]; intros off last N; cbn [goffsets poffsets naturals] in *; [reflexivity|]. destruct N as (Nt & Dt & _ & Nl). cbv zeta. rewrite (roundup_divides off _ (galign_pos pf t S) Dt), (natural_size pf t S Nt). f_equal. eauto.
Qed.

(** C59.  For types which Go does not pad ([natural]: every field is aligned where C puts it, no struct ends in a field of size
    zero), a successful TypeDeclaration gives a Go type which Go lays out like the C type: the named fields are exactly the
    members which are not bitfields, in order, at the offsets of the members, with types of which this is true too (an anonymous
    union is shown as its first member), and the sizes agree.
    Hypotheses: members and variables follow each other and do not extend beyond the end (as C compilers lay out types);
    the types which are referred to by name have the right size. *)
Theorem C59_layout pf h names ident name r g consts :
  c_heap h -> (forall t s d z, names t = Some s -> has_size h t d z -> named_size pf s = z) -> sane pf ->
  TypeDeclaration h names ident name r = Ok (g, consts) -> natural pf g ->
  shows (goffsets pf 0) (gsize pf) h names ident r g.
Proof.
  intros Hh Hn S E N. refine (declaration_ok pf h names ident _ _ (natural pf) _ _ Hh Hn name r g consts E N); [auto|].
  intros fs Nf. assert (Nf' := Nf). apply natural_struct in Nf'. split; [eapply naturals_fields; exact Nf'|]. split; [eapply natural_offsets; eauto|now apply natural_size].
Qed.
(** The size of a declared type is that of the C type, whenever Sizeof gives one. *)
Theorem C59_size pf h names ident name r g consts z :
  c_heap h -> (forall t s d z, names t = Some s -> has_size h t d z -> named_size pf s = z) -> sane pf ->
  TypeDeclaration h names ident name r = Ok (g, consts) -> natural pf g -> Sizeof h r = Ok z -> gsize pf g = z.
Proof.
  intros Hh Hn S E N Es. rewrite (natural_size pf g S N). unfold TypeDeclaration in E. destruct name; [discriminate E|]. destruct (skipQualifiers h r) as [u|] eqn:Eu; [|discriminate E].
  destruct (fst (format h names ident maxResolveDepth) u) as [g'|] eqn:El; [|discriminate E]. injection E as <- _.
  destruct (C37_exact h r z (proj1 Hh) Es) as (d & _ & Hz & _). destruct (skip_ok h names ident (poffsets pf 0) (psize pf) _ _ _ Eu) as (_ & Zs & _). destruct (Zs d z Hz) as (d' & Hz').
  refine (proj2 (proj1 (format_ok pf h names ident (poffsets pf 0) (psize pf) (fun _ => True) _ _ Hh Hn maxResolveDepth) u g' El) d' z Hz'); [auto|].
  intros fs _. split; [now apply Forall_forall|auto].
Qed.
(** The constants of an enum have its values: as signed numbers if the enum is signed. *)
Theorem C59_constants h names ident name r g consts s z sgn vs :
  TypeDeclaration h names ident name r = Ok (g, consts) -> deref h r = Some (NEnum s z sgn vs) ->
  (forall v, In v vs -> in_u 64 (ev_value v)) ->
  Forall2 (fun v c => fst c = name ++ ident (ev_name v) /\ snd c mod 2 ^ 64 = ev_value v /\ if sgn then in_s 64 (snd c) else 0 <= snd c) vs consts.
Proof.
  intros E D R. unfold TypeDeclaration in E. destruct name as [|c name]; [discriminate E|]. destruct (skipQualifiers h r) as [u|] eqn:Eu; [|discriminate E].
  assert (u = r) by (unfold skipQualifiers in Eu; cbn [skip_loop] in Eu; unfold qualify in Eu; rewrite D in Eu; congruence). subst u. rewrite D in E.
  destruct (fst _ r); [|discriminate E]. injection E as _ <-. clear D Eu. induction vs as [|v vs IH]; cbn [map]; constructor.
  - cbn [fst snd]. split; [reflexivity|]. pose proof (R v (or_introl eq_refl)) as Rv. destruct sgn; [|split; [now apply Z.mod_small|apply Rv]].
    unfold i64, sext, in_s, in_u in *. cbv zeta. rewrite (Z.mod_small _ _ Rv). destruct (Z.ltb_spec (ev_value v) (2 ^ (64 - 1))).
    + split; [now apply Z.mod_small|lia].
    + split; [|lia]. replace (ev_value v - 2 ^ 64) with (ev_value v + (-1) * 2 ^ 64) by lia. rewrite Z.mod_add by lia. now apply Z.mod_small.
  - apply IH. intros w Hw. apply R. now right.
Qed.

(** ** A concrete case *)
(** amd64 *)
Definition amd64 : platform := mkPlatform (fun n => if (n =? 1) || (n =? 2) || (n =? 4) || (n =? 8) then n else 1) (fun _ => 0) (fun _ => 1).
Definition id_ident (s : str) := s.
Definition no_names (r : ref) : option str := None.
(** struct s { char c; const u32 x[2]; union { u16 a; u8 b; }; u32 f:3; struct { u64 q; } n; } *)
Definition ex_heap : heap :=
  [NInt [99] 1 2; NInt [117] 4 0; NArray (RPtr 1) (RPtr 3) 2; NConst (RPtr 1); NInt [119] 2 0;
   NUnion [] 4 [mkMember [97] (RPtr 4) 0 0 []; mkMember [98] (RPtr 0) 0 0 []] [];
   NStruct [] 8 [mkMember [113] (RPtr 7) 0 0 []] []; NInt [113] 8 0;
   NStruct [115] 32 [mkMember [99] (RPtr 0) 0 0 []; mkMember [120] (RPtr 2) 32 0 []; mkMember [] (RPtr 5) 96 0 []; mkMember [102] (RPtr 1) 128 3 []; mkMember [110] (RPtr 6) 192 0 []] []].
Definition ex_go : gotype :=
  GStruct [(Some [99], GUint 1); (None, GBytes 3); (Some [120], GArray 2 (GUint 4)); (Some [97], GUint 2); (None, GBytes 2); (None, GBytes 8); (Some [110], GStruct [(Some [113], GUint 8)])].
Example C59_example : TypeDeclaration ex_heap no_names id_ident [83] (RPtr 8) = Ok (ex_go, []) /\ natural amd64 ex_go /\ gsize amd64 ex_go = 32 /\
  goffsets amd64 0 (match ex_go with GStruct fs => fs | _ => [] end) = [([99], 0, GUint 1); ([120], 4, GArray 2 (GUint 4)); ([97], 12, GUint 2); ([110], 24, GStruct [(Some [113], GUint 8)])].
Proof.
  split; [reflexivity|]. split; [|split; reflexivity]. cbn. repeat split; try lia; try (exists 0; reflexivity); try (now exists 1); try (now exists 4); try (now exists 3); try (now exists 12); try (now exists 14); try (now exists 16); try (now exists 6).
Qed.
Example C59_example_heap : c_heap ex_heap.
Proof.
  split; [repeat constructor; cbn; lia|]. intros a n E.
  apply nth_error_In in E. cbn [In] in E. repeat destruct E as [<-|E]; try destruct E; cbn; try exact Coq.Init.Logic.I.
  - split; [reflexivity|]. exists 1%nat, 2. split; [eapply hs_int; reflexivity|]. split; cbn; lia.
  - exists 1%nat, 8. split; [eapply hs_int; reflexivity|]. split; cbn; lia.
  - exists 1%nat, 1. split; [eapply hs_int; reflexivity|]. split; [cbn; lia|]. exists 3%nat, (2 * 4). split; [eapply hs_array; [reflexivity|]; eapply hs_const; [reflexivity|]; eapply hs_int; reflexivity|]. split; [cbn; lia|].
    exists 1%nat, 4. split; [eapply hs_union; reflexivity|]. split; [cbn; lia|]. exists 1%nat, 8. split; [eapply hs_struct; reflexivity|]. split; cbn; lia.
Qed.

(** ** Where the declaration is wrong *)
(** C59 refuted for packed structs: struct { u8 a; u32 b; } of 5 bytes is declared as struct { a uint8; b uint32 }: Go puts b at
    offset 4 instead of 1. *)
Definition packed_heap : heap := [NInt [117] 1 0; NInt [118] 4 0; NStruct [115] 5 [mkMember [97] (RPtr 0) 0 0 []; mkMember [98] (RPtr 1) 8 0 []] []].
Theorem C59_refuted_packed : exists fs, TypeDeclaration packed_heap no_names id_ident [83] (RPtr 2) = Ok (GStruct fs, []) /\ c_heap packed_heap /\
  goffsets amd64 0 fs = [([97], 0, GUint 1); ([98], 4, GUint 4)] /\ gsize amd64 (GStruct fs) = 8.
Proof.
  eexists. split; [reflexivity|]. split; [|split; reflexivity]. split; [repeat constructor; cbn; lia|]. intros a n E.
  apply nth_error_In in E. cbn [In] in E. repeat destruct E as [<-|E]; try destruct E; cbn; try exact Coq.Init.Logic.I.
  exists 1%nat, 1. split; [eapply hs_int; reflexivity|]. split; [cbn; lia|]. exists 1%nat, 4. split; [eapply hs_int; reflexivity|]. split; cbn; lia.
Qed.
(** C59 refuted for flexible array members: struct { u32 n; u32 d[]; } has 4 bytes, the declared Go struct has 8. *)
Definition flexible_heap : heap := [NInt [118] 4 0; NArray (RPtr 0) (RPtr 0) 0; NStruct [115] 4 [mkMember [110] (RPtr 0) 0 0 []; mkMember [100] (RPtr 1) 32 0 []] []].
Theorem C59_refuted_flexible : exists fs, TypeDeclaration flexible_heap no_names id_ident [83] (RPtr 2) = Ok (GStruct fs, []) /\ c_heap flexible_heap /\
  Sizeof flexible_heap (RPtr 2) = Ok 4 /\ gsize amd64 (GStruct fs) = 8.
Proof.
  eexists. split; [reflexivity|]. split; [|split; reflexivity]. split; [repeat constructor; cbn; lia|]. intros a n E.
  apply nth_error_In in E. cbn [In] in E. repeat destruct E as [<-|E]; try destruct E; cbn; try exact Coq.Init.Logic.I.
  exists 1%nat, 4. split; [eapply hs_int; reflexivity|]. split; [cbn; lia|]. exists 2%nat, (0 * 4). split; [eapply hs_array; [reflexivity|]; eapply hs_int; reflexivity|]. split; cbn; lia.
Qed.
(** An empty union makes TypeDeclaration panic. *)
Theorem C59_refuted_empty_union : TypeDeclaration [NUnion [117] 0 [] []] no_names id_ident [83] (RPtr 0) = Err FPanic.
Proof. reflexivity. Qed.
(** An int of 3 bytes is declared as uint24, which is not a Go type. *)
Theorem C59_refuted_int : TypeDeclaration [NInt [105] 3 0] no_names id_ident [83] (RPtr 0) = Ok (GUint 3, []).
Proof. reflexivity. Qed.
