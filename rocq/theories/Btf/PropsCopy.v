(** C35: Copy produces an isomorphic graph that shares nothing with the original. *)
From Coq Require Import ZArith List Lia Bool.
From Verif.Base Require Import GoInt ListExtra.
From Verif.Btf Require Import Types TypesSpec TypesProof CopyProof PropsTypes.
Import ListNotations.
Open Scope nat_scope.

(** nothing reachable is dangling; nil references are allowed *)
Definition no_dangling (h : heap) (r : ref) : Prop := forall x, reach h r x -> x = RNil \/ present h x.
(** no type of the graph is an explicit decl tag or a cycle marker, neither of which a user can construct *)
Definition no_markers (h : heap) (r : ref) : Prop :=
  forall x n, reach h r x -> deref h x = Some n -> match n with NDeclTag _ _ _ | NCycle _ => False | _ => True end.
(** [f] maps types to freshly allocated ones *)
Definition fresh_images (f : ref -> ref) (h : heap) (r : ref) : Prop :=
  forall x a, reach h r x -> x = RPtr a -> exists c, f x = RPtr c /\ length h <= c.

Definition G (m : copies) (r : ref) : ref := match r with RVoid => RVoid | _ => F m r end.

Lemma closed_keys h H' m' rs H m out : post h H m rs H' m' out -> m = [] -> forall r x, In r rs -> reach h r x -> x = RNil \/ In x (keys m').
Proof.
  intros [(news & -> & _ & _ & _ & En & _) _ _ I] -> r x Hr R. apply I in Hr. clear I. rewrite app_nil_r in *.
  induction R as [x|x y z E R IH]; [exact Hr|]. apply IH. destruct E as (n & D & Hy). destruct Hr as [->|Hr]; [discriminate D|].
  unfold keys in Hr. apply in_map_iff in Hr as (kv & <- & Hk). apply En in Hk. destruct Hk as [(Ev & _)|(a & c & n' & Ea & _ & _ & N & _ & K)].
  - rewrite Ev in D. discriminate D.
  - rewrite Ea in D. cbn in D. rewrite N in D. inversion D; subst n'. auto.
Qed.

Lemma NoDup_snd_fst {A B} (l : list (A * B)) a b v : NoDup (map snd l) -> In (a, v) l -> In (b, v) l -> a = b.
Proof.
  induction l as [|[k w] l IH]; [intros _ []|]. cbn [map snd]. intros N. inversion N as [|? ? Nw N']; subst.
  intros [Ea|Ia] [Eb|Ib].
  - congruence.
  - inversion Ea; subst. exfalso. apply Nw. now apply (in_map snd) in Ib.
  - inversion Eb; subst. exfalso. apply Nw. now apply (in_map snd) in Ia.
  - auto.
Qed.

Lemma post_iso h H' m' rs out : post h h [] rs H' m' out ->
  (forall r, In r rs -> no_markers h r) -> forall r, In r rs -> isomorphic_by (G m') h r H' (G m' r) /\ fresh_images (G m') h r /\
  (forall r', In r' rs -> forall x y, reach h r x -> reach h r' y -> G m' x = G m' y -> x = y).
Proof.
  intros P Pl r Hr. pose proof (closed_keys _ _ _ _ _ _ _ P eq_refl) as C. destruct P as [(news & -> & _ & N & V & En & _) _ _ _].
  rewrite app_nil_r in *.
  assert (Gk : forall x, In x (keys news) -> x <> RNil -> In (x, G news x) news).
  { intros x Hx Nx. destruct (lookup_key _ _ Hx) as (v & L). apply lookup_In in L as L'. unfold G, F. destruct x; [congruence| |].
    - apply En in L' as [(_ & E)|(a & c & n & E & _)]; [cbn in E; subst v; apply lookup_In, L|cbn in E; discriminate E].
    - rewrite L. exact L'. }
  assert (KN : ~ In RNil (keys news)).
  { intros X. unfold keys in X. apply in_map_iff in X as ([k v] & E & X). cbn in E. subst k. apply En in X. destruct X as [(E & _)|(a & c & n & E & _)]; discriminate E. }
  assert (Inj : forall r', In r' rs -> forall x y, reach h r x -> reach h r' y -> G news x = G news y -> x = y).
  { intros r' Hr' x y Rx Ry E. destruct (C r x Hr Rx) as [->|Kx], (C r' y Hr' Ry) as [->|Ky]; try reflexivity.
    - exfalso. assert (y <> RNil) by (intros ->; contradiction). pose proof (Gk _ Ky ltac:(assumption)) as I. cbn [G F] in E. rewrite <- E in I. apply En in I as [(_ & X)|(a & c & n & _ & X & _)]; discriminate X.
    - exfalso. assert (x <> RNil) by (intros ->; contradiction). pose proof (Gk _ Kx ltac:(assumption)) as I. cbn [G F] in E. rewrite E in I. apply En in I as [(_ & X)|(a & c & n & _ & X & _)]; discriminate X.
    - assert (x <> RNil) by (intros ->; contradiction). assert (y <> RNil) by (intros ->; contradiction).
      eapply NoDup_snd_fst; [exact V|apply Gk; assumption|]. rewrite E. apply Gk; assumption. }
  split; [|split; [|exact Inj]].
  - split; [reflexivity|]. split; [reflexivity|]. split; [reflexivity|]. split; [|split].
    + intros x Rx E. destruct (C r x Hr Rx) as [->|Kx]; [discriminate E|]. assert (x <> RNil) by (intros ->; contradiction).
      pose proof (Gk _ Kx ltac:(assumption)) as I. rewrite E in I. apply En in I as [(X & _)|(a & c & n & _ & X & _)]; [exact X|discriminate X].
    + intros x y Rx Ry. apply (Inj r Hr x y Rx Ry).
    + intros x n Rx D. destruct (C r x Hr Rx) as [->|Kx]; [discriminate D|]. assert (Nx : x <> RNil) by (intros ->; contradiction).
      pose proof (Gk _ Kx Nx) as I. apply En in I as [(X & _)|(a & c & n' & X1 & X2 & B & Nh & S & K)]; cbn [fst snd] in *; [subst x; discriminate D|].
      subst x. cbn in D. rewrite Nh in D. inversion D; subst n'. rewrite X2. cbn [deref]. rewrite S. f_equal.
      replace (map (F news) (refs n)) with (map (G news) (refs n)).
      * apply set_children_rename. specialize (Pl r Hr (RPtr a) n Rx Nh). destruct n; try exact I; contradiction.
      * apply map_ext_in. intros y Hy. destruct (K y Hy) as [->|Ky]; [reflexivity|]. unfold G. destruct y; try reflexivity.
        destruct (lookup_key _ _ Ky) as (v & L). unfold F. rewrite L. apply lookup_In, En in L as [(_ & E)|(a0 & c0 & n0 & E & _)]; cbn in E; [now subst|discriminate E].
  - intros x a Rx ->. destruct (C r _ Hr Rx) as [X|Kx]; [discriminate X|]. pose proof (Gk _ Kx ltac:(discriminate)) as I.
    apply En in I as [(X & _)|(a0 & c & n & _ & X & B & _)]; [discriminate X|]. exists c. split; [exact X|lia].
Qed.

(** Copy terminates; the heap only grows, so the original is untouched; and the copy is isomorphic to the original and
    made of new types only.  Being one to one, the renaming preserves internal sharing, cycles included. *)
Theorem C35_copy : forall h r, no_dangling h r -> no_markers h r ->
  exists h' r' f, Copy h r = Some (h', r') /\ (exists ext, h' = h ++ ext) /\
    isomorphic_by f h r h' r' /\ fresh_images f h r.
Proof.
  intros h r D P. destruct (copy_total h (length h + 3) h [] r) as (h' & m' & r' & E).
  - exists []. now rewrite app_nil_r.
  - exact D.
  - pose proof (unvisited_max h (keys [])). lia.
  - exists h', r', (G m'). split; [exact (f_equal (fun o => match o with None => None | Some ((a, _), b) => Some (a, b) end) E)|].
    apply (copy_good h) in E; [|exists []; now rewrite app_nil_r|exact D]. pose proof E as E'. destruct E' as [_ X O _].
    split; [exact X|]. assert (r' = G m' r) as ->.
    { inversion O as [O']. destruct r; try reflexivity. destruct E as [(news & -> & _ & _ & _ & En & _) _ _ I]. rewrite app_nil_r in *.
      destruct (I RVoid (or_introl eq_refl)) as [Y|Y]; [discriminate Y|]. destruct (lookup_key _ _ Y) as (v & L). unfold F, G. rewrite L.
      apply lookup_In, En in L as [(_ & E)|(a0 & c0 & n0 & E & _)]; cbn in E; [now subst|discriminate E]. }
    destruct (post_iso h h' m' [r] _ E) with (r := r) as (A & B & _); [intros x [<-|[]]; exact P|now left|now split].
Qed.

(** Copying several types with one map of copies, as copying a Spec does (btf/unmarshal.go:198-202): sharing between
    the roots is preserved as well. *)
Theorem C35_copy_all : forall h rs, (forall r, In r rs -> no_dangling h r /\ no_markers h r) ->
  exists h' m' f, copy_refs (copyType (length h + 3)) (h, []) rs = Some (h', m', map f rs) /\ (exists ext, h' = h ++ ext) /\
    (forall r, In r rs -> isomorphic_by f h r h' (f r) /\ fresh_images f h r) /\
    (forall r s x y, In r rs -> In s rs -> reach h r x -> reach h s y -> f x = f y -> x = y).
Proof.
  intros h rs D. destruct (copy_refs_total h (length h + 3) rs h []) as (h' & m' & out & E).
  - exists []. now rewrite app_nil_r.
  - intros x Hx. now apply D.
  - pose proof (unvisited_max h (keys [])). lia.
  - exists h', m', (G m'). pose proof E as E0. apply (copy_refs_good h) in E; [|exists []; now rewrite app_nil_r|intros x Hx; now apply D].
    pose proof (post_iso h h' m' rs _ E (fun r Hr => proj2 (D r Hr))) as I. pose proof E as E'. destruct E' as [_ X O _].
    split; [|split; [exact X|split]].
    + etransitivity; [exact E0|]. rewrite O. do 2 f_equal. apply map_ext_in. intros y Hy. unfold G. destruct y; try reflexivity.
      destruct E as [(news & -> & _ & _ & _ & En & _) _ _ J]. rewrite app_nil_r in *. destruct (J RVoid Hy) as [Y|Y]; [discriminate Y|].
      destruct (lookup_key _ _ Y) as (v & L). unfold F. rewrite L. apply lookup_In, En in L as [(_ & E)|(a0 & c0 & n0 & E & _)]; cbn in E; [now subst|discriminate E].
    + intros r Hr. destruct (I r Hr) as (A & B & _). split; assumption.
    + intros r s x y Hr Hs Rx Ry. destruct (I r Hr) as (_ & _ & Inj). apply (Inj s Hs x y Rx Ry).
Qed.

(** A cyclic, shared graph: struct s { struct s *next; const int a; const int b; void *p }. *)
Definition copy_heap : heap :=
  [NInt [105] 4 1%Z; NConst (RPtr 0);
   NStruct [115] 24 [mkMember [] (RPtr 3) 0 0 []; mkMember [] (RPtr 1) 64 0 [[120%Z]]; mkMember [] (RPtr 1) 96 0 []; mkMember [] (RPtr 4) 128 0 []] [];
   NPtr (RPtr 2); NPtr RVoid]%Z.
Lemma reach_nth h r (P : ref -> Prop) : P r -> (forall x c, P x -> edge h x c -> P c) -> forall x, reach h r x -> P x.
Proof. intros Pr C x R. induction R as [|x y z E R IH]; [exact Pr|]. eauto. Qed.
Example C35_example : no_dangling copy_heap (RPtr 2) /\ no_markers copy_heap (RPtr 2) /\
  Copy copy_heap (RPtr 2) = Some (copy_heap ++
   [NStruct [115] 24 [mkMember [] (RPtr 6) 0 0 []; mkMember [] (RPtr 7) 64 0 [[120%Z]]; mkMember [] (RPtr 7) 96 0 []; mkMember [] (RPtr 9) 128 0 []] [];
    NPtr (RPtr 5); NConst (RPtr 8); NInt [105] 4 1; NPtr RVoid], RPtr 5)%Z.
Proof.
  assert (K : forall x, reach copy_heap (RPtr 2) x -> In x [RPtr 0; RPtr 1; RPtr 2; RPtr 3; RPtr 4; RVoid]).
  { apply reach_nth; [cbn; tauto|]. intros x c Hx (n & D & I). repeat (destruct Hx as [<-|Hx]; [cbn in D; inversion D; subst n; cbn in I; cbn; intuition|]). destruct Hx. }
  split; [|split; [|reflexivity]].
  - intros x Rx. apply K in Rx. right. repeat (destruct Rx as [<-|Rx]; [cbn; lia|]). destruct Rx.
  - intros x n Rx D. apply K in Rx. repeat (destruct Rx as [<-|Rx]; [cbn in D; inversion D; exact I|]). destruct Rx.
Qed.

(** The exclusion of explicit decl tags is necessary: the copy of one still points at the original type. *)
Theorem C35_decl_tag_refuted : exists h r h' r', Copy h r = Some (h', r') /\
  deref h r = Some (NDeclTag (RPtr 0) [116%Z] (-1)) /\ deref h' r' = Some (NDeclTag (RPtr 0) [116%Z] (-1)).
Proof. exists [NInt [105%Z] 4 1; NDeclTag (RPtr 0) [116%Z] (-1)], (RPtr 1). do 2 eexists. split; [reflexivity|]. split; reflexivity. Qed.

Print Assumptions C35_copy.
