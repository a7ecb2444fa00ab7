(** Proofs about kallsyms (properties C72, C73). *)
From Verif.Base Require Import GoInt.
From Verif.Internal Require Import Kallsyms KallsymsSpec.

Lemma str_eqb_spec : forall a b, reflect (a = b) (str_eqb a b).
Proof. intros a b. unfold str_eqb. destruct (list_eq_dec Z.eq_dec a b); constructor; auto. Qed.
Lemma str_eqb_refl : forall a, str_eqb a a = true.
Proof. intros a. destruct (str_eqb_spec a a); congruence. Qed.

(** ** Parsing a line *)
Lemma parseHexFrom_app : forall u v a, parseHexFrom a (u ++ v) = match parseHexFrom a u with Some b => parseHexFrom b v | None => None end.
Proof. induction u as [|b u IH]; intros v a; cbn [parseHexFrom app]; auto. destruct (hexDigit b); auto. cbn zeta. destruct (_ <=? _); auto. Qed.
Lemma hexDigit_digit : forall d, 0 <= d < 16 -> hexDigit (digit d) = Some d.
Proof. intros d H. unfold hexDigit, digit. destruct (Z.ltb_spec d 10); repeat (match goal with |- context [if ?b then _ else _] => destruct b eqn:? end); try lia; f_equal; lia. Qed.
Lemma parseHexFrom_hex : forall n x a, 0 <= a -> 0 <= x < 16 ^ Z.of_nat n -> a * 16 ^ Z.of_nat n + x < 2 ^ 64 -> parseHexFrom a (hex n x) = Some (a * 16 ^ Z.of_nat n + x).
Proof.
  induction n as [|n IH]; intros x a Ha Hx Hb; cbn [hex].
  - cbn [parseHexFrom]. f_equal. change (16 ^ Z.of_nat 0) with 1 in *. lia.
  - rewrite Nat2Z.inj_succ, Z.pow_succ_r in * by lia. set (p := 16 ^ Z.of_nat n) in *.
    assert (Hp : 0 < p) by (apply Z.pow_pos_nonneg; lia).
    assert (Hd := Z.div_mod x 16 ltac:(lia)). assert (Hm := Z.mod_pos_bound x 16 ltac:(lia)).
    rewrite parseHexFrom_app, IH; fold p; try nia.
    cbn [parseHexFrom]. rewrite hexDigit_digit by lia. cbn zeta.
    assert (E : (a * p + x / 16) * 16 + x mod 16 = a * (16 * p) + x) by nia. rewrite E.
    destruct (Z.leb_spec (2 ^ 64) (a * (16 * p) + x)); [lia|reflexivity].
Qed.
Lemma hex_length : forall n x, length (hex n x) = n.
Proof. induction n; intros x; cbn; auto. rewrite app_length, IHn. cbn. lia. Qed.
Lemma hex_graphic : forall n x, Forall graphic (hex n x).
Proof.
  induction n as [|n IH]; intros x; cbn [hex]; auto. apply Forall_app. split; auto. constructor; auto. unfold graphic, digit.
  assert (Hm := Z.mod_pos_bound x 16 ltac:(lia)). destruct (Z.ltb_spec (x mod 16) 10); lia.
Qed.
Lemma parse_hex16 : forall x, in_u 64 x -> parseUint16 (hex 16 x) = Some x.
Proof.
  intros x H. unfold parseUint16. assert (L := hex_length 16 x). assert (P := parseHexFrom_hex 16 x 0 ltac:(lia)).
  destruct (hex 16 x) as [|c l] eqn:Eh; [discriminate L|]. rewrite P; [f_equal; lia| |]; unfold in_u in H; change (16 ^ Z.of_nat 16) with (2 ^ 64); lia.
Qed.

Lemma graphic_nospace : forall b, graphic b -> isSpace b = false.
Proof. intros b H. unfold graphic, isSpace in *. lia. Qed.
Lemma trimLeft_id : forall b l, graphic b -> trimLeft (b :: l) = b :: l.
Proof. intros b l H. cbn. now rewrite graphic_nospace. Qed.
Lemma trim_id : forall a l z, graphic a -> graphic z -> trimSpace (a :: l ++ [z]) = a :: l ++ [z].
Proof.
  intros a l z Ha Hz. unfold trimSpace. rewrite trimLeft_id by auto.
  change (a :: l ++ [z]) with ((a :: l) ++ [z]). rewrite rev_app_distr. cbn [rev app]. rewrite trimLeft_id by auto.
  cbn [rev]. rewrite rev_app_distr. cbn. rewrite rev_involutive. reflexivity.
Qed.
Lemma trim_one : forall a, graphic a -> trimSpace [a] = [a].
Proof. intros a Ha. unfold trimSpace. rewrite trimLeft_id by auto. cbn [rev app]. rewrite trimLeft_id by auto. reflexivity. Qed.

(** begins and ends with a graphic character *)
Definition bounded (l : str) : Prop := exists a, graphic a /\ hd_error l = Some a /\ exists u z, l = u ++ [z] /\ graphic z.
Lemma trim_bounded : forall l, bounded l -> trimSpace l = l.
Proof.
  intros l (a & Ha & Hh & u & z & -> & Hz). destruct u as [|b u]; cbn in *.
  - injection Hh as ->. now apply trim_one.
  - injection Hh as ->. now apply trim_id.
Qed.
Lemma bounded_graphic : forall l, l <> [] -> Forall graphic l -> bounded l.
Proof.
  intros l Hn H. destruct (exists_last Hn) as (u & z & ->). assert (H' := H). apply Forall_app in H'. destruct H' as [Hu Hz]. inversion Hz; subst.
  destruct u as [|a u]; cbn.
  - exists z. split; [auto|split; [reflexivity|]]. exists [], z. auto.
  - inversion Hu; subst. exists a. split; [auto|split; [reflexivity|]]. exists (a :: u), z. auto.
Qed.
Lemma bounded_app : forall l m r, bounded l -> bounded r -> bounded (l ++ m ++ r).
Proof.
  intros l m r (a & Ha & Hh & _) (b & Hb & Hh' & u & z & -> & Hz). exists a. split; auto. split; [destruct l; [discriminate|exact Hh]|].
  exists (l ++ m ++ u), z. split; auto. now rewrite <- !app_assoc.
Qed.
Lemma bounded_nil : ~ bounded []. Proof. intros (a & _ & H & _). discriminate. Qed.

Lemma cut_first : forall sep w r, Forall (fun b => b <> sep) w -> cut sep (w ++ sep :: r) = Some (w, r).
Proof. induction w as [|b w IH]; intros r H; cbn [cut app]; [now rewrite Z.eqb_refl|]. inversion H; subst. destruct (Z.eqb_spec b sep); [contradiction|]. now rewrite IH. Qed.
Lemma cut_none : forall sep w, Forall (fun b => b <> sep) w -> cut sep w = None.
Proof. induction w as [|b w IH]; intros H; cbn [cut]; auto. inversion H; subst. destruct (Z.eqb_spec b sep); [contradiction|]. now rewrite IH. Qed.
Lemma graphic_ne : forall sep w, sep < 33 -> Forall graphic w -> Forall (fun b => b <> sep) w.
Proof. intros sep w Hs H. eapply Forall_impl; [|exact H]. unfold graphic. lia. Qed.

Lemma word_bounded : forall l, bounded l -> word l = match cut 32 l with Some wr => Some wr | None => match cut 9 l with Some wr => Some wr | None => Some (l, []) end end.
Proof. intros l H. unfold word. rewrite trim_bounded by auto. destruct l; [now apply bounded_nil in H|reflexivity]. Qed.
Lemma word_space : forall w r, w <> [] -> Forall graphic w -> bounded r -> word (w ++ 32 :: r) = Some (w, r).
Proof.
  intros w r Hw Hg Hr. rewrite word_bounded by (apply (bounded_app w [32] r); auto; now apply bounded_graphic).
  now rewrite cut_first by (apply graphic_ne; auto; lia).
Qed.
Lemma word_last : forall w, w <> [] -> Forall graphic w -> word w = Some (w, []).
Proof.
  intros w Hw Hg. rewrite word_bounded by now apply bounded_graphic.
  now rewrite !cut_none by (apply graphic_ne; auto; lia).
Qed.
Lemma word_tab : forall w r, w <> [] -> Forall graphic w -> r <> [] -> Forall graphic r -> word (w ++ 9 :: r) = Some (w, r).
Proof.
  intros w r Hw Hg Hr Hgr. rewrite word_bounded by (apply (bounded_app w [9] r); now apply bounded_graphic).
  rewrite cut_none. 2:{ apply Forall_app. split; [apply graphic_ne; auto; lia|]. constructor; [lia|]. apply graphic_ne; auto; lia. }
  now rewrite cut_first by (apply graphic_ne; auto; lia).
Qed.
Lemma word_nil : word [] = None. Proof. reflexivity. Qed.

Lemma graphic_brackets : forall m, Forall graphic m -> Forall graphic (91 :: m ++ [93]).
Proof. intros m H. constructor; [unfold graphic; lia|]. apply Forall_app. split; auto. constructor; auto. unfold graphic; lia. Qed.

Lemma parse_show : forall s, wf s -> exists m, parseSymbol (show s) [] = Ok (Some (mkKsym (s_addr s) (s_name s) m)).
Proof.
  intros s [Ha Ht [Hn Hng] Hm _]. unfold parseSymbol, show. 
  assert (Hh : hex 16 (s_addr s) <> []) by (intros E; apply (f_equal (@length Z)) in E; rewrite hex_length in E; discriminate).
  set (h := hex 16 (s_addr s)) in *. assert (Hhg : Forall graphic h) by apply hex_graphic.
  destruct (s_mod s) as [m|].
  - destruct Hm as [Hm Hmg]. pose proof (graphic_brackets m Hmg) as Hb.
    assert (B : bounded (s_name s ++ [9] ++ (91 :: m ++ [93]))) by (apply bounded_app; apply bounded_graphic; auto; discriminate).
    change (h ++ [32; s_type s; 32] ++ s_name s ++ [9; 91] ++ m ++ [93]) with (h ++ 32 :: ([s_type s] ++ 32 :: (s_name s ++ 9 :: (91 :: m ++ [93])))).
    rewrite word_space; auto.
    2:{ apply (bounded_app [s_type s] [32]); auto. apply bounded_graphic; [discriminate|]. auto. }
    unfold h. rewrite parse_hex16 by auto. rewrite word_space; auto; [|discriminate]. cbn [andb].
    rewrite word_tab by (auto; discriminate). rewrite word_last by (auto; discriminate). eexists. reflexivity.
  - assert (B : bounded (s_name s)) by now apply bounded_graphic. rewrite app_nil_r.
    change (h ++ [32; s_type s; 32] ++ s_name s) with (h ++ 32 :: ([s_type s] ++ 32 :: s_name s)).
    rewrite word_space; auto.
    2:{ apply (bounded_app [s_type s] [32]); auto. apply bounded_graphic; [discriminate|]. auto. }
    unfold h. rewrite parse_hex16 by auto. rewrite word_space; auto; [|discriminate]. cbn [andb].
    rewrite word_last by auto. rewrite word_nil. eexists. reflexivity.
Qed.

(** ** Lines *)
Lemma show_bounded : forall s, wf s -> bounded (show s).
Proof.
  intros s [Ha Ht [Hn Hng] Hm _]. unfold show.
  assert (Bh : bounded (hex 16 (s_addr s))) by (apply bounded_graphic; [intros E; apply (f_equal (@length Z)) in E; rewrite hex_length in E; discriminate|apply hex_graphic]).
  apply bounded_app; auto. destruct (s_mod s) as [m|].
  - destruct Hm as [Hm Hmg]. change ([9; 91] ++ m ++ [93]) with ([9] ++ (91 :: m ++ [93])). apply bounded_app; apply bounded_graphic; auto; [discriminate|]. now apply graphic_brackets.
  - rewrite app_nil_r. now apply bounded_graphic.
Qed.
Lemma show_noLF : forall s, wf s -> Forall (fun b => b <> 10) (show s).
Proof.
  intros s [Ha Ht [Hn Hng] Hm _]. unfold show. apply Forall_app. split; [apply graphic_ne; [lia|apply hex_graphic]|].
  apply Forall_app. split; [repeat constructor; unfold graphic in Ht; lia|]. apply Forall_app. split; [apply graphic_ne; auto; lia|].
  destruct (s_mod s); auto. destruct Hm as [_ Hm]. repeat constructor; try lia. apply Forall_app. split; [apply graphic_ne; auto; lia|repeat constructor; lia].
Qed.
Lemma show_length : forall s, wf s -> Z.of_nat (length (show s)) <= 65535.
Proof.
  intros s [_ _ _ _ Hl]. unfold show. rewrite !app_length, hex_length. cbn [length]. destruct (s_mod s); cbn [length app]; [rewrite app_length; cbn [length]|]; lia.
Qed.
Lemma dropCR_bounded : forall l, bounded l -> dropCR l = l.
Proof.
  intros l (a & _ & _ & u & z & -> & Hz). unfold dropCR. rewrite rev_app_distr. cbn [rev app]. destruct (Z.eqb_spec z 13); auto. subst. unfold graphic in Hz. lia.
Qed.
Lemma scan_line : forall l cur rest, Forall (fun b => b <> 10) l -> Z.of_nat (length cur + length l) <= 65535 ->
  scan cur (l ++ 10 :: rest) = let (ls, e) := scan [] rest in (dropCR (rev cur ++ l) :: ls, e).
Proof.
  induction l as [|b l IH]; intros cur rest H Hl; cbn [scan app].
  - rewrite Z.eqb_refl, app_nil_r. reflexivity.
  - inversion H; subst. destruct (Z.eqb_spec b 10); [contradiction|]. cbn [length] in Hl.
    destruct (Z.leb_spec 65535 (Z.of_nat (length cur))); [lia|]. rewrite IH by (auto; cbn [length]; lia). cbn [rev]. now rewrite <- app_assoc.
Qed.
Lemma scan_long : forall l cur rest, Forall (fun b => b <> 10) l -> 65536 <= Z.of_nat (length cur + length l) -> Z.of_nat (length cur) <= 65535 -> snd (scan cur (l ++ rest)) = true.
Proof.
  induction l as [|b l IH]; intros cur rest H Hl Hc; cbn [app scan]; [cbn [length] in Hl; lia|]. inversion H; subst. destruct (Z.eqb_spec b 10); [contradiction|].
  destruct (Z.leb_spec 65535 (Z.of_nat (length cur))); auto. apply IH; auto; cbn [length] in *; lia.
Qed.
Lemma scan_too_long : forall pre cur l rest, Forall (fun b => b <> 10) l -> 65536 <= Z.of_nat (length l) -> Z.of_nat (length cur) <= 65535 -> snd (scan cur (pre ++ l ++ rest)) = true.
Proof.
  induction pre as [|b pre IH]; intros cur l rest H Hl Hc; cbn [app]; [apply scan_long; auto; lia|]. cbn [scan].
  destruct (b =? 10). { specialize (IH [] l rest H Hl). destruct (scan [] (pre ++ l ++ rest)). apply IH. cbn. lia. }
  destruct (Z.leb_spec 65535 (Z.of_nat (length cur))); auto. apply IH; auto. cbn [length]. lia.
Qed.
Lemma lines_file : forall ks, Forall wf ks -> lines (file ks) = (map show ks, false).
Proof.
  intros ks H. assert (E : scan [] (file ks) = (map show ks, false)).
  { induction H as [|s ks Hs _ IH]; [reflexivity|]. unfold file. cbn [map concat]. fold (file ks). rewrite <- app_assoc. cbn [app].
    rewrite scan_line by (try apply show_noLF; try (cbn [length]; rewrite Nat.add_0_l; apply show_length); auto). rewrite IH. cbn [rev app]. now rewrite dropCR_bounded by now apply show_bounded. }
  unfold lines. rewrite E. f_equal. clear E. induction H as [|s ks Hs _ IH]; cbn; auto. pose proof (show_bounded s Hs) as B. destruct (show s); [now apply bounded_nil in B|]. now rewrite IH.
Qed.

(** ** Maps *)
Lemma sget_sput : forall m n v k, sget (sput m n v) k = if str_eqb n k then Some v else sget m k.
Proof.
  induction m as [|[a w] m IH]; intros n v k; cbn [sput sget]; auto.
  destruct (str_eqb_spec a n); cbn [sget].
  - subst. destruct (str_eqb_spec n k); auto.
  - rewrite IH. destruct (str_eqb_spec a k), (str_eqb_spec n k); congruence || auto.
Qed.
Lemma sput_keys : forall m n v, sget m n <> None -> map fst (sput m n v) = map fst m.
Proof. induction m as [|[a w] m IH]; intros n v H; cbn in *; [contradiction|]. destruct (str_eqb_spec a n); cbn; auto. now rewrite IH. Qed.
Lemma sget_In : forall m n, sget m n <> None <-> In n (map fst m).
Proof.
  induction m as [|[a w] m IH]; intros n; cbn; [intuition|]. destruct (str_eqb_spec a n); [subst; intuition congruence|]. rewrite IH. intuition.
Qed.
Lemma sput_In : forall m n v k, In k (map fst (sput m n v)) <-> k = n \/ In k (map fst m).
Proof.
  induction m as [|[a w] m IH]; intros n v k; cbn; [intuition|]. destruct (str_eqb_spec a n); cbn; [subst; intuition|]. rewrite IH. intuition.
Qed.
Lemma sput_NoDup : forall m n v, NoDup (map fst m) -> NoDup (map fst (sput m n v)).
Proof.
  induction m as [|[a w] m IH]; intros n v H; cbn; [repeat constructor; auto|]. inversion H; subst. destruct (str_eqb_spec a n); cbn; constructor; auto.
  rewrite sput_In. intros [->|H']; auto.
Qed.

(** ** The lookup *)
Lemma addresses_app : forall a b n, addresses (a ++ b) n = addresses a n ++ addresses b n.
Proof. intros. unfold addresses. now rewrite filter_app, map_app. Qed.
Lemma addresses_one : forall s n, addresses [s] n = if str_eqb (s_name s) n then [s_addr s] else [].
Proof. intros. unfold addresses. cbn. destruct (str_eqb _ _); reflexivity. Qed.

Definition outcome (ks : list symbol) (req : list str) (r : res kerr smap) : Prop :=
  match r with
  | Ok m => map fst m = req /\ forall n, In n req -> exists a, sget m n = Some a /\ resolves ks n a
  | Err (KAmbiguous n) => In n req /\ ambiguous ks n
  | Err (KRestricted n) => In n req /\ restricted ks n
  | Err _ => False
  end.

Lemma assignLines_outcome : forall ks pre m, Forall wf ks -> (forall n, In n (map fst m) -> exists a, sget m n = Some a /\ resolves pre n a) ->
  outcome (pre ++ ks) (map fst m) (assignLines (map show ks) m).
Proof.
  induction ks as [|s ks IH]; intros pre m Hw Hm; cbn [map assignLines].
  - rewrite app_nil_r. split; auto.
  - inversion Hw; subst. destruct (parse_show s H1) as (md & ->). cbn [k_name k_addr].
    replace (pre ++ s :: ks) with ((pre ++ [s]) ++ ks) by now rewrite <- app_assoc.
    destruct (sget m (s_name s)) as [a|] eqn:Hg.
    + assert (Hin : In (s_name s) (map fst m)) by (apply sget_In; congruence). destruct (Hm _ Hin) as (a' & Hg' & Hr). assert (a' = a) by congruence. subst a'.
      destruct (Z.eqb_spec a 0) as [->|Ha]; cbn [negb].
      * assert (Hnil : addresses pre (s_name s) = []) by (destruct Hr as [[E _]|[_ E]]; [exact E|congruence]).
        destruct (Z.eqb_spec (s_addr s) 0) as [E|Hz].
        -- cbn. split; auto. unfold restricted. rewrite !addresses_app, addresses_one, str_eqb_refl, E. apply in_or_app. left. apply in_or_app. right. now left.
        -- rewrite <- (sput_keys m (s_name s) (s_addr s)) by congruence. apply IH; auto. intros n Hn. rewrite sput_keys in Hn by congruence.
           rewrite sget_sput. unfold resolves. rewrite addresses_app, addresses_one. destruct (str_eqb_spec (s_name s) n) as [<-|Hne].
           ++ exists (s_addr s). split; auto. right. rewrite Hnil. auto.
           ++ rewrite app_nil_r. now apply Hm.
      * cbn. split; auto. unfold ambiguous. rewrite !addresses_app, addresses_one, str_eqb_refl. destruct Hr as [[_ E]|[E _]]; [contradiction|]. rewrite E. cbn. lia.
    + apply IH; auto. intros n Hn. destruct (Hm n Hn) as (a & Hg' & Hr). exists a. split; auto. unfold resolves in *. rewrite addresses_app, addresses_one.
      destruct (str_eqb_spec (s_name s) n) as [<-|]; [congruence|]. now rewrite app_nil_r.
Qed.

Lemma assignAddresses_outcome : forall ks m, Forall wf ks -> (forall n, In n (map fst m) -> sget m n = Some 0) -> outcome ks (map fst m) (assignAddresses (file ks) false m).
Proof.
  intros ks m Hw Hm. unfold assignAddresses. destruct m as [|kv m]; [split; [reflexivity|contradiction]|]. rewrite lines_file by auto. cbn [orb].
  assert (H : outcome ks (map fst (kv :: m)) (assignLines (map show ks) (kv :: m))).
  { apply (assignLines_outcome ks [] (kv :: m) Hw). intros n Hn. exists 0. split; auto. left. auto. }
  destruct (assignLines (map show ks) (kv :: m)); exact H.
Qed.

(** ** The cache *)
Lemma sget_NoDup_In : forall m n v, NoDup (map fst m) -> In (n, v) m -> sget m n = Some v.
Proof.
  induction m as [|[a w] m IH]; intros n v ND H; cbn in *; [contradiction|]. inversion ND; subst. destruct H as [H|H]; [injection H as -> ->; now rewrite str_eqb_refl|].
  destruct (str_eqb_spec a n) as [->|]; auto. exfalso. apply H2. exact (List.in_map fst _ _ H).
Qed.
Lemma sget_some_In : forall m n v, sget m n = Some v -> In n (map fst m).
Proof. intros. apply sget_In. congruence. Qed.
Lemma sget_none : forall m n, sget m n = None <-> ~ In n (map fst m).
Proof. intros m n. rewrite <- sget_In. destruct (sget m n); intuition congruence. Qed.
Lemma storeAll_get : forall kvs m k, NoDup (map fst kvs) -> sget (storeAll m kvs) k = match sget kvs k with Some v => Some v | None => sget m k end.
Proof.
  unfold storeAll. induction kvs as [|[a v] kvs IH]; intros m k H; cbn; auto. inversion H; subst. rewrite IH, sget_sput by auto. cbn [fst snd].
  destruct (str_eqb_spec a k) as [->|]; auto. apply sget_none in H2. now rewrite H2.
Qed.
Lemma storeAll_keys : forall kvs m, (forall n, In n (map fst kvs) -> In n (map fst m)) -> map fst (storeAll m kvs) = map fst m.
Proof.
  unfold storeAll. induction kvs as [|[a v] kvs IH]; intros m H; cbn; auto. cbn [fst snd]. assert (Ha : sget m a <> None) by (apply sget_In, H; now left).
  rewrite IH; rewrite sput_keys; auto. intros n Hn. apply H. now right.
Qed.
Lemma fromCache_keys : forall cache m, map fst (fromCache cache m) = map fst m.
Proof. intros. unfold fromCache. now rewrite map_map. Qed.
Lemma fromCache_get : forall cache m n, sget (fromCache cache m) n = match sget m n with None => None | Some v => match sget cache n with Some a => Some a | None => Some v end end.
Proof.
  intros cache m n. unfold fromCache. induction m as [|[a w] m IH]; cbn [map sget fst snd]; auto. destruct (str_eqb_spec a n) as [->|]; auto. destruct (sget cache n); auto.
Qed.
Lemma request_In : forall cache m n, In n (map fst (request cache m)) <-> In n (map fst m) /\ sget cache n = None.
Proof.
  intros cache m n. unfold request. rewrite map_map. cbn. induction m as [|[a w] m IH]; cbn; [tauto|]. destruct (sget cache a) eqn:E; cbn; rewrite IH; [|intuition congruence].
  split; [tauto|]. intros [[<-|H] H1]; [congruence|auto].
Qed.
Lemma request_NoDup : forall cache m, NoDup (map fst m) -> NoDup (map fst (request cache m)).
Proof.
  intros cache m H. induction m as [|[a w] m IH]; cbn; [constructor|]. inversion H; subst. unfold request in *. cbn. destruct (sget cache a) eqn:E; auto. cbn. constructor; auto.
  intros Hin. apply (request_In cache m a) in Hin. destruct Hin. auto.
Qed.
Lemma request_zero : forall cache m n, In n (map fst (request cache m)) -> sget (request cache m) n = Some 0.
Proof.
  intros cache m n. unfold request. generalize (filter (fun kv => match sget cache (fst kv) with Some _ => false | None => true end) m). intros l. 
  induction l as [|[a w] l IH]; cbn; [contradiction|]. destruct (str_eqb_spec a n); auto. intros [H|H]; [congruence|auto].
Qed.

(** one call, any file *)
Lemma assign_any : forall cache f symbols, 
  match AssignAddresses cache f symbols with
  | (_, _, None) => True
  | (cache', m, Some _) => cache' = cache /\ m = fromCache cache symbols
  end.
Proof.
  intros cache f symbols. unfold AssignAddresses. destruct symbols; auto. destruct (request _ _); auto. destruct f as [[f e]|]; auto. destruct (assignAddresses _ _ _); auto.
Qed.

(** one call, a file of the kernel *)
Lemma assign_kernel : forall ks cache symbols, Forall wf ks -> NoDup (map fst symbols) ->
  match AssignAddresses cache (Some (file ks, false)) symbols with
  | (cache', m, None) => map fst m = map fst symbols
      /\ (forall n, In n (map fst symbols) -> exists a, sget m n = Some a /\ sget cache' n = Some a /\ (sget cache n = Some a \/ sget cache n = None /\ resolves ks n a))
      /\ (forall n, ~ In n (map fst symbols) -> sget cache' n = sget cache n)
  | (cache', m, Some e) => cache' = cache /\ m = fromCache cache symbols
      /\ exists n, In n (map fst symbols) /\ sget cache n = None /\ (e = KAmbiguous n /\ ambiguous ks n \/ e = KRestricted n /\ restricted ks n)
  end.
Proof.
  intros ks cache symbols Hw ND. unfold AssignAddresses. destruct symbols as [|kv0 symbols0]; [cbn; tauto|]. set (symbols := kv0 :: symbols0) in *.
  pose proof (request_In cache symbols) as Rin. pose proof (request_NoDup cache symbols ND) as RND. pose proof (request_zero cache symbols) as RZ.
  assert (Hcached : request cache symbols = [] -> forall n, In n (map fst symbols) -> exists a, sget cache n = Some a /\ sget (fromCache cache symbols) n = Some a).
  { intros E n Hn. rewrite fromCache_get. destruct (sget cache n) as [a|] eqn:Hc.
    - exists a. split; auto. destruct (sget symbols n) eqn:E'; auto. apply sget_none in E'. contradiction.
    - assert (In n (map fst (request cache symbols))) by now apply Rin. rewrite E in H. contradiction. }
  destruct (request cache symbols) as [|r0 req0] eqn:Hreq.
  - split; [apply fromCache_keys|split; auto]. intros n Hn. destruct (Hcached eq_refl n Hn) as (a & H1 & H2). exists a. auto.
  - clear Hcached. set (req := r0 :: req0) in *. pose proof (assignAddresses_outcome ks req Hw RZ) as O. destruct (assignAddresses (file ks) false req) as [m|e].
    + destruct O as [Ok1 Ok2]. rewrite <- Ok1 in RND.
      assert (Hk : forall n, In n (map fst m) -> In n (map fst (fromCache cache symbols))) by (intros n Hn; rewrite fromCache_keys; rewrite Ok1 in Hn; now apply Rin).
      split; [now rewrite storeAll_keys, fromCache_keys|]. split.
      * intros n Hn. rewrite !storeAll_get by auto. rewrite fromCache_get. destruct (sget cache n) as [a|] eqn:Hc.
        -- assert (Hno : sget m n = None). { apply sget_none. rewrite Ok1, Rin. intros [_ H]. congruence. }
           rewrite Hno. exists a. destruct (sget symbols n) eqn:E'; [auto|]. apply sget_none in E'. contradiction.
        -- destruct (Ok2 n) as (a & Ha & Hr); [now apply Rin|]. rewrite Ha. exists a. auto.
      * intros n Hn. rewrite storeAll_get by auto. destruct (sget m n) eqn:E; auto. apply sget_some_In in E. rewrite Ok1, Rin in E. tauto.
    + split; auto. split; auto. destruct e; cbn in O; try contradiction; destruct O as [Hin Hx]; apply Rin in Hin; exists n; tauto.
Qed.

(** ** Sequences of calls *)
Lemma assign_open : forall cache symbols, NoDup (map fst symbols) ->
  match AssignAddresses cache None symbols with
  | (cache', m, None) => cache' = cache /\ map fst m = map fst symbols /\ forall n, In n (map fst symbols) -> exists a, sget m n = Some a /\ sget cache n = Some a
  | (cache', m, Some e) => cache' = cache /\ m = fromCache cache symbols /\ e = KOpen
  end.
Proof.
  intros cache symbols ND. pose proof (assign_any cache None symbols) as H. pose proof (assign_kernel [] cache symbols ltac:(constructor) ND) as K. unfold AssignAddresses in *. 
  destruct symbols as [|kv s]; [cbn; tauto|]. pose proof (request_In cache (kv :: s)) as Rin. destruct (request cache (kv :: s)) eqn:Hreq; auto.
  split; auto. split; [apply K|]. intros n Hn. destruct K as (_ & K & _). destruct (K n Hn) as (a & H1 & H2 & _). exists a. auto.
Qed.

(** a call keeps what's cached, answers from it and caches its answers *)
Lemma assign_call : forall cache c, call_ok c ->
  match AssignAddresses cache (proc (c_kernel c)) (c_symbols c) with
  | (cache', m, e) =>
      (forall n a, sget cache n = Some a -> sget cache' n = Some a)
      /\ (forall n a, sget cache' n = Some a -> sget cache n = Some a \/ requested c n /\ e = None /\ exists ks, c_kernel c = Some ks /\ resolves ks n a)
      /\ map fst m = map fst (c_symbols c)
      /\ (forall n a, requested c n -> sget cache n = Some a -> sget m n = Some a)
      /\ match e with
         | None => forall n, requested c n -> exists a, sget m n = Some a /\ sget cache' n = Some a
         | Some e => cache' = cache /\ (forall n, requested c n -> sget cache n = None -> sget m n = sget (c_symbols c) n) /\
             (c_kernel c = None /\ e = KOpen
              \/ exists ks n, c_kernel c = Some ks /\ requested c n /\ sget cache n = None /\ (e = KAmbiguous n /\ ambiguous ks n \/ e = KRestricted n /\ restricted ks n))
         end
  end.
Proof.
  intros cache [k symbols] [ND Hw]. unfold requested. cbn [c_kernel c_symbols] in *. destruct k as [ks|]; cbn [proc option_map].
  - pose proof (assign_kernel ks cache symbols Hw ND) as K. destruct (AssignAddresses cache (Some (file ks, false)) symbols) as [[cache' m] [e|]].
    + destruct K as (-> & -> & n & Hn & Hc & He). split; auto. split; auto. split; [apply fromCache_keys|]. split; [|split; [auto|split]].
      * intros n' a Hn' Ha. rewrite fromCache_get, Ha. destruct (sget symbols n') eqn:E; auto. apply sget_none in E. contradiction.
      * intros n' Hn' Ha. rewrite fromCache_get, Ha. destruct (sget symbols n'); auto.
      * right. exists ks, n. tauto.
    + destruct K as (K1 & K2 & K3). assert (D : forall n, {In n (map fst symbols)} + {~ In n (map fst symbols)}) by (intros; apply in_dec, list_eq_dec, Z.eq_dec).
      split; [|split; [|split; [exact K1|split]]].
      * intros n a Ha. destruct (D n) as [Hi|Hi]; [|now rewrite K3]. destruct (K2 n Hi) as (b & _ & Hb & [Hc|[Hc _]]); congruence.
      * intros n a Ha. destruct (D n) as [Hi|Hi]; [|rewrite K3 in Ha; auto]. destruct (K2 n Hi) as (b & _ & Hb & [Hc|[Hc Hr]]); assert (b = a) by congruence; subst b; auto.
        right. split; auto. split; auto. exists ks. auto.
      * intros n a Hi Ha. destruct (K2 n Hi) as (b & Hm & Hb & [Hc|[Hc _]]); congruence.
      * intros n Hi. destruct (K2 n Hi) as (b & Hm & Hb & _). exists b. auto.
  - pose proof (assign_open cache symbols ND) as K. destruct (AssignAddresses cache None symbols) as [[cache' m] [e|]].
    + destruct K as (-> & -> & ->). split; auto. split; auto. split; [apply fromCache_keys|]. split; [|split; [auto|split; [|auto]]].
      * intros n' a Hn' Ha. rewrite fromCache_get, Ha. destruct (sget symbols n') eqn:E; auto. apply sget_none in E. contradiction.
      * intros n' Hn' Ha. rewrite fromCache_get, Ha. destruct (sget symbols n'); auto.
    + destruct K as (-> & K1 & K2). split; auto. split; auto. split; auto. split.
      * intros n a Hi Ha. destruct (K2 n Hi) as (b & Hm & Hb). congruence.
      * auto.
Qed.

Lemma run_nth : forall cs cache i m e, nth_error (run cache cs) i = Some (m, e) -> exists c, nth_error cs i = Some c.
Proof.
  induction cs as [|c cs IH]; intros cache i m e H; cbn in H; [destruct i; discriminate|].
  destruct (AssignAddresses cache (proc (c_kernel c)) (c_symbols c)) as [[cache' m'] e']. destruct i; cbn in *; eauto.
Qed.
(** what's cached is the answer of all later calls *)
Lemma run_cached : forall cs cache n a, Forall call_ok cs -> sget cache n = Some a ->
  forall i c m e, nth_error cs i = Some c -> nth_error (run cache cs) i = Some (m, e) -> requested c n -> sget m n = Some a.
Proof.
  induction cs as [|c0 cs IH]; intros cache n a Hok Hc i c m e Hi Hr Hq; [destruct i; discriminate|]. inversion Hok; subst. cbn in Hr.
  pose proof (assign_call cache c0 H1) as A. destruct (AssignAddresses cache (proc (c_kernel c0)) (c_symbols c0)) as [[cache' m'] e'].
  destruct A as (A1 & A2 & A3 & A4 & _). destruct i as [|i]; cbn in Hi, Hr.
  - injection Hi as ->. injection Hr as -> ->. auto.
  - eapply IH with (cache := cache'); eauto.
Qed.
Lemma run_keys : forall cs cache i c m e, Forall call_ok cs -> nth_error cs i = Some c -> nth_error (run cache cs) i = Some (m, e) -> map fst m = map fst (c_symbols c).
Proof.
  induction cs as [|c0 cs IH]; intros cache i c m e Hok Hi Hr; [destruct i; discriminate|]. inversion Hok; subst. cbn in Hr.
  pose proof (assign_call cache c0 H1) as A. destruct (AssignAddresses cache (proc (c_kernel c0)) (c_symbols c0)) as [[cache' m'] e'].
  destruct A as (A1 & A2 & A3 & A4 & _). destruct i as [|i]; cbn in Hi, Hr; [|eauto]. injection Hi as ->. injection Hr as -> ->. auto.
Qed.
Lemma run_consistent : forall cs cache i j ci cj mi mj ej n a, Forall call_ok cs -> (i <= j)%nat ->
  nth_error cs i = Some ci -> nth_error (run cache cs) i = Some (mi, None) -> requested ci n -> sget mi n = Some a ->
  nth_error cs j = Some cj -> nth_error (run cache cs) j = Some (mj, ej) -> requested cj n -> sget mj n = Some a.
Proof.
  induction cs as [|c0 cs IH]; intros cache i j ci cj mi mj ej n a Hok Hle Hi Hri Hqi Ha Hj Hrj Hqj; [destruct i; discriminate|]. inversion Hok; subst. cbn in Hri, Hrj.
  pose proof (assign_call cache c0 H1) as A. destruct (AssignAddresses cache (proc (c_kernel c0)) (c_symbols c0)) as [[cache' m'] e'].
  destruct A as (A1 & A2 & A3 & A4 & A5). destruct i as [|i]; cbn in Hi, Hri.
  - injection Hi as ->. injection Hri as -> ->. destruct j as [|j]; cbn in Hj, Hrj; [congruence|].
    destruct (A5 n Hqi) as (b & Hb & Hb'). assert (b = a) by congruence. subst b. exact (run_cached cs cache' n a H2 Hb' j cj mj ej Hj Hrj Hqj).
  - destruct j as [|j]; [lia|]. cbn in Hj, Hrj. eapply IH with (i := i) (j := j); eauto. lia.
Qed.
(** each answer was read by an earlier call or this one *)
Lemma run_sound : forall cs cache i c m n a, Forall call_ok cs -> nth_error cs i = Some c -> nth_error (run cache cs) i = Some (m, None) -> requested c n -> sget m n = Some a ->
  sget cache n = Some a \/ exists j c' ks m', (j <= i)%nat /\ nth_error cs j = Some c' /\ nth_error (run cache cs) j = Some (m', None) /\ requested c' n /\ c_kernel c' = Some ks /\ resolves ks n a.
Proof.
  induction cs as [|c0 cs IH]; intros cache i c m n a Hok Hi Hr Hq Ha; [destruct i; discriminate|]. inversion Hok; subst. cbn in Hr.
  pose proof (assign_call cache c0 H1) as A. destruct (AssignAddresses cache (proc (c_kernel c0)) (c_symbols c0)) as [[cache' m'] e'] eqn:EA.
  destruct A as (A1 & A2 & A3 & A4 & A5).
  assert (G : sget cache' n = Some a -> sget cache n = Some a \/ exists ks, requested c0 n /\ c_kernel c0 = Some ks /\ resolves ks n a /\ e' = None).
  { intros Hc. destruct (A2 n a Hc) as [?|(Hq' & -> & ks & Hk & Hr')]; eauto 10. }
  destruct i as [|i]; cbn in Hi, Hr.
  - injection Hi as ->. injection Hr as -> ->. destruct (A5 n Hq) as (b & Hb & Hb'). assert (b = a) by congruence. subst b. destruct (G Hb') as [?|(ks & H3 & H4 & H5 & H6)]; auto.
    right. exists O, c, ks, m. cbn. rewrite EA. repeat split; auto.
  - destruct (IH cache' i c m n a H2 Hi Hr Hq Ha) as [Hc|(j & c' & ks & m'' & Hj & Hn & Hn' & Hq' & Hk & Hrs)].
    + destruct (G Hc) as [?|(ks & H3 & H4 & H5 & ->)]; auto. right. exists O, c0, ks, m'. cbn. rewrite EA. repeat split; auto; lia.
    + right. exists (S j), c', ks, m''. cbn. rewrite EA. repeat split; auto; lia.
Qed.
Lemma run_error : forall cs cache i c m e, Forall call_ok cs -> nth_error cs i = Some c -> nth_error (run cache cs) i = Some (m, Some e) ->
  c_kernel c = None /\ e = KOpen \/ exists ks n, c_kernel c = Some ks /\ requested c n /\ (e = KAmbiguous n /\ ambiguous ks n \/ e = KRestricted n /\ restricted ks n).
Proof.
  induction cs as [|c0 cs IH]; intros cache i c m e Hok Hi Hr; [destruct i; discriminate|]. inversion Hok; subst. cbn in Hr.
  pose proof (assign_call cache c0 H1) as A. destruct (AssignAddresses cache (proc (c_kernel c0)) (c_symbols c0)) as [[cache' m'] e'].
  destruct A as (A1 & A2 & A3 & A4 & A5). destruct i as [|i]; cbn in Hi, Hr; [|eauto]. injection Hi as ->. injection Hr as -> ->.
  destruct A5 as (_ & _ & [?|(ks & n & ? & ? & ? & ?)]); auto. right. exists ks, n. auto.
Qed.
(** calls which fail leave no trace *)
Lemma run_failed : forall cs cache c, match AssignAddresses cache (proc (c_kernel c)) (c_symbols c) with (_, m, Some e) => run cache (c :: cs) = (m, Some e) :: run cache cs | _ => True end.
Proof.
  intros cs cache c. cbn. pose proof (assign_any cache (proc (c_kernel c)) (c_symbols c)) as H. destruct (AssignAddresses cache (proc (c_kernel c)) (c_symbols c)) as [[cache' m] [e|]]; auto. destruct H as [-> _]. reflexivity.
Qed.

(** ** A kernel which doesn't change *)
Lemma assign_agrees : forall ks cache symbols, Forall wf ks -> NoDup (map fst symbols) -> agrees ks cache ->
  match AssignAddresses cache (Some (file ks, false)) symbols with
  | (cache', m, None) => agrees ks cache' /\ (forall n, In n (map fst symbols) -> exists a, sget m n = Some a /\ resolves ks n a /\ sget cache' n = Some a) /\ (forall n, sget cache n <> None -> sget cache' n <> None)
  | (cache', m, Some e) => cache' = cache /\ (exists n, In n (map fst symbols) /\ (e = KAmbiguous n /\ ambiguous ks n \/ e = KRestricted n /\ restricted ks n))
      /\ forall n, In n (map fst symbols) -> exists a, sget m n = Some a /\ (resolves ks n a \/ sget symbols n = Some a)
  end.
Proof.
  intros ks cache symbols Hw ND Hag. pose proof (assign_call cache (mkCall (Some ks) symbols) (conj ND Hw)) as A. cbn [c_kernel c_symbols proc option_map] in A.
  destruct (AssignAddresses cache (Some (file ks, false)) symbols) as [[cache' m] e]. destruct A as (A1 & A2 & A3 & A4 & A5). unfold requested in *. cbn [c_symbols] in *. destruct e as [e|].
  - destruct A5 as (-> & B & [[? _]|(ks' & n & Hk & Hq & Hc & He)]); [discriminate|]. injection Hk as <-. split; auto. split; [exists n; tauto|].
    intros n' Hn'. destruct (sget cache n') as [a|] eqn:Hc'; [exists a; split; eauto|]. assert (Hs : sget m n' <> None) by (rewrite sget_In; now rewrite A3).
    destruct (sget m n') as [a|] eqn:Ha; [|contradiction]. exists a. split; auto. right. rewrite <- (B n' Hn' Hc'). exact Ha.
  - assert (Hag' : agrees ks cache'). { intros n a Ha. destruct (A2 n a Ha) as [?|(_ & _ & ks' & Hk & Hr)]; eauto. injection Hk as <-. auto. }
    split; auto. split.
    + intros n Hn. destruct (A5 n Hn) as (a & Ha & Hb). exists a. eauto.
    + intros n Hn. destruct (sget cache n) as [a|] eqn:E; [|contradiction]. rewrite (A1 n a E). congruence.
Qed.
