(** List lemmas missing from the standard library. *)
From Coq Require Import List Lia Arith.
Import ListNotations.

Lemma nth_error_ext {A} (l m : list A) : (forall i, nth_error l i = nth_error m i) -> l = m.
Proof.
  revert m; induction l as [|x l IH]; intros [|y m] H; [reflexivity|specialize (H O); discriminate..|].
  pose proof (H O) as H0. cbn in H0. inversion H0; subst. f_equal. apply IH. intros i. exact (H (S i)).
Qed.
Lemma nth_error_firstn_lt {A} (l : list A) : forall n i, i < n -> nth_error (firstn n l) i = nth_error l i.
Proof. induction l as [|x l IH]; intros [|n] [|i] H; cbn; try lia; try reflexivity. apply IH. lia. Qed.
Lemma nth_error_firstn_ge {A} (l : list A) n i : n <= i -> nth_error (firstn n l) i = None.
Proof. intros H. apply nth_error_None. rewrite firstn_length. lia. Qed.
Lemma nth_error_skipn {A} (l : list A) : forall n i, nth_error (skipn n l) i = nth_error l (n + i).
Proof. induction l as [|x l IH]; intros [|n] i; cbn; try reflexivity; [destruct i; reflexivity|apply IH]. Qed.
Lemma nth_error_app_full {A} (l m : list A) i :
  nth_error (l ++ m) i = if i <? length l then nth_error l i else nth_error m (i - length l).
Proof. destruct (Nat.ltb_spec i (length l)); [apply nth_error_app1|apply nth_error_app2]; assumption. Qed.
Lemma nth_error_map' {A B} (f : A -> B) l i : nth_error (map f l) i = option_map f (nth_error l i).
Proof. revert i; induction l; intros [|i]; cbn; auto. Qed.
Lemma nth_error_hd {A} (l : list A) d : hd d l = match nth_error l 0 with Some x => x | None => d end.
Proof. destruct l; reflexivity. Qed.
Lemma nth_error_tl {A} (l : list A) i : nth_error (tl l) i = nth_error l (S i).
Proof. destruct l; cbn; [destruct i; reflexivity|reflexivity]. Qed.
Lemma nth_error_removelast {A} (l : list A) i : S i < length l -> nth_error (removelast l) i = nth_error l i.
Proof.
  intros H. rewrite <- (firstn_skipn (pred (length l)) l) at 2. rewrite removelast_firstn_len.
  symmetry. apply nth_error_app1. rewrite firstn_length. lia.
Qed.
Lemma removelast_length {A} (l : list A) : length (removelast l) = pred (length l).
Proof. rewrite removelast_firstn_len, firstn_length. lia. Qed.
Lemma nth_error_last {A} (l : list A) d : l <> [] -> nth_error l (pred (length l)) = Some (last l d).
Proof.
  intros H. destruct (exists_last H) as (m & x & ->). rewrite app_length, last_last. cbn.
  replace (pred (length m + 1)) with (length m) by lia. rewrite nth_error_app2, Nat.sub_diag by lia. reflexivity.
Qed.
