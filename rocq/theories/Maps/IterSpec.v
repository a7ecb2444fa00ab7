(** Vocabulary for C63: maps of the kernel.  [entries] are the slots of a map in the order in which the kernel traverses
    them; a slot of an fd map may be empty. *)
From Coq Require Import ZArith List Lia Bool.
From Verif.Base Require Import GoInt.
From Verif.Maps Require Import Iter.
Import ListNotations.

Section Spec.
  Context {V : Type}.
  Definition entries := list (key * option V).
  Definition has (l : entries) (k : key) : Prop := In k (map fst l).

  Fixpoint find (l : entries) (k : key) : option (option V) :=
    match l with [] => None | (k', v) :: l' => if key_dec k k' then Some v else find l' k end.
  (** BPF_MAP_LOOKUP_ELEM *)
  Definition kernel_lookup (l : entries) (k : key) : res kerr V := match find l k with Some (Some v) => Ok v | _ => Err NotExist end.
  Definition first (l : entries) : res kerr key := match l with [] => Err NotExist | (k, _) :: _ => Ok k end.
  Fixpoint rest (l : entries) (k : key) : option entries :=
    match l with [] => None | (k', _) :: l' => if key_dec k k' then Some l' else rest l' k end.
  (** BPF_MAP_GET_NEXT_KEY: the key after the given one; the first one if none is given or if it doesn't exist (any more) *)
  Definition kernel_next (l : entries) (k : option key) : res kerr key :=
    match k with None => first l | Some k => match rest l k with Some l' => first l' | None => first l end end.

  (** [upto l c k]: the traversal of [l] gets to [k] after [c], or [c] is [k] *)
  Definition upto (l : entries) (c k : key) : Prop := exists a b, l = a ++ b /\ has b k /\ match b with (x, _) :: _ => x = c | [] => False end.
  (** [calm k sched]: while others change the map, as given by its contents at every time, nobody changes the entry of [k],
      and a key which the traversal meets before [k] isn't moved behind it *)
  Definition calm (k : key) (sched : nat -> entries) : Prop :=
    forall i j, (i <= j)%nat -> find (sched j) k = find (sched i) k /\ forall c, upto (sched i) c k -> has (sched j) c -> upto (sched j) c k.

  (** *** Hash tables: buckets, by hash *)
  Variable hash : key -> nat.
  Definition buckets := list entries.
  Definition flat (t : buckets) : entries := concat t.
  Definition without (k : key) (l : entries) : entries := filter (fun e => if key_dec (fst e) k then false else true) l.
  Fixpoint change (t : buckets) (i : nat) (f : entries -> entries) : buckets :=
    match t, i with [], _ => [] | b :: t', O => f b :: t' | b :: t', S i' => b :: change t' i' f end.
  (** kernel/bpf/hashtab.c: a new element, or one which replaces another, is put at the head of its bucket *)
  Inductive op := Write (k : key) (v : V) | Delete (k : key).
  Definition touches (o : op) : key := match o with Write k _ | Delete k => k end.
  Definition apply (t : buckets) (o : op) : buckets :=
    match o with
    | Write k v => change t (hash k) (fun b => (k, Some v) :: without k b)
    | Delete k => change t (hash k) (without k)
    end.
  (** every key is in the bucket of its hash, once *)
  Definition table_ok (t : buckets) : Prop := forall i b, nth_error t i = Some b -> NoDup (map fst b) /\ forall k, has b k -> hash k = i.
End Spec.
Arguments entries V : clear implicits.
Arguments op V : clear implicits.
Arguments buckets V : clear implicits.
