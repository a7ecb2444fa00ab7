(** Model of a Collection after it is loaded (collection.go:836-940) and of the search for tagged fields (collection.go:942-1004). *)
From Coq Require Import ZArith List Lia Bool.
From Verif.Base Require Import GoInt.
From Verif.Coll Require Import Loader.
Import ListNotations.
Local Open Scope nat_scope.

(** collection.go:256-264 Collection; a variable is given by the map behind it *)
Record coll := mkColl { c_progs : list (name * obj); c_maps : list (name * obj); c_vars : list (name * obj) }.

(** collection.go:862-884 getValue of Assign *)
Definition getValue (c : coll) (t : ftype) (n : name) : res lerr obj :=
  match t with
  | FProg => match get (c_progs c) n with Some o => Ok o | None => Err (LMissingProg n) end
  | FMap => match get (c_maps c) n with Some o => Ok o | None => Err (LMissingMap n) end
  | FVar => match get (c_vars c) n with Some o => Ok o | None => Err (LMissingVar n) end
  end.
(** collection.go:1033-1062 the loop of assignValues *)
Fixpoint assignColl (c : coll) (done : list (ftype * name)) (fs : list field) : list obj * res lerr unit :=
  match fs with
  | [] => ([], Ok tt)
  | f :: fs' =>
      if existsb (fun e => ftype_eqb (fst e) (f_type f) && Nat.eqb (snd e) (f_name f)) done then ([], Err (LDuplicate (f_name f)))
      else
        match getValue c (f_type f) (f_name f) with
        | Err e => ([], Err e)
        | Ok o => if f_set f then match assignColl c ((f_type f, f_name f) :: done) fs' with (l, r) => (o :: l, r) end else ([], Err (LCantSet (f_name f)))
        end
  end.
(** collection.go:855-906 Collection.Assign: the collection afterwards, what the fields have been set to and the error *)
Definition assign (c : coll) (fs : list field) : coll * list obj * res lerr unit :=
  match assignColl c [] fs with
  | (l, Err e) => (c, l, Err e)
  | (l, Ok _) =>
      let as_ := map (fun f => (f_type f, f_name f)) fs in
      (mkColl (removeAll (c_progs c) (names_of FProg as_)) (removeAll (c_maps c) (names_of FMap as_)) (removeAll (c_vars c) (names_of FVar as_)), l, Ok tt)
  end.
(** collection.go:910-919 Collection.Close: what is closed *)
Definition closeColl (c : coll) : list obj := map snd (c_progs c) ++ map snd (c_maps c).
(** collection.go:921-930 DetachMap *)
Definition detachMap (c : coll) (n : name) : coll * option obj := (mkColl (c_progs c) (del (c_maps c) n) (c_vars c), get (c_maps c) n).
(** collection.go:932-941 DetachProgram *)
Definition detachProgram (c : coll) (n : name) : coll * option obj := (mkColl (del (c_progs c) n) (c_maps c) (c_vars c), get (c_progs c) n).

(** what a program can do with a collection before it closes it *)
Inductive op := OAssign (fs : list field) | ODetachMap (n : name) | ODetachProgram (n : name).
Definition given_of (o : option obj) : list obj := match o with Some x => [x] | None => [] end.
(** the collection after an operation, and the objects which the caller has received together with the duty to close them: those of a
    successful Assign and of Detach *)
Definition run_op (c : coll) (o : op) : coll * list obj :=
  match o with
  | OAssign fs => match assign c fs with (c', l, Ok _) => (c', flat_map (fun fo => match f_type (fst fo) with FVar => [] | _ => [snd fo] end) (combine fs l)) | (c', _, Err _) => (c', []) end
  | ODetachMap n => let (c', r) := detachMap c n in (c', given_of r)
  | ODetachProgram n => let (c', r) := detachProgram c n in (c', given_of r)
  end.
Fixpoint run_ops (c : coll) (os : list op) : coll * list obj :=
  match os with [] => (c, []) | o :: os' => let (c', g) := run_op c o in let (c'', g') := run_ops c' os' in (c'', g ++ g') end.

(** *** ebpfFields *)
(** a field of a struct: tagged; a pointer to a struct (nil or not); a struct; anything else *)
Inductive item := ITagged (f : field) | IPtr (n : option nat) | IStruct (n : nat) | IOther.
(** struct values, by number; and the type of each *)
Definition heap := list (nat * list item).
Fixpoint hget (h : heap) (n : nat) : list item := match h with [] => [] | (m, l) :: h' => if Nat.eqb n m then l else hget h' n end.
Inductive ferr := FNil | FRecursion | FDiverges.
(** collection.go:950-1004 ebpfFields.  [visited] is passed on, but nothing is ever added to it.  [fuel] bounds the depth of
    the recursion: FDiverges means that Go's stack overflows if this is so for every fuel. *)
Fixpoint ebpfFields (fuel : nat) (h : heap) (ty : nat -> nat) (visited : list nat) (n : nat) {struct fuel} : res ferr (list field) :=
  match fuel with
  | O => Err FDiverges
  | S fuel =>
      if existsb (Nat.eqb (ty n)) visited then Err FRecursion
      else
        (fix go (l : list item) : res ferr (list field) :=
           match l with
           | [] => Ok []
           | ITagged f :: l' => match go l' with Ok r => Ok (f :: r) | Err e => Err e end
           | IOther :: l' => go l'
           | IPtr None :: _ => Err FNil
           | IPtr (Some m) :: l' | IStruct m :: l' =>
               match ebpfFields fuel h ty visited m with
               | Err e => Err e
               | Ok a => match go l' with Ok r => Ok (a ++ r) | Err e => Err e end
               end
           end) (hget h n)
  end.
