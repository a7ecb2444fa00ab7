(** Model of the collection loader: NewCollectionWithOptions, CollectionSpec.LoadAndAssign, Collection.Assign, Detach and Close
    (collection.go:153-640, 838-940, 1007-1063).

    Every step which can fail (a system call, a check which depends on the kernel or on options) asks [fails], an arbitrary
    function of the number of such steps so far.  What happens to objects is recorded in a log.  Names are numbers;
    Go maps are association lists; the order in which a Go map is iterated is an argument. *)
From Coq Require Import ZArith List Lia Bool.
From Verif.Base Require Import GoInt.
Import ListNotations.

Definition name := nat.
(** a file descriptor, together with the Go object which owns it *)
Definition obj := nat.

Section Assoc.
  Context {A : Type}.
  Fixpoint get (l : list (name * A)) (n : name) : option A := match l with [] => None | (m, a) :: l' => if Nat.eqb n m then Some a else get l' n end.
  Fixpoint del (l : list (name * A)) (n : name) : list (name * A) := match l with [] => [] | (m, a) :: l' => if Nat.eqb n m then del l' n else (m, a) :: del l' n end.
End Assoc.

(** types.go:144-160: maps which can store maps, programs, struct_ops maps and all others *)
Inductive mkind := Scalar | OfMaps | OfProgs | StructOps.
Definition canStoreMapOrProgram (k : mkind) : bool := match k with Scalar => false | _ => true end.
(** values of MapSpec.Contents: names of other objects are Go strings *)
Inductive value := VData (d : Z) | VString (n : name).
(** fields of MapSpec which matter *)
Record mapSpec := mkMapSpec { ms_kind : mkind; ms_contents : list (Z * value) }.
(** fields of asm.Instruction which matter: whether IsLoadFromMap, the reference (None if it is ""), the constant *)
Record insn := mkInsn { in_map : bool; in_ref : option name; in_const : Z }.
(** [ps_unspec]: Type == UnspecifiedProgram *)
Record progSpec := mkProgSpec { ps_unspec : bool; ps_insns : list insn }.
(** CollectionSpec; a variable is given by its SectionName *)
Record spec := mkSpec { s_maps : list (name * mapSpec); s_progs : list (name * progSpec); s_vars : list (name * name) }.
(** CollectionOptions.MapReplacements: objects of the user *)
Definition replacements := list (name * obj).

(** values put into a map *)
Inductive rvalue := RData (d : Z) | RMap (o : obj) | RProg (o : obj) | RString (n : name).
Inductive event :=
| ECreateMap (n : name) (o : obj)
| EClone (n : name) (src o : obj)
| EFinalize (o : obj) (c : list (Z * rvalue))      (* all contents put, and frozen if necessary *)
| ECreateProg (n : name) (o : obj) (refs : list (option obj))  (* for every instruction: the map it was associated with *)
| EClose (o : obj).

Inductive lerr := LReplacement (n : name) | LMissingMap (n : name) | LMissingProg (n : name) | LUnspecified (n : name) | LMissingVar (n : name)
| LFailed (step : nat) | LUnassigned (n : name) | LDuplicate (n : name) | LCantSet (n : name).

(** collectionLoader, collection.go:319-326, and the world *)
Record st := mkSt { t_step : nat; t_next : obj; t_log : list event; l_maps : list (name * obj); l_progs : list (name * obj); l_vars : list (name * obj) }.

Section Loader.
  Variable fails : nat -> bool.
  Variable sp : spec.
  Variable repl : replacements.

  (** a step which may fail *)
  Definition step (s : st) : st * bool := (mkSt (S (t_step s)) (t_next s) (t_log s) (l_maps s) (l_progs s) (l_vars s), fails (t_step s)).
  Definition emit (s : st) (e : event) : st := mkSt (t_step s) (t_next s) (t_log s ++ [e]) (l_maps s) (l_progs s) (l_vars s).
  Definition fresh (s : st) : st * obj := (mkSt (t_step s) (S (t_next s)) (t_log s) (l_maps s) (l_progs s) (l_vars s), t_next s).
  Definition put_map (s : st) (n : name) (o : obj) : st := mkSt (t_step s) (t_next s) (t_log s) (l_maps s ++ [(n, o)]) (l_progs s) (l_vars s).
  Definition put_prog (s : st) (n : name) (o : obj) : st := mkSt (t_step s) (t_next s) (t_log s) (l_maps s) (l_progs s ++ [(n, o)]) (l_vars s).
  Definition put_var (s : st) (n : name) (o : obj) : st := mkSt (t_step s) (t_next s) (t_log s) (l_maps s) (l_progs s) (l_vars s ++ [(n, o)]).
  Definition failed {A} (s : st) : st * res lerr A := (s, Err (LFailed (t_step s))).

  (** contents of a map without references (MapKV values which aren't strings of another object are put as they are) *)
  Definition plain (c : list (Z * value)) : list (Z * rvalue) := map (fun kv => (fst kv, match snd kv with VData d => RData d | VString n => RString n end)) c.

  (** collection.go:402-457 loadMap; finalize is map.go:1620-1634.  The flags of data sections are left out;
      updateDataSection, Compatible, Clone, newMapWithOptions and finalize are steps.  newMapWithOptions closes what it
      created if it fails (map.go:394-470), so that a failure creates nothing. *)
  Definition loadMap (s : st) (n : name) : st * res lerr obj :=
    match get (l_maps s) n with
    | Some o => (s, Ok o)
    | None =>
        match get (s_maps sp) n with
        | None => (s, Err (LMissingMap n))
        | Some ms =>
            match get repl n with
            | Some src =>
                let (s, f) := step s in if f then failed s else      (* Compatible *)
                let (s, f) := step s in if f then failed s else      (* Clone *)
                let (s, o) := fresh s in
                (put_map (emit s (EClone n src o)) n o, Ok o)
            | None =>
                let (s, f) := step s in if f then failed s else      (* updateDataSection *)
                let (s, f) := step s in if f then failed s else      (* newMapWithOptions *)
                let (s, o) := fresh s in
                let s := emit s (ECreateMap n o) in
                if canStoreMapOrProgram (ms_kind ms) then (put_map s n o, Ok o)
                else
                  let (s, f) := step s in if f then failed (emit s (EClose o)) else   (* finalize *)
                  (put_map (emit s (EFinalize o (plain (ms_contents ms)))) n o, Ok o)
            end
        end
    end.

  (** collection.go:479-505: the loop over the instructions.  AssociateMap can't fail for an open map and an instruction which
      loads from a map. *)
  Fixpoint loadRefs (s : st) (is : list insn) : st * res lerr (list (option obj)) :=
    match is with
    | [] => (s, Ok [])
    | i :: is' =>
        match in_map i, in_ref i, (i32 (in_const i) >? 0)%Z with
        | true, Some n, false =>
            match loadMap s n with
            | (s, Err e) => (s, Err e)
            | (s, Ok o) => match loadRefs s is' with (s, Err e) => (s, Err e) | (s, Ok r) => (s, Ok (Some o :: r)) end
            end
        | _, _, _ => match loadRefs s is' with (s, Err e) => (s, Err e) | (s, Ok r) => (s, Ok (None :: r)) end
        end
    end.
  (** collection.go:459-516 loadProgram; newProgramWithOptions is a step *)
  Definition loadProgram (s : st) (n : name) : st * res lerr obj :=
    match get (l_progs s) n with
    | Some o => (s, Ok o)
    | None =>
        match get (s_progs sp) n with
        | None => (s, Err (LMissingProg n))
        | Some ps =>
            if ps_unspec ps then (s, Err (LUnspecified n))
            else
              match loadRefs s (ps_insns ps) with
              | (s, Err e) => (s, Err e)
              | (s, Ok refs) =>
                  let (s, f) := step s in if f then failed s else
                  let (s, o) := fresh s in
                  (put_prog (emit s (ECreateProg n o refs)) n o, Ok o)
              end
        end
    end.
  (** collection.go:518-563 loadVariable: the variable is represented by the map behind it; Memory and newVariable are steps *)
  Definition loadVariable (s : st) (n : name) : st * res lerr obj :=
    match get (l_vars s) n with
    | Some o => (s, Ok o)
    | None =>
        match get (s_vars sp) n with
        | None => (s, Err (LMissingVar n))
        | Some sec =>
            match loadMap s sec with
            | (s, Err e) => (s, Err e)
            | (s, Ok o) =>
                let (s, f) := step s in if f then failed s else
                let (s, f) := step s in if f then failed s else
                (put_var s n o, Ok o)
            end
        end
    end.

  (** collection.go:590-615: references of a map are resolved *)
  Fixpoint resolve (s : st) (k : mkind) (c : list (Z * value)) : st * res lerr (list (Z * rvalue)) :=
    match c with
    | [] => (s, Ok [])
    | (key, v) :: c' =>
        let r :=
          match v, k with
          | VString n, OfProgs => match loadProgram s n with (s, Ok o) => (s, Ok (RProg o)) | (s, Err e) => (s, Err e) end
          | VString n, OfMaps => match loadMap s n with (s, Ok o) => (s, Ok (RMap o)) | (s, Err e) => (s, Err e) end
          | VString n, _ => (s, Ok (RString n))
          | VData d, _ => (s, Ok (RData d))
          end in
        match r with
        | (s, Err e) => (s, Err e)
        | (s, Ok v) => match resolve s k c' with (s, Err e) => (s, Err e) | (s, Ok l) => (s, Ok ((key, v) :: l)) end
        end
    end.
  (** collection.go:567-634 populateDeferredMaps.  [order] is the order in which range produces the names.  cl.maps grows
      meanwhile: an entry which is added may be produced or not.  populateStructOps is a step; it is modelled as if it left Contents
      as they are. *)
  Fixpoint populate (s : st) (order : list name) : st * res lerr unit :=
    match order with
    | [] => (s, Ok tt)
    | n :: order' =>
        match get (l_maps s) n with
        | None => populate s order'      (* range only produces names which are in the map *)
        | Some m =>
            match get (s_maps sp) n with
            | None => (s, Err (LMissingMap n))
            | Some ms =>
                if negb (canStoreMapOrProgram (ms_kind ms)) then populate s order'
                else
                  match resolve s (ms_kind ms) (ms_contents ms) with
                  | (s, Err e) => (s, Err e)
                  | (s, Ok c) =>
                      let (s, f) := step s in if f then failed s else      (* populateStructOps *)
                      let (s, f) := step s in if f then failed s else      (* finalize *)
                      populate (emit s (EFinalize m c)) order'
                  end
            end
        end
    end.

  (** a loop which loads *)
  Fixpoint loadAll {A} (load : st -> name -> st * res lerr A) (s : st) (l : list name) : st * res lerr unit :=
    match l with [] => (s, Ok tt) | n :: l' => match load s n with (s, Err e) => (s, Err e) | (s, Ok _) => loadAll load s l' end end.

  (** collection.go:391-400 close *)
  Definition close (s : st) : st :=
    mkSt (t_step s) (t_next s) (t_log s ++ map EClose (map snd (l_maps s)) ++ map EClose (map snd (l_progs s))) (l_maps s) (l_progs s) (l_vars s).

  (** collection.go:328-357 newCollectionLoader: populateKallsyms is a step *)
  Definition newLoader (base : obj) : st * res lerr unit :=
    let s := mkSt 0 base [] [] [] [] in
    match filter (fun r => match get (s_maps sp) (fst r) with None => true | Some _ => false end) repl with
    | r :: _ => (s, Err (LReplacement (fst r)))
    | [] => let (s, f) := step s in if f then failed s else (s, Ok tt)
    end.

  (** the orders of the four loops *)
  Record orders := mkOrders { o_maps : list name; o_progs : list name; o_vars : list name; o_populate : list name }.
  (** collection.go:279-286 *)
  Definition typed (n : name) : bool := match get (s_progs sp) n with Some ps => negb (ps_unspec ps) | None => true end.
  Definition loadEverything (s : st) (os : orders) : st * res lerr unit :=
    match loadAll loadMap s (o_maps os) with
    | (s, Err e) => (s, Err e)
    | (s, Ok _) =>
        match loadAll loadProgram s (filter typed (o_progs os)) with
        | (s, Err e) => (s, Err e)
        | (s, Ok _) =>
            match loadAll loadVariable s (o_vars os) with
            | (s, Err e) => (s, Err e)
            | (s, Ok _) => populate s (o_populate os)
            end
        end
    end.
  (** collection.go:265-317 NewCollectionWithOptions: Programs, Maps and Variables of the Collection, and the log *)
  Definition newCollection (base : obj) (os : orders) : list event * res lerr (list (name * obj) * list (name * obj) * list (name * obj)) :=
    match newLoader base with
    | (s, Err e) => (t_log s, Err e)
    | (s, Ok _) =>
        match loadEverything s os with
        | (s, Err e) => (t_log (close s), Err e)
        | (s, Ok _) => (t_log s, Ok (l_progs s, l_maps s, l_vars s))
        end
    end.

  (** *** LoadAndAssign *)
  (** a field of the struct: type and tag; [f_set]: whether it can be set *)
  Inductive ftype := FProg | FMap | FVar.
  Record field := mkField { f_type : ftype; f_name : name; f_set : bool }.
  Definition ftype_eqb (a b : ftype) : bool := match a, b with FProg, FProg | FMap, FMap | FVar, FVar => true | _, _ => false end.
  Definition names_of (t : ftype) (l : list (ftype * name)) : list name := map snd (filter (fun e => ftype_eqb (fst e) t) l).
  (** collection.go:192-210 getValue of LoadAndAssign *)
  Definition loadField (s : st) (t : ftype) (n : name) : st * res lerr obj := match t with FProg => loadProgram s n | FMap => loadMap s n | FVar => loadVariable s n end.
  (** collection.go:1033-1062, the loop of assignValues; [done] are the types and tags of the fields which are set.  The result
      is what the fields have been set to, also if there is an error. *)
  Fixpoint assignValues (s : st) (done : list (ftype * name)) (fs : list field) : st * list obj * res lerr unit :=
    match fs with
    | [] => (s, [], Ok tt)
    | f :: fs' =>
        if existsb (fun e => ftype_eqb (fst e) (f_type f) && Nat.eqb (snd e) (f_name f)) done then (s, [], Err (LDuplicate (f_name f)))
        else
          match loadField s (f_type f) (f_name f) with
          | (s, Err e) => (s, [], Err e)
          | (s, Ok o) =>
              if f_set f then match assignValues s ((f_type f, f_name f) :: done) fs' with (s, l, r) => (s, o :: l, r) end
              else (s, [], Err (LCantSet (f_name f)))
          end
    end.
  Definition removeAll {A} (l : list (name * A)) (ns : list name) : list (name * A) := fold_left del ns l.
  (** collection.go:223-238: program arrays which aren't assigned, but have contents *)
  Definition unassigned (fs : list field) (s : st) : list (name * obj) :=
    filter (fun e => negb (existsb (fun f => ftype_eqb (f_type f) FMap && Nat.eqb (f_name f) (fst e)) fs) &&
                     match get (s_maps sp) (fst e) with Some ms => match ms_kind ms with OfProgs => negb (Nat.eqb (length (ms_contents ms)) 0) | _ => false end | None => false end) (l_maps s).
  (** collection.go:180-253 LoadAndAssign; the fields have been collected by ebpfFields *)
  Definition loadAndAssign (base : obj) (fs : list field) (o_populate : list name) : list event * list obj * res lerr unit :=
    match newLoader base with
    | (s, Err e) => (t_log s, [], Err e)
    | (s, Ok _) =>
        match assignValues s [] fs with
        | (s, l, Err e) => (t_log (close s), l, Err e)
        | (s, l, Ok _) =>
            match populate s o_populate with
            | (s, Err e) => (t_log (close s), l, Err e)
            | (s, Ok _) =>
                match unassigned fs s with
                | e :: _ => (t_log (close s), l, Err (LUnassigned (fst e)))
                | [] =>
                    let as_ := map (fun f => (f_type f, f_name f)) fs in
                    let s := mkSt (t_step s) (t_next s) (t_log s) (removeAll (l_maps s) (names_of FMap as_)) (removeAll (l_progs s) (names_of FProg as_)) (removeAll (l_vars s) (names_of FVar as_)) in
                    (t_log (close s), l, Ok tt)
                end
            end
        end
    end.
End Loader.
