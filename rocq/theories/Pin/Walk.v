(** Model of pin.WalkDir (pin/walk_other.go), pin.Load (pin/load.go), Pin (pin/pin.go) and of io/fs.WalkDir of the Go standard library, which it uses.
    The file system may change at any time: [world t] is the tree below the root when the [t]th system call is made, and whether that call fails by itself is [fails t]. *)
From Coq Require Import List Bool Arith Lia.
Import ListNotations.

Definition name := list nat.
Definition path := list name.
(** An object: number, and whether it is a map with a value per CPU *)
Inductive tree := Dir (entries : list (name * tree)) | Object (id : nat) (perCPU : bool) | Other.
Definition nameEqb (a b : name) : bool := if list_eq_dec Nat.eq_dec a b then true else false.
Fixpoint find (es : list (name * tree)) (n : name) : option tree :=
  match es with [] => None | (m, t) :: r => if nameEqb m n then Some t else find r n end.
Fixpoint lookup (t : tree) (p : path) : option tree :=
  match p with
  | [] => Some t
  | n :: p => match t with Dir es => match find es n with Some t => lookup t p | None => None end | _ => None end
  end.
Definition isDir (t : tree) : bool := match t with Dir _ => true | _ => false end.
(** Strings are ordered by their bytes. *)
Fixpoint ltb (a b : name) : bool :=
  match a, b with
  | _, [] => false
  | [], _ :: _ => true
  | x :: a, y :: b => (x <? y) || (x =? y) && ltb a b
  end.
(** os.ReadDir: entries sorted by name *)
Fixpoint insert (e : name * bool) (l : list (name * bool)) : list (name * bool) :=
  match l with [] => [e] | f :: r => if ltb (fst f) (fst e) then f :: insert e r else e :: l end.
Fixpoint sortEntries (es : list (name * tree)) : list (name * bool) :=
  match es with [] => [] | (n, t) :: r => insert (n, isDir t) (sortEntries r) end.

(** What the caller sees: a pin: path, object, descriptor, and which descriptors are open while it sees it; or an error *)
Inductive event := EPin (p : path) (o : nat) (fd : nat) (open : list nat) | EError.
Record st := St { now : nat; opens : list nat; trace : list event }.
Inductive res := Nil | SkipAll | Err.

Section Walk.
Variable world : nat -> option tree.
Variable fails : nat -> bool.
(** PossibleCPU works *)
Variable cpus : bool.
(** The root is in a BPF file system *)
Variable bpffs : bool.
(** What the caller does with a pin, given all it has seen: call Take; go on *)
Variable takes continues : list event -> bool.

Definition see (t : nat) (p : path) : option tree := match world t with Some T => lookup T p | None => None end.
Definition tick (s : st) : st := St (S (now s)) (opens s) (trace s).
Definition close (fd : nat) (s : st) : st := St (now s) (filter (fun x => negb (x =? fd)) (opens s)) (trace s).
(** load.go:18-43; internal/sys/syscall_other.go ObjGetTyped (81-97): open, type, then info; map.go:738-763 newMapFromParts doesn't close the descriptor if PossibleCPU fails. A descriptor is named after the time it is opened. *)
Definition Load (p : path) (s : st) : option (nat * nat) * st :=
  let t := now s in
  if fails t then (None, tick s) else
  match see t p with
  | Some (Object o perCPU) =>
      let s := St (S t) (t :: opens s) (trace s) in
      if fails (now s) then (None, close t (tick s)) else
      let s := tick s in
      if fails (now s) then (None, close t (tick s)) else
      let s := tick s in
      if perCPU && negb cpus then (None, s) else (Some (o, t), s)
  | _ => (None, tick s)
  end.
(** walk_other.go:43-56, for files *)
Definition file (p : path) (s : st) : res * st :=
  match Load p s with
  | (None, s) => (Err, s)
  | (Some (o, fd), s) =>
      let tr := trace s ++ [EPin p o fd (opens s)] in
      let s := St (now s) (opens s) tr in
      let s := if takes tr then s else close fd s in
      (if continues tr then Nil else SkipAll, s)
  end.
(** io/fs/walk.go: walkDir, with the function of walk_other.go:34-57: it returns nil for directories, and errors as they are. [fuel]: bound on the depth *)
Fixpoint each (f : name -> bool -> st -> option (res * st)) (l : list (name * bool)) (s : st) : option (res * st) :=
  match l with
  | [] => Some (Nil, s)
  | (n, d) :: l => match f n d s with Some (Nil, s) => each f l s | x => x end
  end.
Fixpoint walk (fuel : nat) (p : path) (d : bool) (s : st) : option (res * st) :=
  match fuel with
  | O => None
  | S fuel =>
      if negb d then Some (file p s) else
      let t := now s in
      if fails t then Some (Err, tick s) else
      match see t p with
      | Some (Dir es) => each (fun n d => walk fuel (p ++ [n]) d) (sortEntries es) (tick s)
      | _ => Some (Err, tick s)
      end
  end.
Definition yieldError (s : st) : st := St (now s) (opens s) (trace s ++ [EError]).
(** walk_other.go:21-64 *)
Definition WalkDir (fuel : nat) (s : st) : option st :=
  let t := now s in
  if fails t then Some (yieldError (tick s)) else
  match see t [] with
  | None => Some (yieldError (tick s))
  | Some _ =>
      if negb bpffs then Some (yieldError (tick s)) else
      let s := tick s in
      if fails (now s) then Some (yieldError (tick s)) else
      match see (now s) [] with
      | Some (Dir _) =>
          match walk fuel [] true (tick s) with
          | None => None
          | Some (Err, s) => Some (yieldError s)
          | Some (_, s) => Some s
          end
      | _ => Some (yieldError (tick s))
      end
  end.
End Walk.
