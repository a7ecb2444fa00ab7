(** Model of finding symbols of executables (link/uprobe.go:43-261, link/uprobe_multi.go:118-167).

    Addresses, offsets and sizes are uint64; a Go map is an association list. *)
From Coq Require Import String.
From Verif Require Import Base.GoInt.
Open Scope Z_scope.

(** debug/elf: a program header and a symbol *)
Record seg := Seg { g_type : Z; g_flags : Z; g_off : Z; g_vaddr : Z; g_memsz : Z }.
Record esym := ESym { y_name : string; y_info : Z; y_value : Z; y_size : Z }.
(** What parsing the file gives: Symbols, DynamicSymbols (empty for elf.ErrNoSymbols) and Progs;
    or an error, also if the file is neither an executable nor a shared object. *)
Record file := File { f_syms : list esym; f_dyn : list esym; f_segs : list seg }.
Inductive parsed := Parsed (f : file) | Unreadable.

(** uprobe.go:49-57 *)
Record symbol := Sym { addr : Z; size : Z }.
Definition contains (s : symbol) (a : Z) : bool := (addr s <=? a) && (a <? u64 (addr s + size s)).
Definition cache := list (string * symbol).
Fixpoint get_ (name : string) (c : cache) : option symbol :=
  match c with
  | [] => None
  | (n, s) :: r => if String.eqb name n then Some s else get_ name r
  end.
Fixpoint set_ (name : string) (s : symbol) (c : cache) : cache :=
  match c with
  | [] => [(name, s)]
  | (n, t) :: r => if String.eqb name n then (n, s) :: r else (n, t) :: set_ name s r
  end.

(** uprobe.go:144-165: the first executable segment that contains the value *)
Fixpoint offsetOf (value : Z) (segs : list seg) : Z :=
  match segs with
  | [] => value
  | g :: r =>
      if negb (g_type g =? 1) || (Z.land (g_flags g) 1 =? 0) then offsetOf value r
      else if (g_vaddr g <=? value) && (value <? u64 (g_vaddr g + g_memsz g)) then u64 (u64 (value - g_vaddr g) + g_off g)
      else offsetOf value r
  end.
(** uprobe.go:124-173 *)
Definition isFunc (y : esym) : bool := Z.land (y_info y) 15 =? 2.
Definition load (f : file) (c : cache) : cache :=
  fold_left (fun c y => if isFunc y then set_ (y_name y) (Sym (offsetOf (y_value y) (f_segs f)) (y_size y)) c else c) (f_syms f ++ f_dyn f) c.

(** uprobe.go:38-47: an executable; sync.Once *)
Record exe := Exe { once : bool; cached : cache }.
Definition OpenExecutable : exe := Exe false [].
Inductive failure := ELoad | ENoSymbol | ENotSupported | ERange | EInvalid.
(** uprobe.go:175-193; [p]: what parsing the file gives now. The error is a local variable: if
    the function was called before, it is nil. *)
Definition lazyLoadSymbols (p : parsed) (ex : exe) : exe * bool :=
  if once ex then (ex, true)
  else match p with
       | Unreadable => (Exe true (cached ex), false)
       | Parsed f => (Exe true (load f (cached ex)), true)
       end.
(** uprobe.go:198-229 *)
Definition address (p : parsed) (ex : exe) (sym : string) (address offset : Z) : exe * res failure Z :=
  if 0 <? address then (ex, Ok (u64 (address + offset)))
  else
    let '(ex, ok) := lazyLoadSymbols p ex in
    if negb ok then (ex, Err ELoad)
    else match get_ sym (cached ex) with
         | None => (ex, Err ENoSymbol)
         | Some s => if addr s =? 0 then (ex, Err ENotSupported)
                     else if size s <=? offset then (ex, Err ERange)
                     else (ex, Ok (u64 (addr s + offset)))
         end.
(** uprobe.go:237-253; [order]: the order in which the map is iterated *)
Definition Symbol (p : parsed) (order : cache -> cache) (ex : exe) (a : Z) : exe * res failure (string * Z) :=
  let '(ex, ok) := lazyLoadSymbols p ex in
  if negb ok then (ex, Err ELoad)
  else match find (fun e => contains (snd e) a) (order (cached ex)) with
       | Some (n, s) => (ex, Ok (n, u64 (a - addr s)))
       | None => (ex, Err ENoSymbol)
       end.

(** uprobe_multi.go:118-167; a slice that may be nil *)
Definition len {A} (o : option (list A)) : nat := match o with Some l => List.length l | None => O end.
Definition at_ {A} (d : A) (o : option (list A)) (i : nat) : A := match o with Some l => nth i l d | None => d end.
Definition wrong {A} (o : option (list A)) (n : nat) : bool := match o with Some l => negb (Nat.eqb (List.length l) n) | None => false end.
Fixpoint addressLoop (p : parsed) (ex : exe) (symbols : option (list string)) (addresses offsets : option (list Z)) (is : list nat) (acc : list Z) : exe * res failure (list Z) :=
  match is with
  | [] => (ex, Ok acc)
  | i :: is => match address p ex (at_ EmptyString symbols i) (at_ 0 addresses i) (at_ 0 offsets i) with
               | (ex, Err e) => (ex, Err e)
               | (ex, Ok r) => addressLoop p ex symbols addresses offsets is (acc ++ [r])
               end
  end.
Definition addresses (p : parsed) (ex : exe) (symbols : option (list string)) (addresses offsets : option (list Z)) : exe * res failure (list Z) :=
  let n := if Nat.eqb (len symbols) 0 then len addresses else len symbols in
  if Nat.eqb n 0 then (ex, Err EInvalid)
  else if wrong symbols n || wrong addresses n || wrong offsets n then (ex, Err EInvalid)
  else addressLoop p ex symbols addresses offsets (seq 0 n) [].
