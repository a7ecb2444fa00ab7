(** Model of btf/kernel.go:136-245 (Cache.Kernel, Module, Modules) with any number of goroutines, of sync.RWMutex, and of /sys/kernel/btf *)
From Coq Require Import List String Bool Arith Lia Permutation.
Import ListNotations.
Open Scope string_scope.

(** A goroutine; a pointer to a Spec; the address of the bytes of a slice *)
Definition tid := nat. Definition ptr := nat. Definition addr := nat.
Inductive call := Kernel | Module (name : string) | Modules.
(** What a call returns: a pointer, a slice of strings at an address, or an error *)
Inductive result := RSpec (p : ptr) | RList (a : addr) | RErr.
(** What happens, as seen from outside. [EvLoadK], [EvLoadM]: LoadKernelSpec, and loadKernelModuleSpec with a name and a base, return a new Spec or an error. [EvDir]: the entries of /sys/kernel/btf are read.
    [EvRet]: a call returns; the strings of the list are those it has then. [EvUser]: a slice that was returned is overwritten. [EvEnv]: the modules with BTF that are loaded change. *)
Inductive event := EvCall (t : tid) (c : call) | EvLoadK (t : tid) (r : option ptr) | EvLoadM (t : tid) (n : string) (base : ptr) (r : option ptr) | EvDir (t : tid) (r : option (list string))
  | EvRet (t : tid) (c : call) (r : result) (l : list string) | EvUser (a : addr) (l : list string) | EvEnv (l : list string).

(** Where a goroutine is: not in a call; about to take the read lock; holding it, about to look; about to release it with a result, or without; about to take the write lock; waiting for readers to go; holding it, about to look again (150, 177, 218);
    about to make the map (181), to look at kernelTypes (185), to load and store the kernel's types (158), a module's (190, 195), the list (222-239); about to release the write lock *)
Inductive pc := Idle | Start (c : call) | RHeld (c : call) | RDone (c : call) (r : result) | RMiss (c : call) | WStart (c : call) | WPend (c : call) | WHeld (c : call)
  | WMake (n : string) | WKern (n : string) | WLoadK (c : call) | WLoadM (n : string) (base : ptr) | WDir | WDone (c : call) (r : result) | Panicked.
(** btf/kernel.go:128-133 Cache, with the mutex (who holds or wants the write lock; who holds the read lock), memory for slices, and the world. [mods]: [None] is a nil map. *)
Record st := St { kern : option ptr; mods : option (list (string * ptr)); lst : option addr; owner : option tid; readers : list tid;
  heap : addr -> list string; fresh : nat; pcs : tid -> pc; env : list string; hist : list event }.
(** Nondeterminism: the call, whether a file can be read, the order of directory entries *)
Record choice := Choice { ch_call : call; ch_ok : bool; ch_entries : list string }.
Definition upd {A} (f : nat -> A) (i : nat) (v : A) : nat -> A := fun j => if Nat.eqb j i then v else f j.
Definition find (n : string) (m : option (list (string * ptr))) : option ptr :=
  match m with Some m => option_map snd (List.find (fun e => String.eqb (fst e) n) m) | None => None end.

Definition setPc (s : st) (t : tid) (p : pc) : st := St (kern s) (mods s) (lst s) (owner s) (readers s) (heap s) (fresh s) (upd (pcs s) t p) (env s) (hist s).
Definition setLock (s : st) (o : option tid) (r : list tid) : st := St (kern s) (mods s) (lst s) o r (heap s) (fresh s) (pcs s) (env s) (hist s).
Definition setKern (s : st) (k : option ptr) : st := St k (mods s) (lst s) (owner s) (readers s) (heap s) (fresh s) (pcs s) (env s) (hist s).
Definition setMods (s : st) (m : list (string * ptr)) : st := St (kern s) (Some m) (lst s) (owner s) (readers s) (heap s) (fresh s) (pcs s) (env s) (hist s).
Definition setLst (s : st) (a : addr) : st := St (kern s) (mods s) (Some a) (owner s) (readers s) (heap s) (fresh s) (pcs s) (env s) (hist s).
Definition log (s : st) (e : event) : st := St (kern s) (mods s) (lst s) (owner s) (readers s) (heap s) (fresh s) (pcs s) (env s) (e :: hist s).
(** A new Spec *)
Definition alloc (s : st) : st := St (kern s) (mods s) (lst s) (owner s) (readers s) (heap s) (S (fresh s)) (pcs s) (env s) (hist s).
(** A new slice. slices.Clone copies what is at another address. *)
Definition make (s : st) (l : list string) : st := St (kern s) (mods s) (lst s) (owner s) (readers s) (upd (heap s) (fresh s) l) (S (fresh s)) (pcs s) (env s) (hist s).
(** sort.Strings *)
Fixpoint insert (x : string) (l : list string) : list string := match l with [] => [x] | y :: r => if String.leb x y then x :: l else y :: insert x r end.
Fixpoint sort (l : list string) : list string := match l with [] => [] | x :: r => insert x (sort r) end.
(** 234-236 slices.DeleteFunc *)
Definition notVmlinux (n : string) : bool := negb (String.eqb n "vmlinux").

(** 141-144, 171-174, 206-209 and 218-220: what a call finds in the cache; the list is cloned. *)
Definition lookup (s : st) (c : call) : option (result * st) :=
  match c with
  | Kernel => option_map (fun p => (RSpec p, s)) (kern s)
  | Module n => option_map (fun p => (RSpec p, s)) (find n (mods s))
  | Modules => match lst s with Some a => Some (RList (fresh s), make s (heap s a)) | None => None end
  end.
Definition content (s : st) (r : result) : list string := match r with RList a => heap s a | _ => [] end.

(** One step of a goroutine. [None]: it is blocked. *)
Definition tstep (t : tid) (ch : choice) (s : st) : option st :=
  match pcs s t with
  | Idle => Some (log (setPc s t (Start (ch_call ch))) (EvCall t (ch_call ch)))
  | Start c => match owner s with None => Some (setPc (setLock s None (t :: readers s)) t (RHeld c)) | Some _ => None end
  | RHeld c => match lookup s c with Some (r, s) => Some (setPc s t (RDone c r)) | None => Some (setPc s t (RMiss c)) end
  | RDone c r => Some (log (setPc (setLock s (owner s) (List.remove Nat.eq_dec t (readers s))) t Idle) (EvRet t c r (content s r)))
  | RMiss c => Some (setPc (setLock s (owner s) (List.remove Nat.eq_dec t (readers s))) t (WStart c))
  | WStart c => match owner s with None => Some (setPc (setLock s (Some t) (readers s)) t (WPend c)) | Some _ => None end
  | WPend c => match readers s with [] => Some (setPc s t (WHeld c)) | _ => None end
  | WHeld c =>
      match lookup s c with
      | Some (r, s) => Some (setPc s t (WDone c r))
      | None => Some (setPc s t (match c with Kernel => WLoadK Kernel | Module n => WMake n | Modules => WDir end))
      end
  | WMake n => Some (setPc (match mods s with None => setMods s [] | Some _ => s end) t (WKern n))
  | WKern n => Some (setPc s t (match kern s with Some b => WLoadM n b | None => WLoadK (Module n) end))
  | WLoadK c =>
      if ch_ok ch then
        let p := fresh s in let s := setKern (alloc s) (Some p) in
        Some (log (setPc s t (match c with Module n => WLoadM n p | _ => WDone c (RSpec p) end)) (EvLoadK t (Some p)))
      else Some (log (setPc (setKern s None) t (WDone c RErr)) (EvLoadK t None))
  | WLoadM n b =>
      if ch_ok ch && existsb (String.eqb n) (env s) then
        let p := fresh s in
        match mods s with
        | Some m => Some (log (setPc (setMods (alloc s) ((n, p) :: m)) t (WDone (Module n) (RSpec p))) (EvLoadM t n b (Some p)))
        | None => Some (setPc s t Panicked)
        end
      else Some (log (setPc s t (WDone (Module n) RErr)) (EvLoadM t n b None))
  | WDir =>
      if ch_ok ch then
        let l := sort (filter notVmlinux (ch_entries ch)) in
        let s1 := make s l in let s2 := make (setLst s1 (fresh s)) l in
        Some (log (setPc s2 t (WDone Modules (RList (fresh s1)))) (EvDir t (Some (ch_entries ch))))
      else Some (log (setPc s t (WDone Modules RErr)) (EvDir t None))
  | WDone c r => Some (log (setPc (setLock s None (readers s)) t Idle) (EvRet t c r (content s r)))
  | Panicked => None
  end.

(** Addresses of the lists that were returned *)
Definition returned (h : list event) : list addr := flat_map (fun e => match e with EvRet _ _ (RList a) _ => [a] | _ => [] end) h.
(** A goroutine takes a step, reading the directory as it is; someone writes to a list they were given; modules come and go. *)
Inductive step : st -> st -> Prop :=
| step_thread t ch s s' : Permutation (ch_entries ch) ("vmlinux" :: env s) -> tstep t ch s = Some s' -> step s s'
| step_user a l s : In a (returned (hist s)) -> step s (log (St (kern s) (mods s) (lst s) (owner s) (readers s) (upd (heap s) a l) (fresh s) (pcs s) (env s) (hist s)) (EvUser a l))
| step_env l s : step s (log (St (kern s) (mods s) (lst s) (owner s) (readers s) (heap s) (fresh s) (pcs s) l (hist s)) (EvEnv l)).
(** NewCache, in a world with some modules loaded *)
Definition init (e : list string) : st := St None None None None [] (fun _ => []) 0 (fun _ => Idle) e [].
Inductive reachable (e : list string) : st -> Prop := reach_init : reachable e (init e) | reach_step s s' : reachable e s -> step s s' -> reachable e s'.

(** The fields of Cache, and which of them the next step of a goroutine reads or writes ([true]) *)
Inductive field := FKern | FMods | FList.
Definition fieldOf (c : call) : field := match c with Kernel => FKern | Module _ => FMods | Modules => FList end.
Definition access (p : pc) : option (field * bool) :=
  match p with
  | RHeld c | WHeld c => Some (fieldOf c, false)
  | WMake _ => Some (FMods, true)
  | WKern _ => Some (FKern, false)
  | WLoadK _ => Some (FKern, true)
  | WLoadM _ _ => Some (FMods, true)
  | WDir => Some (FList, true)
  | _ => None
  end.
