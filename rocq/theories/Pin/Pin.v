(** Model of pinning (internal/sys/pinning_other.go:16-67, map.go:136-187, 280-318, 344-366,
    379-480, 556-650, 1575-1640, 1731-1755, pin/load.go:23-43, internal/sys/syscall_other.go:72-108).
    Programs and links have the same methods as maps (prog.go:790-815, 1124-1150, link/link.go:129-185).

    Code is a tree of system calls, so that several threads or processes can be interleaved
    between them and stopped at any of them. *)
From Verif Require Import Base.GoInt.
Open Scope Z_scope.

Definition path := list Z.
(** Attributes of a map, as the kernel reports them *)
Record attrs := Attrs { a_type : Z; a_key : Z; a_value : Z; a_max : Z; a_flags : Z }.
Inductive errno := ENOENT | EEXIST | EPERM | EINVAL | EOTHER.
Inductive call :=
| Statfs (dirOf : path)
| ObjPin (p : path) (o : nat)
| Rename (p q : path) (noReplace : bool)
| Remove (p : path)
| ObjGet (p : path)
| ReadType (o : nat)
| ObjInfo (o : nat)
| BtfLoad
| MapCreate (a : attrs) (btf : bool)
| Put (o : nat) (k v : Z)
| Freeze (o : nat)
| Close (fd : nat).
Inductive rsp := ROk | RBool (b : bool) | RFd (fd o : nat) | RAttrs (a : attrs) | RErr (e : errno).
Inductive prog (A : Type) := Ret (a : A) | Call (c : call) (f : rsp -> prog A).
Arguments Ret {A}. Arguments Call {A}.
Fixpoint bind {A B} (m : prog A) (f : A -> prog B) : prog B :=
  match m with Ret a => f a | Call c g => Call c (fun r => bind (g r) f) end.
Notation "x <- m ; n" := (bind m (fun x => n)) (at level 100, m at next level, right associativity).
Notation "x <~ c ; n" := (Call c (fun x => n)) (at level 100, c at next level, right associativity).
Inductive err := Errno (e : errno) | EEmpty | ENotBpf | ENotMap | EIncompatible | ESpec | ECPU.

(** ** The kernel: objects, the bpf file system and the descriptors of each thread. Objects that are
    not maps have no attributes. *)
Record object := Object { o_attrs : option attrs; o_data : Z -> option Z; o_frozen : bool }.
Record world := World { objs : list object; fs : path -> option nat; nfd : nat; fds : list (nat * nat) }.
Section Kernel.
(** Which directories are on a bpf file system; whether BPF_F_RDONLY_PROG is set on device maps *)
Variable bpffs : path -> bool.
Variable devmapRO : bool.
Definition path_eqb (a b : path) : bool := if list_eq_dec Z.eq_dec a b then true else false.
Definition set {B} (f : path -> B) (p : path) (b : B) (q : path) : B := if path_eqb q p then b else f q.
Definition RDONLY_PROG : Z := 128.
Definition isDevMap (t : Z) : bool := (t =? 14) || (t =? 25).
Definition reported (a : attrs) : attrs :=
  if isDevMap (a_type a) && devmapRO then Attrs (a_type a) (a_key a) (a_value a) (a_max a) (Z.lor (a_flags a) RDONLY_PROG) else a.
Definition opened (w : world) (t : nat) : world * nat := (World (objs w) (fs w) (S (nfd w)) ((t, nfd w) :: fds w), nfd w).
Fixpoint update {A} (n : nat) (f : A -> A) (l : list A) : list A :=
  match n, l with O, x :: r => f x :: r | S n, x :: r => x :: update n f r | _, [] => [] end.
Definition onObj (w : world) (o : nat) (f : object -> object) : world := World (update o f (objs w)) (fs w) (nfd w) (fds w).
Definition withFs (w : world) (f : path -> option nat) : world := World (objs w) f (nfd w) (fds w).
Definition kexec (w : world) (t : nat) (c : call) : world * rsp :=
  match c with
  | Statfs p => (w, RBool (bpffs p))
  | ObjPin p o => match fs w p with None => (withFs w (set (fs w) p (Some o)), ROk) | Some _ => (w, RErr EEXIST) end
  | Rename p q noReplace =>
      match fs w p with
      | None => (w, RErr ENOENT)
      | Some o => match fs w q, noReplace with
                  | Some _, true => (w, RErr EEXIST)
                  | _, _ => (withFs w (set (set (fs w) p None) q (Some o)), ROk)
                  end
      end
  | Remove p => match fs w p with None => (w, RErr ENOENT) | Some _ => (withFs w (set (fs w) p None), ROk) end
  | ObjGet p => match fs w p with
                | None => (w, RErr ENOENT)
                | Some o => let '(w, fd) := opened w t in (w, RFd fd o)
                end
  | ReadType o => (w, RBool (match nth_error (objs w) o with Some (Object (Some _) _ _) => true | _ => false end))
  | ObjInfo o => match nth_error (objs w) o with Some (Object (Some a) _ _) => (w, RAttrs a) | _ => (w, RErr EINVAL) end
  | BtfLoad => let '(w, fd) := opened w t in (w, RFd fd 0)
  | MapCreate a _ =>
      let o := length (objs w) in
      let '(w, fd) := opened (World (objs w ++ [Object (Some (reported a)) (fun _ => None) false]) (fs w) (nfd w) (fds w)) t in (w, RFd fd o)
  | Put o k v =>
      match nth_error (objs w) o with
      | Some (Object _ _ true) => (w, RErr EPERM)
      | _ => (onObj w o (fun x => Object (o_attrs x) (fun j => if j =? k then Some v else o_data x j) (o_frozen x)), ROk)
      end
  | Freeze o => (onObj w o (fun x => Object (o_attrs x) (o_data x) true), ROk)
  | Close fd => (World (objs w) (fs w) (nfd w) (filter (fun x => negb (Nat.eqb (snd x) fd)) (fds w)), ROk)
  end.
(** Every call but close can also fail without effect. Without /proc the type of an object
    is missing. *)
Definition fails (c : call) (e : errno) : Prop :=
  match c with
  | Close _ => False
  | ReadType _ => True
  | _ => e = EINVAL \/ e = EOTHER
  end.
Definition kstep (w : world) (t : nat) (c : call) (w' : world) (r : rsp) : Prop :=
  kexec w t c = (w', r) \/ exists e, fails c e /\ w' = w /\ r = RErr e.
End Kernel.

(** ** Pins. internal/sys/pinning_other.go:16-55 *)
Definition pinAt (p : path) (o : nat) : prog (option err) :=
  r <~ ObjPin p o; Ret (match r with RErr e => Some (Errno e) | _ => None end).
Definition Pin (current new : path) (o : nat) : prog (option err) :=
  match new with
  | [] => Ret (Some EEmpty)
  | _ =>
      if path_eqb current new then Ret None
      else
        r <~ Statfs new;
        match r with
        | RErr e => Ret (Some (Errno e))
        | RBool true =>
            match current with
            | [] => pinAt new o
            | _ => r <~ Rename current new true;
                   match r with
                   | RErr ENOENT => pinAt new o
                   | RErr e => Ret (Some (Errno e))
                   | _ => Ret None
                   end
            end
        | _ => Ret (Some ENotBpf)
        end
  end.
(** internal/sys/pinning_other.go:57-67 *)
Definition Unpin (p : path) : prog (option err) :=
  match p with
  | [] => Ret None
  | _ => r <~ Remove p; Ret (match r with RErr ENOENT => None | RErr e => Some (Errno e) | _ => None end)
  end.

(** A Map, Program or Link: the object, its descriptor, the attributes it was made with and
    its path *)
Record handle := Handle { h_obj : nat; h_fd : nat; h_attrs : attrs; h_path : path }.
Definition withPath (h : handle) (p : path) : handle := Handle (h_obj h) (h_fd h) (h_attrs h) p.
(** map.go:1575-1600 *)
Definition MapPin (h : handle) (p : path) : prog (handle * option err) :=
  r <- Pin (h_path h) p (h_obj h); Ret (match r with Some e => (h, Some e) | None => (withPath h p, None) end).
Definition MapUnpin (h : handle) : prog (handle * option err) :=
  r <- Unpin (h_path h); Ret (match r with Some e => (h, Some e) | None => (withPath h [], None) end).
Definition IsPinned (h : handle) : bool := match h_path h with [] => false | _ => true end.

Section CPUs.
(** The number of possible CPUs, if it is known: it is read once (cpu_other.go:11-13). *)
Variable cpus : option Z.
(** types.go:132-154, without those of Windows *)
Definition hasPerCPUValue (t : Z) : bool := (t =? 5) || (t =? 6) || (t =? 10) || (t =? 21).
Definition canStoreMap (t : Z) : bool := (t =? 12) || (t =? 13).
(** map.go:136-187 *)
Definition clamp (n m : Z) : Z := if (m =? 0) || (n <? m) then n else m.
Definition fixupMagicFields (a : attrs) : res err attrs :=
  if canStoreMap (a_type a) then
    if negb (a_value a =? 0) && negb (a_value a =? 4) then Err ESpec
    else Ok (Attrs (a_type a) (a_key a) 4 (a_max a) (a_flags a))
  else if a_type a =? 4 then
    if negb (a_key a =? 0) && negb (a_key a =? 4) then Err ESpec
    else if negb (a_value a =? 0) && negb (a_value a =? 4) then Err ESpec
    else match cpus with None => Err ECPU | Some n => Ok (Attrs 4 4 4 (clamp n (a_max a)) (a_flags a)) end
  else if a_type a =? 16 then
    match cpus with None => Err ECPU | Some n => Ok (Attrs 16 (a_key a) (a_value a) (clamp n (a_max a)) (a_flags a)) end
  else Ok a.
(** map.go:280-318 *)
Definition Compatible (spec m : attrs) : option err :=
  match fixupMagicFields spec with
  | Err e => Some e
  | Ok s =>
      let flags := if isDevMap (a_type s) then Z.lor (a_flags s) (Z.land (a_flags m) RDONLY_PROG) else a_flags s in
      if (a_type m =? a_type s) && (a_key m =? a_key s) && (a_value m =? a_value s) && (a_max m =? a_max s) && (a_flags m =? flags)
      then None else Some EIncompatible
  end.
(** map.go:356-366, 732-760 *)
Definition newMapFromFD (fd o : nat) : prog (res err handle) :=
  r <~ ObjInfo o;
  match r with
  | RAttrs a => if hasPerCPUValue (a_type a) && match cpus with None => true | Some _ => false end then Ret (Err ECPU)
                else Ret (Ok (Handle o fd a []))
  | RErr e => _ <~ Close fd; Ret (Err (Errno e))
  | _ => _ <~ Close fd; Ret (Err (Errno EINVAL))
  end.
(** internal/sys/syscall_other.go:72-85 *)
Definition ObjGetTyped (p : path) : prog (res err (nat * nat * bool)) :=
  r <~ ObjGet p;
  match r with
  | RErr e => Ret (Err (Errno e))
  | RFd fd o => r <~ ReadType o;
                match r with
                | RErr e => _ <~ Close fd; Ret (Err (Errno e))
                | RBool b => Ret (Ok (fd, o, b))
                | _ => Ret (Err (Errno EINVAL))
                end
  | _ => Ret (Err (Errno EINVAL))
  end.
(** map.go:1731-1755 *)
Definition LoadPinnedMap (p : path) : prog (res err handle) :=
  r <- ObjGetTyped p;
  match r with
  | Err e => Ret (Err e)
  | Ok (fd, o, false) => _ <~ Close fd; Ret (Err ENotMap)
  | Ok (fd, o, true) => r <- newMapFromFD fd o; Ret (match r with Ok h => Ok (withPath h p) | Err e => Err e end)
  end.
(** pin/load.go:23-43, for maps *)
Definition Load (p : path) : prog (res err handle) :=
  r <- ObjGetTyped p;
  match r with
  | Err e => Ret (Err e)
  | Ok (fd, o, false) => _ <~ Close fd; Ret (Err ENotMap)
  | Ok (fd, o, true) => newMapFromFD fd o
  end.

(** ** Creating maps. [s_pin]: the path of the pin, with PinByName; [s_const]: a constant data section
    or .kconfig *)
Record spec := Spec { s_attrs : attrs; s_btf : bool; s_inner : option (attrs * bool); s_pin : option path; s_contents : list (Z * Z); s_const : bool }.
(** map.go:556-650, without Extra, struct_ops and other platforms. BTF is optional if the kernel doesn't
    support it: EINVAL stands for that. *)
Definition createMap (a : attrs) (btf : bool) : prog (res err handle) :=
  match fixupMagicFields a with
  | Err e => Ret (Err e)
  | Ok s =>
      r <- (if btf : bool
            then r <~ BtfLoad; Ret (match r with RFd fd _ => Ok (Some fd) | RErr EOTHER => Err (Errno EOTHER) | _ => Ok None end)
            else Ret (Ok None));
      match r with
      | Err e => Ret (Err e)
      | Ok btf =>
          let close {A} (k : prog A) := match btf with Some fd => _ <~ Close fd; k | None => k end in
          r <~ MapCreate s (match btf with Some _ => true | None => false end);
          r <- (match btf, r with
                | Some _, RErr EINVAL => r <~ MapCreate s false; Ret r
                | _, _ => Ret r
                end);
          match r with
          | RFd fd o =>
              if hasPerCPUValue (a_type s) && match cpus with None => true | Some _ => false end
              then _ <~ Close fd; close (Ret (Err ECPU))
              else close (Ret (Ok (Handle o fd s [])))
          | RErr e => close (Ret (Err (Errno e)))
          | _ => close (Ret (Err (Errno EINVAL)))
          end
      end
  end.
(** map.go:394-480 *)
Definition newMapNew (s : spec) : prog (res err handle) :=
  r <- (match s_inner s with
        | Some (ia, ib) => if canStoreMap (a_type (s_attrs s)) then r <- createMap ia ib; Ret (match r with Ok h => Ok (Some (h_fd h)) | Err e => Err e end) else Ret (Ok None)
        | None => Ret (if canStoreMap (a_type (s_attrs s)) then Err ESpec else Ok None)
        end);
  match r with
  | Err e => Ret (Err e)
  | Ok template =>
      let close {A} (k : prog A) := match template with Some fd => _ <~ Close fd; k | None => k end in
      r <- createMap (s_attrs s) (s_btf s);
      match r, s_pin s with
      | Ok h, Some p =>
          r <- MapPin h p;
          match r with
          | (h, None) => close (Ret (Ok h))
          | (_, Some e) => _ <~ Close (h_fd h); close (Ret (Err e))
          end
      | r, _ => close (Ret r)
      end
  end.
Definition newMapWithOptions (s : spec) : prog (res err handle) :=
  match s_pin s with
  | Some p =>
      r <- LoadPinnedMap p;
      match r with
      | Err (Errno ENOENT) => newMapNew s
      | Err e => Ret (Err e)
      | Ok h => match Compatible (s_attrs s) (h_attrs h) with
                | Some e => _ <~ Close (h_fd h); Ret (Err e)
                | None => Ret (Ok h)
                end
      end
  | None => newMapNew s
  end.
(** map.go:1617-1633 *)
Fixpoint putAll (o : nat) (l : list (Z * Z)) (k : prog (option err)) : prog (option err) :=
  match l with
  | [] => k
  | (x, v) :: l => r <~ Put o x v; match r with RErr e => Ret (Some (Errno e)) | _ => putAll o l k end
  end.
Definition finalize (s : spec) (o : nat) : prog (option err) :=
  putAll o (s_contents s)
    (if s_const s then r <~ Freeze o; Ret (match r with RErr e => Some (Errno e) | _ => None end) else Ret None).
(** map.go:379-392 *)
Definition NewMap (s : spec) : prog (res err handle) :=
  r <- newMapWithOptions s;
  match r with
  | Err e => Ret (Err e)
  | Ok h => r <- finalize s (h_obj h);
            match r with
            | None => Ret (Ok h)
            | Some e => _ <~ Close (h_fd h); Ret (Err e)
            end
  end.
End CPUs.
