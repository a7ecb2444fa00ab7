(** Model of prog.go:1183-1320 (findProgramTargetInKernel, findTargetInKernel, findTargetInModule), 425-475 (newProgramWithOptions: attach targets),
    btf/handle.go:130-160, 240-321 (NewHandleFromID, HandleIterator) and btf/kernel.go:80-230 (Cache, one user): finding what a program attaches to *)
From Verif Require Import Base.GoInt.
Open Scope Z_scope.

Definition name := list Z.
Definition name_eqb (a b : name) : bool := if list_eq_dec Z.eq_dec a b then true else false.
Definition vmlinux : name := [118; 109; 108; 105; 110; 117; 120].
(** Kinds of types that can be attached to; [Other] stands for all others. *)
Inductive kind := Struct | Func | Typedef | Other.
Definition kind_eqb (a b : kind) : bool := match a, b with Struct, Struct | Func, Func | Typedef, Typedef | Other, Other => true | _, _ => false end.
(** A decoded BTF blob: its types with their IDs. For modules those of the split BTF only, see btf.go:507-511. *)
Record ty := Ty { t_id : Z; t_kind : kind; t_name : name }.
Definition types := list ty.
(** A BTF object of the kernel, from user space or from the kernel *)
Record obj := Obj { o_id : Z; o_name : name; o_kernel : bool; o_types : types }.
(** The kernel at some moment: its BTF objects by ID, and the files in /sys/kernel/btf *)
Record kernel := Kernel { objs : list obj; files : name -> option types }.
Definition nextObj (k : kernel) (id : Z) : option obj := find (fun o => id <? o_id o) (objs k).
Definition objById (k : kernel) (id : Z) : option obj := find (fun o => o_id o =? id) (objs k).

(** errors, as errors.Is sees them: btf.ErrNotFound; the same because there is no kernel BTF; EPERM; EPERM and btf.ErrNotFound; btf.ErrMultipleMatches; any other *)
Inductive err := NotFound | NoBTF | Perm | PermNotFound | Multiple | OtherErr.
Definition isNotFound (e : err) : bool := match e with NotFound | NoBTF | PermNotFound => true | _ => false end.
Definition isPerm (e : err) : bool := match e with Perm | PermNotFound => true | _ => false end.
Inductive result (A : Type) := Ok (a : A) | Err (e : err).
Arguments Ok {A}. Arguments Err {A}.

(** Handles: a number of its own, and the object *)
Definition handle := (nat * obj)%type.
Record cache := Cache { c_kernel : option types; c_modules : name -> option types }.
Record world := World { now : nat; opened : list handle; fresh : nat; cache_ : cache }.
Definition close (h : option handle) (l : list handle) : list handle :=
  match h with None => l | Some h => filter (fun x => negb (Nat.eqb (fst x) (fst h))) l end.
Definition withOpened (w : world) (l : list handle) : world := World (now w) l (fresh w) (cache_ w).
Definition withCache (w : world) (c : cache) : world := World (now w) (opened w) (fresh w) c.
Definition tick (w : world) : world := World (S (now w)) (opened w) (fresh w) (cache_ w).

(** btf.go:446-496 TypeByName; for the name part see C58 *)
Definition typeByName (ts : types) (n : name) (k : kind) : result Z :=
  match filter (fun t => name_eqb (t_name t) n && kind_eqb (t_kind t) k) ts with
  | [] => Err NotFound
  | [t] => Ok (t_id t)
  | _ => Err Multiple
  end.

Section Env.
(** What the kernel looks like when the n-th system call is made, and system calls that fail for another reason than that something is missing *)
Variable env : nat -> kernel.
Variable fails : nat -> option err.

(** os.Open and decoding of a file in /sys/kernel/btf *)
Definition loadFile (w : world) (n : name) : result types * world :=
  (match fails (now w) with
   | Some e => Err e
   | None => match files (env (now w)) n with Some ts => Ok ts | None => Err OtherErr end
   end, tick w).
(** btf/kernel.go:163-186 Cache.Kernel *)
Definition cacheKernel (w : world) : result types * world :=
  match c_kernel (cache_ w) with
  | Some ts => (Ok ts, w)
  | None => match loadFile w vmlinux with
      | (Ok ts, w) => (Ok ts, withCache w (Cache (Some ts) (c_modules (cache_ w))))
      | (Err e, w) => (Err e, w)
      end
  end.
(** btf/kernel.go:87-105: names with a slash or a dot are invalid. *)
Definition validModule (n : name) : bool := forallb (fun b => negb (b =? 46) && negb (b =? 47)) n.
(** btf/kernel.go:188-226 Cache.Module *)
Definition cacheModule (w : world) (n : name) : result types * world :=
  match c_modules (cache_ w) n with
  | Some ts => (Ok ts, w)
  | None => match cacheKernel w with
      | (Err e, w) => (Err e, w)
      | (Ok _, w) =>
          if negb (validModule n) then (Err OtherErr, w)
          else match loadFile w n with
          | (Ok ts, w) => (Ok ts, withCache w (Cache (c_kernel (cache_ w)) (fun m => if name_eqb m n then Some ts else c_modules (cache_ w) m)))
          | (Err e, w) => (Err e, w)
          end
      end
  end.
(** handle.go:214-247 newHandleInfoFromFD, which asks the kernel twice *)
Definition info (w : world) (h : handle) : result (name * bool) * world :=
  match fails (now w) with
  | Some e => (Err e, tick w)
  | None => match fails (S (now w)) with
      | Some e => (Err e, tick (tick w))
      | None => (Ok (o_name (snd h), o_kernel (snd h)), tick (tick w))
      end
  end.
(** handle.go:131-152. [Ok None]: ENOENT *)
Definition newHandleFromID (w : world) (id : Z) : result (option handle) * world :=
  match fails (now w), objById (env (now w)) id with
  | Some e, _ => (Err e, tick w)
  | None, None => (Ok None, tick w)
  | None, Some o =>
      let h := (fresh w, o) in
      let w := World (S (now w)) (h :: opened w) (S (fresh w)) (cache_ w) in
      match info w h with
      | (Err e, w) => (Err e, withOpened w (close (Some h) (opened w)))
      | (Ok _, w) => (Ok (Some h), w)
      end
  end.
Record iter := Iter { i_id : Z; i_handle : option handle; i_err : option err }.
(** handle.go:272-311. [None]: out of fuel *)
Fixpoint next_ (fuel : nat) (w : world) (it : iter) (id : Z) : option (bool * world * iter) :=
  match fuel with
  | O => None
  | S fuel =>
      let stop w e := Some (false, withOpened w (close (i_handle it) (opened w)), Iter (i_id it) None e) in
      match fails (now w), nextObj (env (now w)) id with
      | Some e, _ => stop (tick w) (Some e)
      | None, None => stop (tick w) (i_err it)
      | None, Some o =>
          let id := o_id o in
          match newHandleFromID (tick w) id with
          | (Err e, w) => stop w (Some e)
          | (Ok None, w) => next_ fuel w it id
          | (Ok (Some h), w) => Some (true, withOpened w (close (i_handle it) (opened w)), Iter id (Some h) (i_err it))
          end
      end
  end.
Definition next (fuel : nat) (w : world) (it : iter) := next_ fuel w it (i_id it).
Definition isModule (i : name * bool) : bool := snd i && negb (name_eqb (fst i) vmlinux).
(** prog.go:1285-1320. The deferred Close is that of a nil handle, as its receiver is evaluated by the defer statement. *)
Fixpoint inModule (fuel : nat) (w : world) (it : iter) (n : name) (k : kind) : option (result (handle * Z) * world) :=
  match fuel with
  | O => None
  | S fuel' => match next fuel w it with
      | None => None
      | Some (false, w, it) => Some (match i_err it with Some e => Err e | None => Err NotFound end, w)
      | Some (true, w, it) =>
          match i_handle it with
          | None => Some (Err OtherErr, w) (* not reached *)
          | Some h => match info w h with
              | (Err e, w) => Some (Err e, w)
              | (Ok i, w) =>
                  if negb (isModule i) then inModule fuel' w it n k
                  else match cacheModule w (fst i) with
                  | (Err e, w) => Some (Err e, w)
                  | (Ok ts, w) => match typeByName ts n k with
                      | Ok id => Some (Ok (h, id), w)
                      | Err NotFound => inModule fuel' w it n k
                      | Err e => Some (Err e, w)
                      end
                  end
              end
          end
      end
  end.
(** prog.go:1257-1278 findTargetInKernel, with the ID that the Spec has for the type *)
Definition inKernel (fuel : nat) (w : world) (n : name) (k : kind) : option (result (option handle * Z) * world) :=
  match cacheKernel w with
  | (Err _, w) => Some (Err NoBTF, w)
  | (Ok ts, w) => match typeByName ts n k with
      | Ok id => Some (Ok (None, id), w)
      | Err NotFound => match inModule fuel w (Iter 0 None None) n k with
          | None => None
          | Some (Ok (h, id), w) => Some (Ok (Some h, id), w)
          | Some (Err e, w) => Some (Err (if isPerm e then PermNotFound else e), w)
          end
      | Err e => Some (Err e, w)
      end
  end.
(** prog.go:1194-1225 *)
Inductive ptype := PStructOps | PLSM | PTracing | POther.
Inductive atype := AStructOps | ALSMMac | AIter | AFEntry | AFExit | AModifyReturn | ARawTp | AOther.
Definition bpf_lsm_ : name := [98; 112; 102; 95; 108; 115; 109; 95].
Definition bpf_iter_ : name := [98; 112; 102; 95; 105; 116; 101; 114; 95].
Definition btf_trace_ : name := [98; 116; 102; 95; 116; 114; 97; 99; 101; 95].
Definition target (n : name) (p : ptype) (a : atype) : option (name * kind) :=
  match p, a with
  | PStructOps, AStructOps => Some (n, Struct)
  | PLSM, ALSMMac => Some (bpf_lsm_ ++ n, Func)
  | PTracing, AIter => Some (bpf_iter_ ++ n, Func)
  | PTracing, AFEntry | PTracing, AFExit | PTracing, AModifyReturn => Some (n, Func)
  | PTracing, ARawTp => Some (btf_trace_ ++ n, Typedef)
  | _, _ => None
  end.
Inductive lookupErr := Unrecognized | Unsupported | Ambiguous | Failed (e : err).
(** prog.go:1183-1248 *)
Definition programTarget (fuel : nat) (w : world) (n : name) (p : ptype) (a : atype) : option ((option handle * Z + lookupErr) * world) :=
  match target n p a with
  | None => Some (inr Unrecognized, w)
  | Some (n, k) => match inKernel fuel w n k with
      | None => None
      | Some (Ok r, w) => Some (inl r, w)
      | Some (Err e, w) => Some (inr (if isNotFound e then Unsupported else match e with Multiple => Ambiguous | _ => Failed e end), w)
      end
  end.
(** prog.go:425-475 for programs other than struct_ops: what the kernel is asked for (the ID, and the handle whose descriptor is passed), and the handles
    open then and after the kernel has answered *)
Inductive loaded := Load (id : Z) (h : option handle) (during after : list handle) | Refused (e : lookupErr) (after : list handle).
Definition attach (fuel : nat) (w : world) (n : name) (p : ptype) (a : atype) : option loaded :=
  match programTarget fuel w n p a with
  | None => None
  | Some (inr Unrecognized, w) => Some (Load 0 None (opened w) (opened w))
  | Some (inr e, w) => Some (Refused e (opened w))
  | Some (inl (h, id), w) => Some (Load id h (opened w) (close h (opened w)))
  end.
(** The same for struct_ops: the struct is looked up again, prog.go:445-470. [member]: whether it has the member *)
Definition attachStructOps (fuel : nat) (member : bool) (w : world) (n : name) (a : atype) : option loaded :=
  match programTarget fuel w n PStructOps a with
  | None => None
  | Some (r, w) =>
      match r with
      | inr Unrecognized | inl _ => match inKernel fuel w n Struct with
          | None => None
          | Some (Err e, w) => Some (Refused (Failed e) (opened w))
          | Some (Ok (h, id), w) => if member then Some (Load id h (opened w) (close h (opened w))) else Some (Refused (Failed OtherErr) (opened w))
          end
      | inr e => Some (Refused e (opened w))
      end
  end.
End Env.
