(** Model of link/link.go:265-333 (Iterator, NewFromID 73-81) and btf/handle.go:263-335 (HandleIterator), which work alike, and of the kernel's BPF_*_GET_NEXT_ID, BPF_*_GET_FD_BY_ID and BPF_OBJ_GET_INFO_BY_FD *)
From Coq Require Import List Bool Arith Lia Permutation.
Import ListNotations.

(** Descriptors are numbered by the time they were opened at. *)
Definition fd := nat.
Section World.
(** The objects that there are at each point in time, as long as ids aren't 0; the system calls that fail for reasons of their own (permissions, too many descriptors) *)
Variable world : nat -> list nat.
Variable fails : nat -> bool.
(** bpf_obj_get_next_id: the smallest id above *)
Definition nextId (id : nat) (l : list nat) : option nat :=
  fold_right (fun n r => if id <? n then match r with Some m => Some (Nat.min n m) | None => Some n end else r) None l.
Definition exists_ (n : nat) (l : list nat) : bool := existsb (Nat.eqb n) l.

(** Iterator: the id, the object with its descriptor, whether there was an error *)
Record iter := It { cur : nat; held : option fd; err : bool }.
(** Open descriptors, those that belong to the caller, the ids that were returned (newest first), the time *)
Record st := St { it : iter; fds : list fd; taken : list fd; seen : list nat; time : nat }.
Inductive found := Found (id : nat) (f : fd) | End | Failed.
(** link.go:278-302, handle.go:282-303, with NewFromID (73-81) and NewHandleFromID (120-139): the loop. Takes time, may open a descriptor. [None]: out of fuel *)
Fixpoint search (fuel t id : nat) (fds : list fd) : option (found * nat * list fd) :=
  match fuel with
  | O => None
  | S fuel =>
      if fails t then Some (Failed, S t, fds)
      else match nextId id (world t) with
      | None => Some (End, S t, fds)
      | Some n =>
          if fails (S t) then Some (Failed, S (S t), fds)
          else if exists_ n (world (S t)) then
            let f := S t in let fds := f :: fds in
            if fails (S (S t)) then Some (Failed, S (S (S t)), List.remove Nat.eq_dec f fds) else Some (Found n f, S (S (S t)), fds)
          else search fuel (S (S t)) n fds
      end
  end.
Definition closeHeld (h : option fd) (fds : list fd) : list fd := match h with Some f => List.remove Nat.eq_dec f fds | None => fds end.
(** link.go:277-313 Next, handle.go:276-313 *)
Definition next (fuel : nat) (s : st) : option (st * bool) :=
  match search fuel (time s) (cur (it s)) (fds s) with
  | None => None
  | Some (Found n f, t, fs) => Some (St (It n (Some f) (err (it s))) (closeHeld (held (it s)) fs) (taken s) (n :: seen s) t, true)
  | Some (End, t, fs) => Some (St (It (cur (it s)) None (err (it s))) (closeHeld (held (it s)) fs) (taken s) (seen s) t, false)
  | Some (Failed, t, fs) => Some (St (It (cur (it s)) None true) (closeHeld (held (it s)) fs) (taken s) (seen s) t, false)
  end.
(** link.go:318-322, handle.go:318-322 Take *)
Definition take (s : st) : st := St (It (cur (it s)) None (err (it s))) (fds s) (match held (it s) with Some f => f :: taken s | None => taken s end) (seen s) (time s).
(** link.go:329-333 Close: the iterator isn't used afterwards. *)
Definition close (s : st) : st := St (It (cur (it s)) None (err (it s))) (closeHeld (held (it s)) (fds s)) (taken s) (seen s) (time s).
End World.
