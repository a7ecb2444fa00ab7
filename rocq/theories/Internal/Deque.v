(** Model of internal/deque.go. Counters are uint64 and wrap. *)
From Coq Require Import ZArith List Lia Bool.
From Verif.Base Require Import GoInt.
Import ListNotations.
Open Scope Z_scope.

Section Deque.
Context {A : Type} (zero : A).

(** internal/deque.go:6-10; [elems] is dq.elems with its full length. *)
Record deque := mkDeque { elems : list A; dread : Z; dwrite : Z; mask : Z }.
(** the zero value *)
Definition empty_deque : deque := mkDeque [] 0 0 0.

(** Go index expressions; [None] is a panic. *)
Definition idx (l : list A) (i : Z) : option A := nth_error l (Z.to_nat i).
Fixpoint set_nat (l : list A) (i : nat) (x : A) : list A :=
  match l, i with
  | [], _ => []
  | _ :: t, O => x :: t
  | y :: t, S j => y :: set_nat t j x
  end.
Definition set_idx (l : list A) (i : Z) (x : A) : option (list A) :=
  if (Z.to_nat i <? length l)%nat then Some (set_nat l (Z.to_nat i) x) else None.

(** internal/deque.go:23-25 *)
Definition Empty (dq : deque) : bool := dread dq =? dwrite dq.

(** internal/deque.go:13-21 Reset; [n] iterations clear elements [read, write). *)
Fixpoint clear (l : list A) (i m : Z) (n : nat) : option (list A) :=
  match n with
  | O => Some l
  | S n' => match set_idx l (Z.land i m) zero with None => None | Some l' => clear l' (u64 (i + 1)) m n' end
  end.
Definition Reset (dq : deque) : option deque :=
  match clear (elems dq) (dread dq) (mask dq) (Z.to_nat (dwrite dq - dread dq)) with
  | None => None
  | Some l => Some (mkDeque l 0 0 (mask dq))
  end.

(** internal/deque.go:66-93 Grow. 1<<(64-LeadingZeros64(need-1)) is 2^(bit length of need-1);
    LeadingZeros64(x) = 64 - bitlen(x).  The slice expression elems[:capacity] exposes the zeroed rest.
    Simplified: the Go constant shift has type int, so it would wrap for need > 2^62; the theorems
    only speak of queues of at most 2^60 elements (sizes_ok). *)
Definition bitlen (x : Z) : Z := if x =? 0 then 0 else Z.log2 x + 1.
Definition Grow (dq : deque) (n : Z) : option deque :=
  let have := u64 (dwrite dq - dread dq) in
  let need := u64 (have + u64 n) in
  if need <? have then None                       (* panic("overflow") *)
  else if Z.of_nat (length (elems dq)) >=? need then Some dq
  else
    let capacity := Z.max (2 ^ bitlen (u64 (need - 1))) 8 in
    let pivot := Z.to_nat (Z.land (dread dq) (mask dq)) in
    if (length (elems dq) <? pivot)%nat then None
    else
      let fst_part := firstn (Z.to_nat have) (skipn pivot (elems dq)) in
      let copied := length fst_part in
      let snd_part := firstn (Z.to_nat have - copied) (firstn pivot (elems dq)) in
      let body := fst_part ++ snd_part in
      Some (mkDeque (body ++ repeat zero (Z.to_nat capacity - length body)) 0 have (u64 (capacity - 1))).

(** internal/deque.go:28-32 Push *)
Definition Push (dq : deque) (e : A) : option deque :=
  match Grow dq 1 with
  | None => None
  | Some d => match set_idx (elems d) (Z.land (dwrite d) (mask d)) e with
              | None => None
              | Some l => Some (mkDeque l (dread d) (u64 (dwrite d + 1)) (mask d))
              end
  end.
(** internal/deque.go:35-47 Shift *)
Definition Shift (dq : deque) : option (A * deque) :=
  if Empty dq then Some (zero, dq)
  else let i := Z.land (dread dq) (mask dq) in
       match idx (elems dq) i, set_idx (elems dq) i zero with
       | Some t, Some l => Some (t, mkDeque l (u64 (dread dq + 1)) (dwrite dq) (mask dq))
       | _, _ => None
       end.
(** internal/deque.go:50-62 Pop *)
Definition Pop (dq : deque) : option (A * deque) :=
  if Empty dq then Some (zero, dq)
  else let w := u64 (dwrite dq - 1) in
       let i := Z.land w (mask dq) in
       match idx (elems dq) i, set_idx (elems dq) i zero with
       | Some t, Some l => Some (t, mkDeque l (dread dq) w (mask dq))
       | _, _ => None
       end.
End Deque.
Arguments deque : clear implicits.

(** ** Specification: a list *)
Inductive dop (A : Type) := OPush (x : A) | OPop | OShift | OGrow (n : Z) | OReset.
Arguments OPush {A}. Arguments OPop {A}. Arguments OShift {A}. Arguments OGrow {A}. Arguments OReset {A}.
(** result: what Pop/Shift returned ([zero] on an empty queue) *)
Definition list_op {A} (zero : A) (o : dop A) (l : list A) : option A * list A :=
  match o with
  | OPush x => (None, l ++ [x])
  | OPop => (Some (last l zero), removelast l)
  | OShift => (Some (hd zero l), tl l)
  | OGrow _ => (None, l)
  | OReset => (None, [])
  end.
Definition deque_op {A} (zero : A) (o : dop A) (d : deque A) : option (option A * deque A) :=
  match o with
  | OPush x => option_map (fun d' => (None, d')) (Push zero d x)
  | OPop => option_map (fun p => (Some (fst p), snd p)) (Pop zero d)
  | OShift => option_map (fun p => (Some (fst p), snd p)) (Shift zero d)
  | OGrow n => option_map (fun d' => (None, d')) (Grow zero d n)
  | OReset => option_map (fun d' => (None, d')) (Reset zero d)
  end.
Fixpoint list_run {A} (zero : A) (l : list A) (ops : list (dop A)) : list (option A) :=
  match ops with [] => [] | o :: ops' => let '(r, l') := list_op zero o l in r :: list_run zero l' ops' end.
Fixpoint deque_run {A} (zero : A) (d : deque A) (ops : list (dop A)) : option (list (option A)) :=
  match ops with
  | [] => Some []
  | o :: ops' => match deque_op zero o d with
                 | None => None
                 | Some (r, d') => option_map (cons r) (deque_run zero d' ops')
                 end
  end.
(** the queue never gets longer than the address space allows *)
Fixpoint sizes_ok {A} (zero : A) (l : list A) (ops : list (dop A)) : Prop :=
  match ops with
  | [] => True
  | o :: ops' =>
      (match o with OGrow n => 0 <= n /\ Z.of_nat (length l) + n <= 2 ^ 60 | OPush _ => Z.of_nat (length l) + 1 <= 2 ^ 60 | _ => True end) /\
      sizes_ok zero (snd (list_op zero o l)) ops'
  end.
(** states after a sequence of operations *)
Fixpoint list_final {A} (zero : A) (l : list A) (ops : list (dop A)) : list A :=
  match ops with [] => l | o :: ops' => list_final zero (snd (list_op zero o l)) ops' end.
Fixpoint deque_final {A} (zero : A) (d : deque A) (ops : list (dop A)) : option (deque A) :=
  match ops with
  | [] => Some d
  | o :: ops' => match deque_op zero o d with None => None | Some (_, d') => deque_final zero d' ops' end
  end.
