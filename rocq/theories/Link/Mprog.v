(** Model of link/tcx.go, link/netkit.go, link/anchor.go, link/query.go, RawAttachProgram, RawDetachProgram, RawLink.UpdateArgs and Close, and of the kernel's ordered list of programs (kernel/bpf/mprog.c, tcx.c), for one interface and attach type *)
From Coq Require Import List Bool Arith NArith ZArith Lia.
Import ListNotations.

(** struct bpf_tuple: a program that is attached, by a link or directly *)
Record ent := Ent { e_prog : nat; e_link : option nat }.
Inductive obj := OProg (p : nat) | OLink (l : nat).
(** The list, its revision, the ids of programs (of the right type) and of links (with their programs) that exist, the descriptors of the process, a source of new numbers *)
Record st := St { ents : list ent; rev : nat; progs : list nat; links : list (nat * nat); fdt : list (nat * obj); next : nat }.
Definition mem (n : nat) (l : list nat) : bool := existsb (Nat.eqb n) l.
Definition assoc {A} (n : nat) (l : list (nat * A)) : option A := option_map snd (find (fun x => Nat.eqb (fst x) n) l).
Definition isSome {A} (o : option A) : bool := match o with Some _ => true | None => false end.
Definition optEqb (a b : option nat) : bool := match a, b with None, None => true | Some x, Some y => Nat.eqb x y | _, _ => false end.

(** ** The library *)
(** internal/sys/syscall.go:171-175: the bits *)
Definition bREPLACE := 2%N. Definition bBEFORE := 3%N. Definition bAFTER := 4%N. Definition bID := 5%N. Definition bLINK := 13%N.
Definition bit (n : N) : N := N.shiftl 1 n.
(** anchor.go:12-16 *)
Definition anchorFlags : N := N.lor (bit bREPLACE) (N.lor (bit bBEFORE) (N.lor (bit bAFTER) (N.lor (bit bID) (bit bLINK)))).
(** What an anchor can refer to; programs and links by their descriptor, [None] when closed; links that have no descriptor *)
Inductive target := TProgram (fd : option nat) | TProgramID (id : nat) | TLink (fd : option nat) | TLinkID (id : nat) | TOther.
Inductive position := Before | After | Replace.
(** 35-105 *)
Inductive anchor := Head | Tail | At (t : target) (p : position).
Definition posFlag (p : position) : N := match p with Before => bit bBEFORE | After => bit bAFTER | Replace => bit bREPLACE end.
(** 37-55, 112-142 anchor: descriptor or id, and flags *)
Definition anchorOf (a : anchor) : option (nat * N) :=
  match a with
  | Head => Some (0, bit bBEFORE)
  | Tail => Some (0, bit bAFTER)
  | At t p =>
      match t with
      | TProgram None | TLink None | TOther => None
      | TProgram (Some fd) => Some (fd, N.lor (posFlag p) 0)
      | TProgramID id => Some (id, N.lor (posFlag p) (bit bID))
      | TLink (Some fd) => Some (fd, N.lor (posFlag p) (bit bLINK))
      | TLinkID id => Some (id, N.lor (posFlag p) (N.lor (bit bLINK) (bit bID)))
      end
  end.
(** tcx.go:13-28 TCXOptions, program.go:13-28 RawAttachProgramOptions; the program by its descriptor *)
Record opts := Opts { o_prog : option nat; o_anchor : option anchor; o_rev : nat; o_flags : N }.
(** sys.LinkCreateTcxAttr, sys.ProgAttachAttr: descriptor of the program (-1: closed), descriptor or id it is relative to, descriptor it replaces *)
Record attr := Attr { a_prog : option nat; a_rel : nat; a_old : nat; a_flags : N; a_rev : nat }.
(** tcx.go:30-56, netkit.go alike *)
Definition tcxAttr (o : opts) : option attr :=
  if negb (N.land (o_flags o) anchorFlags =? 0)%N then None
  else match o_anchor o with
  | None => Some (Attr (o_prog o) 0 0 (o_flags o) (o_rev o))
  | Some a => match anchorOf a with None => None | Some (v, f) => Some (Attr (o_prog o) v 0 (N.lor (o_flags o) f) (o_rev o)) end
  end.
(** program.go:34-62 RawAttachProgram *)
Definition rawAttr (o : opts) : option attr :=
  if negb (N.land (o_flags o) anchorFlags =? 0)%N then None
  else match o_anchor o with
  | None => Some (Attr (o_prog o) 0 0 (o_flags o) (o_rev o))
  | Some a => match anchorOf a with
      | None => None
      | Some (v, f) => if negb (N.land f (bit bREPLACE) =? 0)%N then Some (Attr (o_prog o) 0 v (N.lor (o_flags o) f) (o_rev o)) else Some (Attr (o_prog o) v 0 (N.lor (o_flags o) f) (o_rev o))
      end
  end.
(** program.go:80-100 RawDetachProgram; the caller's flags are only checked. *)
Definition detachAttr (o : opts) : option attr :=
  if negb (N.land (o_flags o) anchorFlags =? 0)%N then None
  else match o_anchor o with
  | None => Some (Attr (o_prog o) 0 0 0 (o_rev o))
  | Some a => match anchorOf a with None => None | Some (v, f) => Some (Attr (o_prog o) v 0 f (o_rev o)) end
  end.

(** ** The kernel *)
Record tuple := T { t_prog : option nat; t_link : option nat }.
Definition progFd (s : st) (f : nat) : option nat := match assoc f (fdt s) with Some (OProg p) => Some p | _ => None end.
Definition linkFd (s : st) (f : nat) : option nat := match assoc f (fdt s) with Some (OLink l) => Some l | _ => None end.
(** mprog.c bpf_mprog_tuple_relative, bpf_mprog_link, bpf_mprog_prog *)
Definition tupleRelative (s : st) (v : nat) (flags : N) : option tuple :=
  if N.testbit flags bLINK then
    match (if N.testbit flags bID then Some v else linkFd s v) with
    | Some l => match assoc l (links s) with Some p => Some (T (Some p) (Some l)) | None => None end
    | None => None
    end
  else if negb (N.testbit flags bID) && (v =? 0) then Some (T None None)
  else match (if N.testbit flags bID then (if mem v (progs s) then Some v else None) else progFd s v) with
    | Some p => Some (T (Some p) None)
    | None => None
    end.
Definition matches (t : tuple) (e : ent) : bool := optEqb (t_prog t) (Some (e_prog e)) && (negb (isSome (t_link t)) || optEqb (t_link t) (e_link e)).
Fixpoint index {A} (f : A -> bool) (l : list A) : option nat := match l with [] => None | x :: r => if f x then Some 0 else option_map S (index f r) end.
(** bpf_mprog_pos_exact, bpf_mprog_pos_before, bpf_mprog_pos_after; [None]: an error *)
Definition posExact (p : nat) (lk : option nat) (l : list ent) : option nat :=
  match index (fun e => Nat.eqb (e_prog e) p) l with
  | Some i => match nth_error l i with Some e => if optEqb lk (e_link e) then Some i else None | None => None end
  | None => None
  end.
Definition posBefore (t : tuple) (l : list ent) : option Z :=
  match index (matches t) l with Some i => Some (Z.of_nat i - 1)%Z | None => if isSome (t_prog t) then None else Some (-1)%Z end.
Definition posAfter (t : tuple) (l : list ent) : option Z :=
  match index (matches t) l with Some i => Some (Z.of_nat i + 1)%Z | None => if isSome (t_prog t) then None else Some (Z.of_nat (length l)) end.
(** bpf_mprog_max *)
Definition maxProgs := 64.
Definition meet (idx : option Z) (r : option Z) : option (option Z) :=
  match r with None => None | Some i => match idx with Some j => if (i =? j)%Z then Some (Some i) else None | None => Some (Some i) end end.
Definition insertAt (i : nat) (n : ent) (l : list ent) : list ent := firstn i l ++ n :: skipn i l.
Definition replaceAt (i : nat) (n : ent) (l : list ent) : list ent := firstn i l ++ n :: skipn (S i) l.
Definition deleteAt (i : nat) (l : list ent) : list ent := firstn i l ++ skipn (S i) l.
(** bpf_mprog_insert *)
Definition insert (i : Z) (before : bool) (n : ent) (l : list ent) : list ent :=
  if (i =? Z.of_nat (length l))%Z then l ++ [n] else insertAt (Z.to_nat (if before then i + 1 else i)) n l.
Definition stale (s : st) (r : nat) : bool := negb (r =? 0) && negb (r =? rev s).
(** The checks that attaching and detaching have in common: where the anchor is, given where the program is *)
Definition place (t : tuple) (flags : N) (l : list ent) (idx : option Z) : option (option Z) :=
  match (if N.testbit flags bBEFORE then meet idx (posBefore t l) else Some idx) with
  | None => None
  | Some idx => if N.testbit flags bAFTER then meet idx (posAfter t l) else Some idx
  end.
(** bpf_mprog_attach *)
Definition mprogAttach (s : st) (n : ent) (old : option nat) (flags : N) (v r : nat) : option (list ent) :=
  let l := ents s in
  if stale s r then None
  else if existsb (fun e => Nat.eqb (e_prog e) (e_prog n)) l then None
  else match tupleRelative s v flags with
  | None => None
  | Some t =>
      match (if N.testbit flags bREPLACE then match old with Some o => option_map (fun i => Some (Z.of_nat i)) (posExact o (e_link n) l) | None => None end
             else if length l =? maxProgs then None else Some None) with
      | None => None
      | Some idx =>
          match place t flags l idx with
          | None => None
          | Some None => if isSome (t_prog t) || negb (flags =? 0)%N then None else Some (insert (Z.of_nat (length l)) false n l)
          | Some (Some i) =>
              if (Z.of_nat maxProgs <=? i)%Z then None
              else if N.testbit flags bREPLACE then Some (replaceAt (Z.to_nat i) n l) else Some (insert i (N.testbit flags bBEFORE) n l)
          end
      end
  end.
(** bpf_mprog_detach with a program *)
Definition mprogDetach (s : st) (p : nat) (lk : option nat) (flags : N) (v r : nat) : option (list ent) :=
  let l := ents s in
  if N.testbit flags bREPLACE then None
  else if stale s r then None
  else match tupleRelative s v flags with
  | None => None
  | Some t =>
      match posExact p lk l with
      | None => None
      | Some i => match place t flags l (Some (Z.of_nat i)) with Some (Some i) => Some (deleteAt (Z.to_nat i) l) | _ => None end
      end
  end.
(** tcx.c: the list changed; without programs it is freed, and the next one starts over. *)
Definition commit (s : st) (l : list ent) : st := St l (match l with [] => 1 | _ => S (rev s) end) (progs s) (links s) (fdt s) (next s).

(** ** The calls. [sys]: the system call doesn't fail for a reason of its own. The state is that at the time of the system call. *)
(** AttachTCX, tcx_link_attach: a new link and its descriptor *)
Definition attachLink (sys : bool) (o : opts) (s : st) : option (st * nat) :=
  match tcxAttr o with
  | None => None
  | Some a =>
      if sys then
        match (match a_prog a with Some f => progFd s f | None => None end) with
        | None => None
        | Some p =>
            let l := next s in
            match mprogAttach s (Ent p (Some l)) None (a_flags a) (a_rel a) (a_rev a) with
            | None => None
            | Some es => Some (let s := commit s es in St (ents s) (rev s) (progs s) ((l, p) :: links s) ((l, OLink l) :: fdt s) (S l), l)
            end
        end
      else None
  end.
(** RawAttachProgram, bpf_prog_attach, tcx_prog_attach: BPF_F_ATTACH_MASK_MPROG are the flags of anchors *)
Definition rawAttach (sys : bool) (o : opts) (s : st) : option st :=
  match rawAttr o with
  | None => None
  | Some a =>
      if sys && (N.ldiff (a_flags a) anchorFlags =? 0)%N then
        match (match a_prog a with Some f => progFd s f | None => None end), (if N.testbit (a_flags a) bREPLACE then option_map Some (progFd s (a_old a)) else Some None) with
        | Some p, Some old => option_map (commit s) (mprogAttach s (Ent p None) old (a_flags a) (a_rel a) (a_rev a))
        | _, _ => None
        end
      else None
  end.
(** RawDetachProgram, tcx_prog_detach *)
Definition rawDetach (sys : bool) (o : opts) (s : st) : option st :=
  match detachAttr o with
  | None => None
  | Some a =>
      if sys then
        match (match a_prog a with Some f => progFd s f | None => None end) with
        | Some p => option_map (commit s) (mprogDetach s p None (a_flags a) (a_rel a) (a_rev a))
        | None => None
        end
      else None
  end.
(** link.go:200-224 UpdateArgs with the descriptors of link and program, tcx_link_update *)
Definition update (sys : bool) (lf pf : nat) (s : st) : option st :=
  if sys then
    match linkFd s lf, progFd s pf with
    | Some l, Some p =>
        match assoc l (links s) with
        | None => None
        | Some o =>
            if existsb (fun e => optEqb (e_link e) (Some l)) (ents s) then
              if o =? p then Some s
              else match mprogAttach s (Ent p (Some l)) (Some o) (N.lor (bit bREPLACE) (bit bID)) o 0 with
                | None => None
                | Some es => let s := commit s es in Some (St (ents s) (rev s) (progs s) (map (fun x => if fst x =? l then (l, p) else x) (links s)) (fdt s) (next s))
                end
            else None
        end
    | _, _ => None
    end
  else None.
(** RawLink.Close of a link that nothing else refers to, tcx_link_release: it goes away, and its program from the list. *)
Definition close (lf : nat) (s : st) : st :=
  match linkFd s lf with
  | None => s
  | Some l =>
      let es := filter (fun e => negb (optEqb (e_link e) (Some l))) (ents s) in
      let s' := if length es =? length (ents s) then s else commit s es in
      St (ents s') (rev s') (progs s') (filter (fun x => negb (fst x =? l)) (links s')) (filter (fun x => negb (fst x =? lf)) (fdt s')) (next s')
  end.
(** bpf_mprog_query with room for [cap]: what is written, how many there are, the revision, whether there was an error (ENOSPC) *)
Definition kQuery (cap : nat) (s : st) : list (nat * nat) * nat * nat * bool :=
  let ids := map (fun e => (e_prog e, match e_link e with Some l => l | None => 0 end)) (ents s) in
  (firstn cap ids, length ids, rev s, negb ((cap =? 0) || (length ids <=? cap))).
(** query.go:68-130 QueryPrograms; the list may change between the system calls. Program and link, if there is one (55-60) *)
Definition pad (n : nat) (l : list (nat * nat)) : list (nat * nat) := l ++ repeat (0, 0) (n - length l).
Inductive result := Error | Panic | Programs (l : list (nat * option nat)) (rev : nat).
Definition query (sys1 sys2 : bool) (s1 s2 : st) : result :=
  if sys1 then
    let '(_, count, r, err) := kQuery 0 s1 in
    if err then Error else if count =? 0 then Programs [] r
    else if sys2 then
      let haveLinkIDs := negb (r =? 0) in
      let '(w, count2, r2, err) := kQuery count s2 in
      if err then Error
      else let progIds := pad count w in
        if length progIds <? count2 then Panic
        else Programs (map (fun x => (fst x, if haveLinkIDs then (if snd x =? 0 then None else Some (snd x)) else None)) (firstn count2 progIds)) r2
    else Error
  else Error.
