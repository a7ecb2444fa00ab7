(** Model of link/cgroup.go (AttachCgroup, Update, Close), RawAttachProgram, RawDetachProgram, RawLink, and of the kernel's list of programs of a cgroup (kernel/bpf/cgroup.c), for one cgroup and attach type *)
From Coq Require Import List Bool Arith Lia Permutation.
Import ListNotations.

(** kernel/bpf/cgroup.c struct bpf_prog_list: a program, attached by a link with a number, or directly *)
Record ent := Ent { e_prog : nat; e_link : option nat }.
(** The flags a program was attached with: BPF_F_ALLOW_OVERRIDE, or BPF_F_ALLOW_MULTI (links always) *)
Inductive mode := Override | Multi.
(** What [progAttachCgroup] or [linkCgroup] remember: the program it holds, how it is attached, and its descriptors: cgroup and clone of the program, or link *)
Inductive kind := KLink (l : nat) | KLegacy (m : mode).
Record handle := H { h_id : nat; h_prog : nat; h_kind : kind; h_fds : list nat }.
(** The cgroup: its programs, its flags; the links that are open; open descriptors; a source of new numbers *)
Record st := St { ents : list ent; md : mode; hs : list handle; fds : list nat; next : nat }.
(** What can go wrong: opening the cgroup, duplicating the program's descriptor, and the system call that attaches or detaches, for reasons of its own *)
Record choice := Choice { ch_open : bool; ch_dup : bool; ch_sys : bool }.

(** By what the kernel finds an entry: the link, or the program *)
Definition key := (bool * nat)%type.
Definition keyOf (e : ent) : key := match e_link e with Some l => (true, l) | None => (false, e_prog e) end.
Definition keyEqb (a b : key) : bool := Bool.eqb (fst a) (fst b) && Nat.eqb (snd a) (snd b).
Definition has (k : key) (l : list ent) : bool := existsb (fun e => keyEqb (keyOf e) k) l.
Fixpoint replaceFirst (k : key) (n : ent) (l : list ent) : list ent := match l with [] => [] | e :: r => if keyEqb (keyOf e) k then n :: r else e :: replaceFirst k n r end.
Fixpoint removeFirst (k : key) (l : list ent) : list ent := match l with [] => [] | e :: r => if keyEqb (keyOf e) k then r else e :: removeFirst k r end.
Definition modeEqb (a b : mode) : bool := match a, b with Override, Override | Multi, Multi => true | _, _ => false end.
(** BPF_CGROUP_MAX_PROGS *)
Definition maxProgs := 64.
(** __cgroup_bpf_attach, find_attach_entry: attach a program, directly or by a link, in place of another if [old]; [None]: an error *)
Definition kAttach (m : mode) (n : ent) (old : option nat) (l : list ent) (cur : mode) : option (list ent) :=
  if match l with [] => false | _ => negb (modeEqb cur m) end then None
  else if maxProgs <=? length l then None
  else match m with
  | Override => Some (match l with [] => [n] | _ :: r => n :: r end)
  | Multi =>
      if has (keyOf n) l && match old with Some o => negb (keyEqb (keyOf n) (false, o)) | None => true end then None
      else match old with
      | None => Some (l ++ [n])
      | Some o => if has (false, o) l then Some (replaceFirst (false, o) n l) else None
      end
  end.
(** cgroup_bpf_prog_detach, find_detach_entry *)
Definition kDetach (p : nat) (l : list ent) (cur : mode) : option (list ent) :=
  match l with
  | [] => None
  | _ :: r => match cur with Override => Some r | Multi => if has (false, p) l then Some (removeFirst (false, p) l) else None end
  end.

Definition open_ (s : st) : nat * st := (next s, St (ents s) (md s) (hs s) (next s :: fds s) (S (next s))).
Definition close_ (f : nat) (s : st) : st := St (ents s) (md s) (hs s) (List.remove Nat.eq_dec f (fds s)) (next s).
Definition setEnts (s : st) (m : mode) (l : list ent) : st := St l m (hs s) (fds s) (next s).
Definition setHs (s : st) (h : list handle) : st := St (ents s) (md s) h (fds s) (next s).
Section Kernel.
(** The kernel has bpf_link (5.7), BPF_F_REPLACE (5.5) *)
Variable hasLink hasReplace : bool.
(** cgroup.go:89-113 newProgAttachCgroup; cgroup [c] is open *)
Definition newProgAttach (ch : choice) (c p : nat) (m : mode) (s : st) : st * option handle :=
  if ch_dup ch then
    let '(k, s) := open_ s in
    match (if ch_sys ch then kAttach m (Ent p None) None (ents s) (md s) else None) with
    | None => (close_ k s, None)
    | Some l => (setEnts s m l, Some (H c p (KLegacy m) [c; k]))
    end
  else (s, None).
(** 177-190 newLinkCgroup, link/link.go AttachRawLink *)
Definition newLink (ch : choice) (c p : nat) (s : st) : st * option handle :=
  let l := next s in let '(k, s1) := open_ s in
  match (if ch_sys ch then kAttach Multi (Ent p (Some l)) None (ents s) (md s) else None) with
  | None => (s, None)
  | Some es => (setEnts s1 Multi es, Some (H c p (KLink l) [k]))
  end.
(** 45-78 AttachCgroup. The cgroup stays open if it succeeds without a link. *)
Definition attach (ch : choice) (p : nat) (s : st) : st * bool :=
  if ch_open ch then
    let '(c, s) := open_ s in
    let '(s, cg) := if hasLink then newLink ch c p s else newProgAttach ch c p (if hasReplace then Multi else Override) s in
    match cg with
    | None => (close_ c s, false)
    | Some h => (match h_kind h with KLink _ => close_ c (setHs s (hs s ++ [h])) | KLegacy _ => setHs s (hs s ++ [h]) end, true)
    end
  else (s, false).
Definition change (i : nat) (h : handle) (l : list handle) : list handle := map (fun x => if Nat.eqb (h_id x) i then h else x) l.
Definition drop (i : nat) (l : list handle) : list handle := filter (fun x => negb (Nat.eqb (h_id x) i)) l.
Definition closeAll (fs : list nat) (s : st) : st := fold_left (fun s f => close_ f s) fs s.
(** 131-157 progAttachCgroup.Update; link/link.go RawLink.UpdateArgs, cgroup_bpf_replace *)
Definition update (ch : choice) (h : handle) (p : nat) (s : st) : st * bool :=
  match h_kind h with
  | KLink l => if ch_sys ch && has (true, l) (ents s)
      then (setHs (setEnts s (md s) (replaceFirst (true, l) (Ent p (Some l)) (ents s))) (change (h_id h) (H (h_id h) p (h_kind h) (h_fds h)) (hs s)), true) else (s, false)
  | KLegacy m =>
      if ch_dup ch then
        let '(k, s) := open_ s in
        match (if ch_sys ch then kAttach m (Ent p None) (match m with Multi => Some (h_prog h) | Override => None end) (ents s) (md s) else None) with
        | None => (close_ k s, false)
        | Some l =>
            let s := closeAll (tl (h_fds h)) (setEnts s m l) in
            (setHs s (change (h_id h) (H (h_id h) p (h_kind h) (firstn 1 (h_fds h) ++ [k])) (hs s)), true)
        end
      else (s, false)
  end.
(** 115-129 progAttachCgroup.Close; link/link.go RawLink.Close: the kernel removes a link that nobody has open *)
Definition close (ch : choice) (h : handle) (s : st) : st * bool :=
  let '(s, ok) :=
    match h_kind h with
    | KLink l => (setEnts s (md s) (removeFirst (true, l) (ents s)), true)
    | KLegacy _ => match (if ch_sys ch then kDetach (h_prog h) (ents s) (md s) else None) with None => (s, false) | Some l => (setEnts s (md s) l, true) end
    end in
  (setHs (closeAll (h_fds h) s) (drop (h_id h) (hs s)), ok).
End Kernel.
