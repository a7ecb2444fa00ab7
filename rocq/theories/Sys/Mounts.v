(** Model of internal/mountinfo/mountinfo.go and findTracefsInEntries (internal/tracefs/kprobe.go). A string is the list of its characters (code points; bytes that aren't UTF-8 are other characters). *)
From Coq Require Import List Bool Arith NArith Lia.
Import ListNotations.

Definition str := list nat.
(** unicode.IsSpace *)
Definition isSpace (c : nat) : bool :=
  (9 <=? c) && (c <=? 13) || (c =? 32) || (c =? 133) || (c =? 160) || N.eqb (N.of_nat c) 5760 || N.leb 8192 (N.of_nat c) && N.leb (N.of_nat c) 8202 || N.eqb (N.of_nat c) 8232 || N.eqb (N.of_nat c) 8233 || N.eqb (N.of_nat c) 8239 || N.eqb (N.of_nat c) 8287 || N.eqb (N.of_nat c) 12288.
Definition streqb (a b : str) : bool := if list_eq_dec Nat.eq_dec a b then true else false.
(** strings.Cut at " - " *)
Fixpoint cut (s : str) : option (str * str) :=
  match s with
  | [] => None
  | c :: r =>
      match s with
      | 32 :: 45 :: 32 :: t => Some ([], t)
      | _ => match cut r with Some (a, b) => Some (c :: a, b) | None => None end
      end
  end.
(** strings.TrimSpace *)
Fixpoint dropSpace (s : str) : str := match s with c :: r => if isSpace c then dropSpace r else s | [] => [] end.
Definition trimSpace (s : str) : str := rev (dropSpace (rev (dropSpace s))).
(** strings.Fields *)
Definition flush (acc : str) : list str := match acc with [] => [] | _ => [acc] end.
Fixpoint fields_ (acc s : str) : list str :=
  match s with
  | [] => flush acc
  | c :: r => if isSpace c then flush acc ++ fields_ [] r else fields_ (acc ++ [c]) r
  end.
Definition fields (s : str) : list str := fields_ [] s.
(** mountinfo.go:127-138: strings.Replacer with \040, \011, \012, \134 *)
Fixpoint unescape (s : str) : str :=
  match s with
  | 92 :: 48 :: 52 :: 48 :: r => 32 :: unescape r
  | 92 :: 48 :: 49 :: 49 :: r => 9 :: unescape r
  | 92 :: 48 :: 49 :: 50 :: r => 10 :: unescape r
  | 92 :: 49 :: 51 :: 52 :: r => 92 :: unescape r
  | c :: r => c :: unescape r
  | [] => []
  end.
(** 20-36 *)
Record entry := Entry { e_point : str; e_root : str; e_type : str }.
(** 103-124 *)
Definition parseLine (line : str) : option entry :=
  match cut line with
  | None => None
  | Some (a, b) =>
      match fields (trimSpace b) with
      | [] => None
      | ty :: _ =>
          match fields (trimSpace a) with
          | _ :: _ :: _ :: root :: point :: _ :: _ => Some (Entry (unescape point) (unescape root) ty)
          | _ => None
          end
      end
  end.
(** bufio.Reader.ReadString until the end: lines without their newline, which are the same after TrimRight *)
Fixpoint lines_ (acc s : str) : list str :=
  match s with
  | [] => [acc]
  | 10 :: r => acc :: lines_ [] r
  | c :: r => lines_ (acc ++ [c]) r
  end.
(** 73-101; [ok]: reading doesn't fail *)
Fixpoint parseLines (l : list str) : option (list entry) :=
  match l with
  | [] => Some []
  | [] :: r => parseLines r
  | x :: r => match parseLine x with None => None | Some e => match parseLines r with None => None | Some es => Some (e :: es) end end
  end.
Definition parseEntries (ok : bool) (s : str) : option (list entry) := if ok then parseLines (lines_ [] s) else None.
(** 57-70 *)
Definition contains (l : list str) (x : str) : bool := existsb (streqb x) l.
Definition filterByFSType (es : list entry) (ty : str) : list str :=
  fold_left (fun mounts e => if negb (streqb (e_type e) ty) then mounts else if contains mounts (e_point e) then mounts else mounts ++ [e_point e]) es [].
(** internal/tracefs/kprobe.go:159-175; [isDir]: os.Stat of the subdirectory "tracing" *)
Definition tracefs : str := [116; 114; 97; 99; 101; 102; 115].
Definition debugfs : str := [100; 101; 98; 117; 103; 102; 115].
Definition slash : str := [47].
Inductive found := Tracefs (point : str) | Debugfs (point : str) | Nothing.
Fixpoint findDebugfs (isDir : str -> bool) (es : list entry) : found :=
  match es with
  | [] => Nothing
  | e :: r => if negb (streqb (e_type e) debugfs) || negb (streqb (e_root e) slash) then findDebugfs isDir r
      else if isDir (e_point e) then Debugfs (e_point e) else findDebugfs isDir r
  end.
Fixpoint findTracefs (es : list entry) : option str :=
  match es with
  | [] => None
  | e :: r => if streqb (e_type e) tracefs && streqb (e_root e) slash then Some (e_point e) else findTracefs r
  end.
Definition findTracefsInEntries (isDir : str -> bool) (es : list entry) : found :=
  match findTracefs es with Some p => Tracefs p | None => findDebugfs isDir es end.
