(** Model of info.go: information about a map from the kernel and from /proc/self/fdinfo. *)
From Coq Require Import ZArith List Bool Ascii String.
From Verif Require Import Base.GoInt Internal.Kallsyms Internal.Kconfig.
Import ListNotations.
Open Scope Z_scope.

Definition lit (s : string) : str := map (fun c => Z.of_N (N_of_ascii c)) (list_ascii_of_string s).
Definition str_eqb (a b : str) : bool := if list_eq_dec Z.eq_dec a b then true else false.
(** bytes.Cut at the first colon *)
Fixpoint cut (s : str) : option (str * str) := match s with [] => None | c :: t => if c =? 58 then Some ([], t) else match cut t with Some (a, b) => Some (c :: a, b) | None => None end end.
(** bytes.TrimSpace, ASCII *)
Definition isSpace (c : Z) : bool := ((9 <=? c) && (c <=? 13)) || (c =? 32).
Fixpoint trimFront (s : str) : str := match s with [] => [] | c :: t => if isSpace c then trimFront t else s end.
Definition TrimSpace (s : str) : str := rev (trimFront (rev (trimFront s))).
(** A destination of the parser: key, size in bits (1: a bool) and what it points to, as a number.  Strings, used for tags of programs, aren't modelled. *)
Record field := Field { fkey : str; fbits : Z; fval : Z }.
(** fmt.Fscan into a field.  Simplifications: text after a number, which Fscan leaves, is an error, and of the spellings of bools only 0 and 1 are known. *)
Definition fscan (bits : Z) (s : str) : option Z :=
  if bits =? 1 then if str_eqb s [48] then Some 0 else if str_eqb s [49] then Some 1 else None
  else match ParseUint s bits with Ok v => Some v | Err _ => None end.
Definition lookup (k : str) (fs : list field) : option field := find (fun f => str_eqb (fkey f) k) fs.
Definition assign (k : str) (v : Z) (fs : list field) : list field := map (fun f => if str_eqb (fkey f) k then Field (fkey f) (fbits f) v else f) fs.
Inductive error := EParse (k : str) | ENotSupported | EErrno (n : Z) | EBoth.
(** info.go:902-945 scanFdInfoReader, lines without their ends (bufio.Scanner's limit of 64 KiB isn't modelled) *)
Fixpoint scanLines (lines : list str) (fs : list field) (scanned : nat) : res error (nat * list field) :=
  match lines with
  | [] => Ok (scanned, fs)
  | line :: lines =>
      match cut line with
      | None => scanLines lines fs scanned
      | Some (key, rest) =>
          match lookup key fs with
          | None => scanLines lines fs scanned
          | Some f =>
              if negb (fval f =? 0) then scanLines lines fs (S scanned)
              else match fscan (fbits f) (TrimSpace rest) with
              | None => Err (EParse key)
              | Some v => scanLines lines (assign key v fs) (S scanned)
              end
          end
      end
  end.
Definition scanFdInfoReader (lines : list str) (fs : list field) : option error * list field :=
  match scanLines lines fs 0 with
  | Err e => (Some e, fs)
  | Ok (n, fs) => (if negb (Nat.eqb (List.length fs) 0) && Nat.eqb n 0 then Some ENotSupported else None, fs)
  end.
(** info.go:143-155: the fields that are looked for besides map_type *)
Definition mapFields : list (str * Z) := [(lit "map_id", 32); (lit "key_size", 32); (lit "value_size", 32); (lit "max_entries", 32); (lit "map_flags", 32); (lit "map_extra", 64); (lit "memlock", 64); (lit "frozen", 1)].
Definition map_type : str := lit "map_type".
(** info.go:32-58 MapInfo: the type and the fields (name and BTF id, which only the kernel tells, aren't modelled) *)
Record MapInfo := Info { Type_ : Z; fields_ : list field }.
(** info.go:141-168 readMapInfoFromProc; [proc]: the lines, or the error of opening the file.  Types of maps are plain numbers on Linux.  A failure leaves fields of no interest. *)
Definition readMapInfoFromProc (proc : res Z (list str)) (mi : MapInfo) : option error * MapInfo :=
  match proc with
  | Err n => (Some (EErrno n), mi)
  | Ok lines =>
      match scanFdInfoReader lines (Field map_type 32 0 :: fields_ mi) with
      | (Some e, _) => (Some e, mi)
      | (None, fs) => match fs with t :: fs => (None, Info (if Type_ mi =? 0 then fval t else Type_ mi) fs) | [] => (None, mi) end
      end
  end.
Definition EINVAL := 22.
(** info.go:97-137 newMapInfoFromFd; [obj]: what the kernel tells of each field, 0 if it doesn't know it, or an errno *)
Definition newMapInfoFromFd (obj : res Z (str -> Z)) (proc : res Z (list str)) : res error MapInfo :=
  match obj with
  | Err n => if negb (n =? EINVAL) then Err (EErrno n)
      else match readMapInfoFromProc proc (Info 0 (map (fun k => Field (fst k) (snd k) 0) mapFields)) with
      | (Some _, _) => match proc with Err n => Err (EErrno n) | Ok _ => Err EBoth end
      | (None, mi) => Ok mi
      end
  | Ok info => match readMapInfoFromProc proc (Info (info map_type) (map (fun k => Field (fst k) (snd k) (if (str_eqb (fst k) (lit "memlock")) || (str_eqb (fst k) (lit "frozen")) then 0 else info (fst k))) mapFields)) with
      | (Some ENotSupported, mi) => Ok mi
      | (Some e, _) => Err e
      | (None, mi) => Ok mi
      end
  end.
