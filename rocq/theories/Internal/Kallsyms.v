(** Model of internal/kallsyms (kallsyms.go, reader.go, cache.go) and of its users linker.go:460-537 and
    collection.go:367-391: reading /proc/kallsyms, looking up requested symbols, the cache of lookups and the
    resolution of untyped ksym references. *)
From Verif.Base Require Import GoInt.

Definition str := list Z.
Definition str_eqb (a b : str) : bool := if list_eq_dec Z.eq_dec a b then true else false.

(** ** reader.go *)
(** bufio.ScanLines's dropCR *)
Definition dropCR (l : str) : str := match rev l with b :: r => if b =? 13 then rev r else l | [] => [] end.
(** bufio.Scanner with ScanLines and the default buffer: the lines of a file in order; [true]: stopped by ErrTooLong
    because 65536 bytes don't contain a line feed (bufio.MaxScanTokenSize).  [cur]: the bytes of the current line, reversed. *)
Fixpoint scan (cur : str) (l : str) : list str * bool :=
  match l with
  | [] => (match cur with [] => [] | _ => [dropCR (rev cur)] end, false)
  | b :: l' =>
      if b =? 10 then let (ls, e) := scan [] l' in (dropCR (rev cur) :: ls, e)
      else if 65535 <=? Z.of_nat (length cur) then ([], true)
      else scan (b :: cur) l'
  end.
(** reader.go:53-68 Line: empty lines are skipped *)
Definition lines (f : str) : list str * bool :=
  let (ls, e) := scan [] f in (filter (fun l => match l with [] => false | _ => true end) ls, e).

(** bytes.TrimSpace; simplification: only the ASCII spaces, kallsyms doesn't contain others *)
Definition isSpace (b : Z) : bool := ((9 <=? b) && (b <=? 13)) || (b =? 32).
Fixpoint trimLeft (l : str) : str := match l with b :: l' => if isSpace b then trimLeft l' else l | [] => [] end.
Definition trimSpace (l : str) : str := rev (trimLeft (rev (trimLeft l))).
(** bytes.Cut for a separator of one byte *)
Fixpoint cut (sep : Z) (l : str) : option (str * str) :=
  match l with
  | [] => None
  | b :: l' => if b =? sep then Some ([], l') else match cut sep l' with Some (x, y) => Some (b :: x, y) | None => None end
  end.
(** reader.go:76-88 Word: the next word and the remaining line *)
Definition word (line : str) : option (str * str) :=
  match trimSpace line with
  | [] => None
  | l => match cut 32 l with
         | Some wr => Some wr
         | None => match cut 9 l with Some wr => Some wr | None => Some (l, []) end
         end
  end.

(** ** kallsyms.go *)
Inductive kerr := KParse | KAmbiguous (n : str) | KRestricted (n : str) | KRead | KOpen.

(** strconv.ParseUint(s, 16, 64): empty strings, other characters (including '_') and values beyond 64 bits are errors *)
Definition hexDigit (b : Z) : option Z :=
  if (48 <=? b) && (b <=? 57) then Some (b - 48)
  else if (97 <=? b) && (b <=? 102) then Some (b - 87)
  else if (65 <=? b) && (b <=? 70) then Some (b - 55) else None.
Fixpoint parseHexFrom (acc : Z) (l : str) : option Z :=
  match l with
  | [] => Some acc
  | b :: l' => match hexDigit b with
               | None => None
               | Some d => let acc := acc * 16 + d in if 2 ^ 64 <=? acc then None else parseHexFrom acc l'
               end
  end.
Definition parseUint16 (l : str) : option Z := match l with [] => None | _ => parseHexFrom 0 l end.

(** kallsyms.go:113-117 ksym *)
Record ksym := mkKsym { k_addr : Z; k_name : str; k_mod : str }.
(** bytes.Trim(b, "[]") *)
Definition isBracket (b : Z) : bool := (b =? 91) || (b =? 93).
Fixpoint trimBracketsLeft (l : str) : str := match l with b :: l' => if isBracket b then trimBracketsLeft l' else l | [] => [] end.
Definition trimBrackets (l : str) : str := rev (trimBracketsLeft (rev (trimBracketsLeft l))).

(** kallsyms.go:127-156 parseSymbol: the loop over at most four words, unrolled; [None] in the result: skip *)
Definition parseSymbol (line : str) (types : list Z) : res kerr (option ksym) :=
  match word line with
  | None => Ok (Some (mkKsym 0 [] []))
  | Some (w0, r0) =>
      match parseUint16 w0 with
      | None => Err KParse
      | Some a =>
          match word r0 with
          | None => Ok (Some (mkKsym a [] []))
          | Some (w1, r1) =>
              if (match types with [] => false | _ => true end) && negb (existsb (fun t => t =? hd 0 w1) types) then Ok None
              else
                match word r1 with
                | None => Ok (Some (mkKsym a [] []))
                | Some (w2, r2) =>
                    match word r2 with
                    | None => Ok (Some (mkKsym a w2 []))
                    | Some (w3, _) => Ok (Some (mkKsym a w2 (trimBrackets w3)))
                    end
                end
          end
      end
  end.

(** Go's map[string]uint64 (also sync.Map of cache.go) *)
Definition smap := list (str * Z).
Fixpoint sget (m : smap) (n : str) : option Z := match m with [] => None | (k, v) :: m' => if str_eqb k n then Some v else sget m' n end.
Fixpoint sput (m : smap) (n : str) (v : Z) : smap :=
  match m with [] => [(n, v)] | (k, w) :: m' => if str_eqb k n then (k, v) :: m' else (k, w) :: sput m' n v end.

(** kallsyms.go:69-111 assignAddresses: the loop over lines, then the reader's error.  [rerr]: reading the file fails after
    these lines (Scanner still yields what was read). *)
Fixpoint assignLines (ls : list str) (symbols : smap) : res kerr smap :=
  match ls with
  | [] => Ok symbols
  | l :: ls' =>
      match parseSymbol l [] with
      | Err e => Err e
      | Ok None => assignLines ls' symbols
      | Ok (Some s) =>
          match sget symbols (k_name s) with
          | Some existing =>
              if negb (existing =? 0) then Err (KAmbiguous (k_name s))
              else if k_addr s =? 0 then Err (KRestricted (k_name s))
              else assignLines ls' (sput symbols (k_name s) (k_addr s))
          | None => assignLines ls' symbols
          end
      end
  end.
Definition assignAddresses (f : str) (rerr : bool) (symbols : smap) : res kerr smap :=
  match symbols with
  | [] => Ok []
  | _ => let (ls, tooLong) := lines f in
         match assignLines ls symbols with
         | Err e => Err e
         | Ok m => if tooLong || rerr then Err KRead else Ok m
         end
  end.

(** /proc/kallsyms when it's opened: [None] if that fails, or the contents and whether reading them ends with an error *)
Definition procfile := option (str * bool).

(** kallsyms.go:26-67 AssignAddresses on Linux.  Returns the cache, the caller's map and the error: the map is changed even
    if there is one. *)
Definition fromCache (cache : smap) (symbols : smap) : smap := map (fun kv => (fst kv, match sget cache (fst kv) with Some a => a | None => snd kv end)) symbols.
Definition request (cache : smap) (symbols : smap) : smap := map (fun kv => (fst kv, 0)) (filter (fun kv => match sget cache (fst kv) with Some _ => false | None => true end) symbols).
Definition storeAll (m : smap) (kvs : smap) : smap := fold_left (fun m kv => sput m (fst kv) (snd kv)) kvs m.
Definition AssignAddresses (cache : smap) (f : procfile) (symbols : smap) : smap * smap * option kerr :=
  match symbols with
  | [] => (cache, [], None)
  | _ =>
      let filled := fromCache cache symbols in
      match request cache symbols with
      | [] => (cache, filled, None)
      | req =>
          match f with
          | None => (cache, filled, Some KOpen)
          | Some (f, rerr) =>
              match assignAddresses f rerr req with
              | Err e => (cache, filled, Some e)
              | Ok found => (storeAll cache found, storeAll filled found, None)
              end
          end
      end
  end.

(** ** Users *)
(** elf_reader.go:41-44 ksymMeta of an instruction, and whether its variable is of type void (linker.go:472) *)
Record kref := mkRef { r_name : str; r_weak : bool; r_untyped : bool }.
Inductive rerr := RLookup (e : kerr) | RMissing (names : list str) | RRequired (names : list str) (e : kerr).

Definition isRestricted (e : kerr) : bool := match e with KRestricted _ => true | _ => false end.
Definition addName (l : list str) (n : str) : list str := if existsb (str_eqb n) l then l else l ++ [n].
(** linker.go:501-504: the requested symbols *)
Definition wanted (refs : list kref) : smap := fold_left (fun m r => sput m (r_name r) 0) refs [].
(** linker.go:513-525 the constants ([None]: left alone) and the missing names *)
Definition constants (symbols : smap) (refs : list kref) : list (option Z) :=
  map (fun r => let a := match sget symbols (r_name r) with Some a => a | None => 0 end in
                if (a =? 0) && negb (r_weak r) then None else Some (i64 a)) refs.
Definition missing (symbols : smap) (refs : list kref) : list str :=
  fold_left (fun l r => let a := match sget symbols (r_name r) with Some a => a | None => 0 end in
                        if (a =? 0) && negb (r_weak r) then addName l (r_name r) else l) refs [].
(** linker.go:496-537 applyUntypedKsymFixups: the constants of the given references *)
Definition applyUntyped (cache : smap) (f : procfile) (refs : list kref) : smap * res rerr (list (option Z)) :=
  match refs with
  | [] => (cache, Ok [])
  | _ =>
      match AssignAddresses cache f (wanted refs) with
      | (cache, symbols, err) =>
          match err with
          | Some e => if negb (isRestricted e) then (cache, Err (RLookup e))
                      else match missing symbols refs with [] => (cache, Ok (constants symbols refs)) | ms => (cache, Err (RRequired ms e)) end
          | None => match missing symbols refs with [] => (cache, Ok (constants symbols refs)) | ms => (cache, Err (RMissing ms)) end
          end
      end
  end.
(** collection.go:370-391 populateKallsyms: all references of all programs, typed ones as well *)
Definition populateKallsyms (cache : smap) (f : procfile) (progs : list (list kref)) : smap * option kerr :=
  match wanted (concat progs) with
  | [] => (cache, None)
  | w => match AssignAddresses cache f w with (cache, _, e) => (cache, e) end
  end.
(** linker.go:460-490 resolveKsymReferences, only the untyped references *)
Definition resolveProgram (cache : smap) (f : procfile) (refs : list kref) : smap * res rerr (list (option Z)) :=
  applyUntyped cache f (filter r_untyped refs).
(** newCollectionLoader followed by loading every program; /proc/kallsyms doesn't change *)
Fixpoint resolvePrograms (cache : smap) (f : procfile) (progs : list (list kref)) : smap * res rerr (list (list (option Z))) :=
  match progs with
  | [] => (cache, Ok [])
  | p :: ps =>
      match resolveProgram cache f p with
      | (cache, Err e) => (cache, Err e)
      | (cache, Ok c) => match resolvePrograms cache f ps with (cache, Err e) => (cache, Err e) | (cache, Ok cs) => (cache, Ok (c :: cs)) end
      end
  end.
Definition loadCollection (cache : smap) (f : procfile) (progs : list (list kref)) : smap * res rerr (list (list (option Z))) :=
  match populateKallsyms cache f progs with
  | (cache, Some e) => (cache, Err (RLookup e))
  | (cache, None) => resolvePrograms cache f progs
  end.
