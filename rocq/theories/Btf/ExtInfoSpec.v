(** Vocabulary for C60-C62: the .BTF.ext section and the kernel's func_info and line_info arrays, after
    Documentation/bpf/btf.rst and include/uapi/linux/btf.h.  Independent of the parser: uses only
    the types of its results, and the string table and types it refers to. *)
From Coq Require Import ZArith List Lia Bool Sorting.Sorted Permutation.
From Verif.Base Require Import GoInt.
From Verif.Btf Require Import Strings Types Decode PropsNames DecodeSpec EncodeDone ExtInfo.
Import ListNotations.
Open Scope Z_scope.

(** a record is a sequence of 32 bit words, the first of which is the offset of an instruction *)
Definition encode_record (bo : byteorder) (ws : list Z) : list Z := concat (map (put bo 4) ws).
Definition encode_records (bo : byteorder) (rs : list (list Z)) : list Z := concat (map (encode_record bo) rs).
(** struct btf_ext_info_sec { sec_name_off; num_info; records } *)
Definition encode_section (bo : byteorder) (sec : Z * list (list Z)) : list Z :=
  put bo 4 (fst sec) ++ put bo 4 (Z.of_nat (length (snd sec))) ++ encode_records bo (snd sec).
(** a subsection: the size of a record, followed by the sections *)
Definition encode_infos (bo : byteorder) (size : Z) (secs : list (Z * list (list Z))) : list Z :=
  put bo 4 size ++ concat (map (encode_section bo) secs).
(** struct btf_ext_header: magic, version, flags, hdr_len, then offset (from the end of the header) and length of the
    subsections *)
Definition encode_header (bo : byteorder) (hdr_len : Z) (subsections : list (Z * Z)) : list Z :=
  put bo 2 60319 ++ [1; 0] ++ put bo 4 hdr_len ++ concat (map (fun s => put bo 4 (fst s) ++ put bo 4 (snd s)) subsections).
(** [at_offset bytes off part]: [part] is found at the offset [off] *)
Definition at_offset (bytes : list Z) (off : Z) (part : list Z) : Prop :=
  exists pre post, bytes = pre ++ part ++ post /\ Z.of_nat (length pre) = off.

(** what sections must satisfy: [k] words per record, at least one record, offsets of whole instructions *)
Definition words_ok (k : nat) (ws : list Z) : Prop := length ws = k /\ Forall (in_u 32) ws.
Definition section_ok (k : nat) (sec : Z * list (list Z)) : Prop :=
  in_u 32 (fst sec) /\ snd sec <> [] /\ Z.of_nat (length (snd sec)) < 2 ^ 32 /\
  Forall (fun ws => words_ok k ws /\ nth 0 ws 0 mod 8 = 0) (snd sec).
(** the record with its offset in instructions instead of bytes *)
Definition in_insns (ws : list Z) : list Z := match ws with [] => [] | o :: ws' => o / 8 :: ws' end.

(** sort.Slice: always a permutation; sorted if the less function is "<" for elements with different keys, and no two keys
    are equal *)
Definition go_sort (sort : forall A : Type, (A -> A -> bool) -> list A -> list A) : Prop :=
  forall (A : Type) (less : A -> A -> bool) (l : list A),
    Permutation l (sort A less l) /\
    forall key : A -> Z, (forall x y, In x l -> In y l -> key x <> key y -> less x y = (key x <? key y)) -> NoDup (map key l) ->
      StronglySorted Z.lt (map key (sort A less l)).

(** [starts_at insns width k off]: the [k]-th instruction starts at raw instruction [off] *)
Definition starts_at (widths : list Z) (k : nat) (off : Z) : Prop := (k < length widths)%nat /\ off = fold_right Z.add 0 (firstn k widths).

(** ** What the records of a section mean *)
(** the object which TypeByID returns for an ID *)
Definition type_is (s : spec) (st : dstate) (id : Z) (r : ref) : Prop := exists st', TypeByID (table_names (s_strings s)) (s_recs s) st id = Some (st', Some r).
(** struct bpf_func_info {insn_off, type_id}: the type is a function with a name *)
Definition func_entry (s : spec) (st : dstate) (ws : list Z) (e : Z * ref) : Prop :=
  exists id name t lk tags ptags, ws = [fst e; id] /\ type_is s st id (snd e) /\ deref (d_heap st) (snd e) = Some (NFunc name t lk tags ptags) /\ name <> [].
(** struct bpf_line_info {insn_off, file_name_off, line_off, line_col}: 22 bits of line number, 10 bits of column *)
Definition line_entry (s : spec) (ws : list Z) (e : Z * line) : Prop :=
  exists fileOff lineOff, ws = [fst e; fileOff; lineOff; 1024 * l_number (snd e) + l_column (snd e)] /\ 0 <= l_column (snd e) < 1024 /\
    Lookup (s_strings s) fileOff = Some (Ok (l_file (snd e))) /\ Lookup (s_strings s) lineOff = Some (Ok (l_line (snd e))).
(** struct bpf_core_relo {insn_off, type_id, access_str_off, kind} *)
Definition relo_entry (s : spec) (st : dstate) (ws : list Z) (e : Z * relocation) : Prop :=
  exists accessOff text, ws = [fst e; r_id (snd e); accessOff; r_kind (snd e)] /\ type_is s st (r_id (snd e)) (r_typ (snd e)) /\
    Lookup (s_strings s) accessOff = Some (Ok text) /\ denotes text (r_accessor (snd e)).
(** the entries for records: one for each, and sorted if no two are for the same instruction *)
Definition entries_of {A} (entry : list Z -> Z * A -> Prop) (rs : list (list Z)) (es : list (Z * A)) : Prop :=
  (exists es', Forall2 entry rs es' /\ Permutation es' es) /\ (NoDup (map fst es) -> StronglySorted Z.lt (map fst es)).
(** sections with their names *)
Definition named (t : table) (secs : list (Z * list (list Z))) (named_secs : list (str * list (list Z))) : Prop :=
  Forall2 (fun sec n => Lookup t (fst sec) = Some (Ok (fst n)) /\ fst n <> [] /\ snd sec = snd n) secs named_secs.
(** what is loaded for the sections of a file: for each name, the entries of a section of that name *)
Definition loaded {A} (entry : list Z -> Z * A -> Prop) (secs : list (str * list (list Z))) (m : list (str * list (Z * A))) : Prop :=
  NoDup (map fst m) /\ (forall name, In name (map fst m) <-> In name (map fst secs)) /\
  forall name es, In (name, es) m -> exists rs, In (name, rs) secs /\ entries_of (fun ws => entry (in_insns ws)) rs es.

(** ** Whole files *)
(** a subsection with records of [k] words at an offset from the end of the header *)
Definition subsection_at (bo : byteorder) (bytes : list Z) (hdr_len off len : Z) (k : nat) (secs : list (Z * list (list Z))) : Prop :=
  at_offset bytes (hdr_len + off) (encode_infos bo (4 * Z.of_nat k) secs) /\ Z.of_nat (length (encode_infos bo (4 * Z.of_nat k) secs)) = len /\ Forall (section_ok k) secs.
(** a .BTF.ext section with function infos, line infos and, if the header has them, CO-RE relocations *)
Definition btf_ext (bo : byteorder) (core : bool) (bytes : list Z) (fsecs lsecs csecs : list (Z * list (list Z))) : Prop :=
  exists fo fl lo ll co cl rest, let hl := if core then 32 else 24 in
    bytes = encode_header bo hl ([(fo, fl); (lo, ll)] ++ if core then [(co, cl)] else []) ++ rest /\ Forall (in_u 32) [fo; fl; lo; ll; co; cl] /\
    bytes_ok bytes /\ Z.of_nat (length bytes) < 2 ^ 32 /\
    subsection_at bo bytes hl fo fl 2 fsecs /\ subsection_at bo bytes hl lo ll 4 lsecs /\
    if core then (cl = 0 /\ csecs = [] \/ cl <> 0 /\ subsection_at bo bytes hl co cl 4 csecs) else csecs = [].
(** [reached s st]: some history of TypeByID leads to [st] *)
Definition reached (s : spec) (st : dstate) : Prop := exists ids rs, queries (table_names (s_strings s)) (s_recs s) fresh ids = Some (st, rs).
(** well formed types and records: the types can be decoded, the strings exist *)
Definition type_fine (s : spec) (id : Z) : Prop := (forall t, ~ tags_type (s_recs s) 0 t) /\ all_sound (table_names (s_strings s)) (s_recs s) id /\ protos_first (table_names (s_strings s)) (s_recs s) id.
Definition func_fine (s : spec) (ws : list Z) : Prop :=
  exists off id r name, ws = [off; id] /\ type_fine s id /\ record (s_recs s) id r /\ kind r = 12 /\ table_names (s_strings s) (name_off r) = Some name /\ name <> [].
Definition line_fine (s : spec) (ws : list Z) : Prop :=
  exists off fileOff lineOff lineCol file ln, ws = [off; fileOff; lineOff; lineCol] /\ Lookup (s_strings s) fileOff = Some (Ok file) /\ Lookup (s_strings s) lineOff = Some (Ok ln).
Definition relo_fine (s : spec) (ws : list Z) : Prop :=
  exists off id accessOff k text acc, ws = [off; id; accessOff; k] /\ type_fine s id /\ Lookup (s_strings s) accessOff = Some (Ok text) /\ denotes text acc.
