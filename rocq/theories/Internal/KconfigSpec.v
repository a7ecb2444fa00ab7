(** The kernel's configuration file and the contents of .kconfig (property C74). *)
From Verif.Base Require Import GoInt.
From Verif.Internal Require Import Kallsyms Kconfig.

(** ** Numerals *)
Definition isDigit (base c d : Z) : Prop :=
  ((48 <= c <= 57 /\ d = c - 48) \/ (97 <= c <= 122 /\ d = c - 97 + 10) \/ (65 <= c <= 90 /\ d = c - 65 + 10)) /\ d < base.
Inductive positional (base : Z) : str -> Z -> Prop :=
| pos_nil : positional base [] 0
| pos_snoc l c v d : positional base l v -> isDigit base c d -> positional base (l ++ [c]) (v * base + d).
(** decimal, octal with a leading 0, or with a prefix 0b, 0o, 0x *)
Inductive numeral : str -> Z -> Prop :=
| num_dec c t v : c <> 48 -> positional 10 (c :: t) v -> numeral (c :: t) v
| num_oct t v : positional 8 t v -> numeral (48 :: t) v
| num_prefix c base t v : t <> [] -> In (c, base) [(98, 2); (66, 2); (111, 8); (79, 8); (120, 16); (88, 16)] -> positional base t v -> numeral (48 :: c :: t) v.
Inductive signed_numeral : str -> Z -> Prop :=
| sig_none s v : numeral s v -> signed_numeral s v
| sig_plus s v : numeral s v -> signed_numeral (43 :: s) v
| sig_minus s v : numeral s v -> signed_numeral (45 :: s) (- v).

(** ** Values *)
(** the bytes of a variable of a type (without typedefs) for the text of an option *)
Inductive represents (bo : byteorder) : kty -> str -> list Z -> Prop :=
| rep_bool_y : represents bo (KInt 1 encBool) [121] [1]
| rep_bool_n : represents bo (KInt 1 encBool) [110] [0]
| rep_tri_y : represents bo (KEnum TRISTATE 4) [121] (put bo 4 1)
| rep_tri_m : represents bo (KEnum TRISTATE 4) [109] (put bo 4 2)
| rep_tri_n : represents bo (KEnum TRISTATE 4) [110] (put bo 4 0)
| rep_unsigned size enc s v : In size [1; 2; 4; 8] -> enc <> encSigned -> numeral s v -> v < 2 ^ (8 * size) -> (enc = encBool -> v <= 1) ->
    represents bo (KInt size enc) s (put bo (Z.to_nat size) v)
| rep_signed size s v : In size [1; 2; 4; 8] -> signed_numeral s v -> - 2 ^ (8 * size - 1) <= v < 2 ^ (8 * size - 1) ->
    represents bo (KInt size encSigned) s (put bo (Z.to_nat size) (v mod 2 ^ (8 * size)))
| rep_string elem enc n s : underlying elem = KInt 1 enc -> enc <> encBool ->
    represents bo (KArray elem n) (34 :: s ++ [34]) (firstn (Z.to_nat n) (s ++ repeat 0 (Z.to_nat n))).
(** a text which isn't a lone quote, and whose contents don't begin or end with a quote *)
Definition plain_text (t : str) : Prop := t <> [34] /\ forall s, t = 34 :: s ++ [34] -> hd 0 s <> 34 /\ last s 0 <> 34.

Fixpoint sizeof (t : kty) : Z := match t with KInt s _ => s | KEnum _ s => s | KArray e n => n * sizeof e | KWrap t => sizeof t | KOther => 0 end.

(** ** The file *)
Definition unlines (ls : list str) : str := concat (map (fun l => l ++ [10]) ls).
(** lines of the file, without the line feed *)
Definition line_ok (l : str) : Prop := Forall (fun b => b <> 10) l /\ last l 0 <> 13 /\ Z.of_nat (length l) <= 65535.
(** names of options *)
Definition option_name (k : str) : Prop := hasPrefix CONFIG k = true /\ Forall (fun b => b <> 61) k.
(** [k=v] is the first line for [k] *)
Definition first_value (ls : list str) (k v : str) : Prop :=
  option_name k /\ v <> [] /\ exists pre post, ls = pre ++ (k ++ 61 :: v) :: post /\ forall v', ~ In (k ++ 61 :: v') pre.
(** lines which begin with CONFIG_ set an option to something *)
Definition valid_line (l : str) : Prop := hasPrefix CONFIG l = true -> exists k v, l = k ++ 61 :: v /\ Forall (fun b => b <> 61) k /\ v <> [].

(** a non-empty beginning of the file consists of valid lines and sets all the options [ks] *)
Definition suffices (ks ls : list str) : Prop :=
  exists pre post, ls = pre ++ post /\ pre <> [] /\ Forall valid_line pre /\ forall k, In k ks -> exists v, first_value pre k v.

(** ** The layout of .kconfig *)
Definition disjoint (v w : kvar) : Prop := kv_off v + kv_size v <= kv_off w \/ kv_off w + kv_size w <= kv_off v.
(** the number of elements of an array is a uint32 *)
Definition type_ok (t : kty) : Prop := 0 <= sizeof t < 2 ^ 32 /\ match underlying t with KArray _ n => 0 <= n < 2 ^ 32 | _ => True end.
Record layout (size : Z) (vars : list kvar) : Prop := {
  lay_size : 0 <= size < 2 ^ 32;
  lay_names : NoDup (map kv_name vars);
  lay_vars : Forall (fun v => 0 <= kv_off v /\ kv_off v + kv_size v <= size /\ 0 < kv_size v /\ kv_size v = sizeof (kv_type v) /\ type_ok (kv_type v)) vars;
  lay_disjoint : ForallOrdPairs disjoint vars }.

(** the bytes of a variable *)
Definition part (d : list Z) (v : kvar) : list Z := firstn (Z.to_nat (kv_size v)) (skipn (Z.to_nat (kv_off v)) d).
(** a byte which belongs to a variable *)
Definition inside (v : kvar) (i : nat) : Prop := kv_off v <= Z.of_nat i < kv_off v + kv_size v.

(** variables which aren't options *)
Definition special (v : kvar) : Prop := kv_name v = KVERSION \/ kv_name v = KWRAPPER.
(** [b]: the bytes of a variable.  [version]: KERNEL_VERSION; [wrapper]: whether system calls have wrappers; [ls]: the lines
    of the file. *)
Inductive has_value (bo : byteorder) (version : option Z) (wrapper : option bool) (ls : option (list str)) (v : kvar) : list Z -> Prop :=
| hv_version enc n : kv_name v = KVERSION -> kv_type v = KInt 4 enc -> version = Some n -> has_value bo version wrapper ls v (put bo 4 n)
| hv_wrapper size enc w : kv_name v = KWRAPPER -> kv_type v = KInt size enc -> In size [1; 2; 4; 8] -> wrapper = Some w ->
    has_value bo version wrapper ls v (put bo (Z.to_nat size) (if w then 1 else 0))
| hv_option f text b : ~ special v -> ls = Some f -> first_value f (kv_name v) text -> represents bo (underlying (kv_type v)) text b -> has_value bo version wrapper ls v b.

(** the contents of .kconfig: each variable has its value, and everything else is zero *)
Record contents (bo : byteorder) (version : option Z) (wrapper : option bool) (ls : option (list str)) (size : Z) (vars : list kvar) (d : list Z) : Prop := {
  con_size : Z.of_nat (length d) = size;
  con_vars : forall v, In v vars -> has_value bo version wrapper ls v (part d v);
  con_rest : forall i, (forall v, In v vars -> ~ inside v i) -> nth i d 0 = 0 }.
(** The file is read to its end unless a beginning of it has everything; [rerr]: reading fails at the end. *)
Definition readable (vars : list kvar) (ls : option (list str)) (rerr : bool) : Prop :=
  (forall v, In v vars -> special v) \/
  exists f, ls = Some f /\ (Forall valid_line f /\ rerr = false \/ exists ks, (forall k, In k ks <-> exists v, In v vars /\ ~ special v /\ kv_name v = k) /\ suffices ks f).
