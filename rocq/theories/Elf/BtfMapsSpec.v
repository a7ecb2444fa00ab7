(** What the map sections of an object file mean: specification of C78 (map definitions, see bpf_helpers.h: __uint, __ulong,
    __type, __array) and of C79 (all maps of a file). *)
From Coq Require Import String Sorting.Sorted.
From Verif Require Import Base.GoInt Asm.Model Asm.Spec Elf.Programs Elf.ProgramsSpec Elf.Data Elf.BtfMaps Btf.Types Btf.TypesSpec.
Open Scope string_scope. Open Scope list_scope. Open Scope Z_scope.

(** member [m] of the definition is called [n] *)
Definition has (ms : list member) (n : string) (m : member) : Prop := In m ms /\ m_name m = lit n.
(** __uint is a pointer to an array of that many elements, __ulong an enum with that value *)
Definition number (h : heap) (r : ref) (v : Z) : Prop :=
  (exists t i e, deref h r = Some (NPtr t) /\ deref h t = Some (NArray i e v)) \/
  (exists n sz sg w vals, deref h r = Some (NEnum n sz sg (w :: vals)) /\ ev_value w = v).
(** the number called [n]; 0 if there is none *)
Definition attribute (h : heap) (ms : list member) (n : string) (v : Z) : Prop :=
  (exists m, has ms n m /\ number h (m_type m) v) \/ ((forall m, ~ has ms n m) /\ v = 0).
(** __type(n, t), or else the number [n]_size *)
Definition sized (h : heap) (ms : list member) (n : string) (t : option ref) (s : Z) : Prop :=
  (exists m r, has ms n m /\ deref h (m_type m) = Some (NPtr r) /\ t = Some r /\ Sizeof h r = Ok s) \/
  ((forall m, ~ has ms n m) /\ t = None /\ attribute h ms (String.append n "_size") s).
(** __array(values, ...) is an array of pointers *)
Definition elements (h : heap) (m : member) (t : ref) : Prop := exists i e k, deref h (m_type m) = Some (NArray i e k) /\ deref h e = Some (NPtr t).

(** the values of perf event arrays, ring buffers and arenas may have a type, but have no size *)
Definition valueless (mp : mapspec) : Prop := (mp_type mp = 4 \/ mp_type mp = 27 \/ mp_type mp = 33) /\ mp_value mp <> None.
Record attributes (h : heap) (ms : list member) (name : string) (tags : list str) (mp : mapspec) : Prop := {
  at_name : mp_name mp = sanitizeName name;
  at_type : attribute h ms "type" (mp_type mp);
  at_flags : attribute h ms "map_flags" (mp_flags mp);
  at_max : attribute h ms "max_entries" (mp_max mp);
  at_pin : attribute h ms "pinning" (mp_pin mp);
  at_extra : attribute h ms "map_extra" (mp_mapextra mp);
  at_key : sized h ms "key" (mp_key mp) (mp_keysize mp);
  (** pointers to maps and programs are four bytes *)
  at_value : exists s, sized h ms "value" (mp_value mp) s /\ ((exists m, has ms "values" m) -> mp_valuesize mp = 4) /\
    ((forall m, ~ has ms "values" m) -> (valueless mp -> mp_valuesize mp = 0) /\ (~ valueless mp -> mp_valuesize mp = s));
  at_tags : mp_tags mp = tags;
  at_bytes : mp_extra mp = [] }.
(** element [k] of the array at the end of the map's definition is initialised with symbol [r] *)
Definition slot (o : obj) (i : Z) (y : sym) (m : member) (k : Z) (r : sym) : Prop :=
  0 <= k /\ relocated o i (y_value y + m_offset m / 8 + 8 * k) r /\ m_offset m / 8 + 8 * k + 8 <= y_size y.
Definition contents_of (o : obj) (i : Z) (y : sym) (m : member) (c : list (Z * string)) : Prop :=
  StronglySorted (fun a b => fst a < fst b) c /\ forall k n, In (k, n) c <-> exists r, slot o i y m k r /\ y_name r = n.
(** the map defined by the members [ms] of the type of symbol [y] of section [i] *)
Record the_definition (h : heap) (o : obj) (i : Z) (y : sym) (tags : list str) (name : string) (ms : list member) (mp : mapspec) : Prop := {
  td_attrs : attributes h ms name tags mp;
  td_plain : (forall m, ~ has ms "values" m) -> mp_inner mp = None /\ mp_contents mp = [];
  td_values : forall m t, has ms "values" m -> elements h m t -> contents_of o i y m (mp_contents mp) /\
    (forall r ps, deref h t = Some (NFuncProto r ps) -> mp_inner mp = None) /\
    (forall n sz ims tg, deref h t = Some (NStruct n sz ims tg) -> exists imp, mp_inner mp = Some imp /\ attributes h ims (String.append name "_inner") tags imp /\ mp_inner imp = None /\ mp_contents imp = []) }.

Definition numbers : list string := ["type"; "map_flags"; "max_entries"; "key_size"; "value_size"; "pinning"; "map_extra"].
Definition known : list string := numbers ++ ["key"; "value"; "values"].
(** a definition without errors, apart from its values *)
Record sound_def (h : heap) (ms : list member) (inner : bool) : Prop := {
  sd_known : forall m, In m ms -> exists n, In n known /\ m_name m = lit n;
  sd_numbers : forall n m, In n numbers -> has ms n m -> exists v, number h (m_type m) v;
  sd_types : forall n m, n = "key" \/ n = "value" -> has ms n m -> exists t s, deref h (m_type m) = Some (NPtr t) /\ Sizeof h t = Ok s;
  sd_one : forall n m m', n = "key" \/ n = "value" -> has ms n m -> ~ has ms (String.append n "_size") m';
  sd_pin : inner = true -> forall m, ~ has ms "pinning" m }.
Record sound_values (h : heap) (o : obj) (i : Z) (y : sym) (ms : list member) (m : member) : Prop := {
  sv_last : exists l, ms = l ++ [m];
  sv_size : forall t s, sized h ms "value" t s -> s = 0 \/ s = 4;
  sv_elem : exists t, elements h m t /\
    ((exists n sz ims tg, deref h t = Some (NStruct n sz ims tg) /\ (attribute h ms "type" 12 \/ attribute h ms "type" 13) /\ sound_def h ims true) \/
     (exists r ps, deref h t = Some (NFuncProto r ps) /\ attribute h ms "type" 3));
  sv_offset : m_offset m / 8 <= y_size y;
  (** values are functions (programs) or objects (maps) *)
  sv_syms : forall k r, slot o i y m k r -> y_type r = 1 \/ y_type r = 2 }.
(** what holds of definitions in C (see the refuted theorems for the others) *)
Record usual_def (h : heap) (ms : list member) : Prop := {
  uf_names : NoDup (map m_name ms);
  uf_small : forall n m v, In n numbers -> has ms n m -> number h (m_type m) v -> in_u 64 v /\ (n <> "map_extra" -> in_u 32 v);
  uf_sizes : forall n m t s, n = "key" \/ n = "value" -> has ms n m -> deref h (m_type m) = Some (NPtr t) -> Sizeof h t = Ok s -> in_u 32 s;
  uf_zero : forall n m m' v, n = "key" \/ n = "value" -> has ms n m -> has ms (String.append n "_size") m' -> number h (m_type m') v -> v <> 0 }.
Record usual_defs (h : heap) (ms : list member) : Prop := {
  us_def : usual_def h ms;
  us_offset : forall m, In m ms -> in_u 32 (m_offset m);
  us_inner : forall m t n sz ims tg, has ms "values" m -> elements h m t -> deref h t = Some (NStruct n sz ims tg) -> usual_def h ims /\ forall m', ~ has ims "values" m' }.
