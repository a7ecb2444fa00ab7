(** Specification for C42 and C55: the comparisons of types as coinductive relations. *)
From Coq Require Import ZArith List Lia Bool.
From Verif.Btf Require Import Names Types.
Import ListNotations.
Open Scope Z_scope.

(** [resolves h x n y]: removing [n] layers of typedefs and qualifiers from x gives y, which is neither. *)
Definition wrapper (h : heap) (x y : ref) : Prop :=
  exists n, deref h x = Some n /\ ((exists s tags, n = NTypedef s y tags) \/ n = NConst y \/ n = NVolatile y \/ n = NRestrict y \/ exists v, n = NTypeTag y v).
Inductive resolves (h : heap) : ref -> nat -> ref -> Prop :=
| res_done x : (forall y, ~ wrapper h x y) -> resolves h x 0 x
| res_wrap x y n z : wrapper h x y -> resolves h y n z -> resolves h x (S n) z.
(** at most 32 layers *)
Definition stripped (h : heap) (x y : ref) : Prop := exists n, (n <= 32)%nat /\ resolves h x n y.

(** one level of compatibility of stripped types: names, sizes, members and dimensions are ignored *)
Inductive compat_rule (h : heap) (R : ref -> ref -> Prop) : ref -> ref -> Prop :=
| cr_void : compat_rule h R RVoid RVoid
| cr_struct x y n s ms tg n' s' ms' tg' : deref h x = Some (NStruct n s ms tg) -> deref h y = Some (NStruct n' s' ms' tg') -> compat_rule h R x y
| cr_union x y n s ms tg n' s' ms' tg' : deref h x = Some (NUnion n s ms tg) -> deref h y = Some (NUnion n' s' ms' tg') -> compat_rule h R x y
| cr_enum x y n s g vs n' s' g' vs' : deref h x = Some (NEnum n s g vs) -> deref h y = Some (NEnum n' s' g' vs') -> compat_rule h R x y
| cr_fwd x y n k n' k' : deref h x = Some (NFwd n k) -> deref h y = Some (NFwd n' k') -> compat_rule h R x y
| cr_int x y n s e n' s' e' : deref h x = Some (NInt n s e) -> deref h y = Some (NInt n' s' e') -> compat_rule h R x y
| cr_ptr x y a b : deref h x = Some (NPtr a) -> deref h y = Some (NPtr b) -> R a b -> compat_rule h R x y
| cr_array x y i e n i' e' n' : deref h x = Some (NArray i e n) -> deref h y = Some (NArray i' e' n') -> R i i' -> R e e' -> compat_rule h R x y
| cr_func x y r ps r' qs : deref h x = Some (NFuncProto r ps) -> deref h y = Some (NFuncProto r' qs) -> R r r' ->
    Forall2 (fun p q => R (p_type p) (p_type q)) ps qs -> compat_rule h R x y.
(** the largest relation closed under a rule *)
Definition largest (h : heap) (rule : (ref -> ref -> Prop) -> ref -> ref -> Prop) (l t : ref) : Prop :=
  exists R : ref -> ref -> Prop, R l t /\ forall x y, R x y -> exists x' y', stripped h x x' /\ stripped h y y' /\ rule R x' y'.
Definition compatible (h : heap) : ref -> ref -> Prop := largest h (compat_rule h).

(** supported types: everything reached by stripping, and through pointers, arrays and prototypes, is of a kind that can
    be compared *)
Inductive part (h : heap) : ref -> ref -> Prop :=
| part_ptr x a : deref h x = Some (NPtr a) -> part h x a
| part_index x i e n : deref h x = Some (NArray i e n) -> part h x i
| part_elem x i e n : deref h x = Some (NArray i e n) -> part h x e
| part_ret x r ps : deref h x = Some (NFuncProto r ps) -> part h x r
| part_param x r ps p : deref h x = Some (NFuncProto r ps) -> In p ps -> part h x (p_type p).
Definition comparable (h : heap) (x : ref) : Prop :=
  x = RVoid \/ exists n, deref h x = Some n /\
    match n with NStruct _ _ _ _ | NUnion _ _ _ _ | NEnum _ _ _ _ | NFwd _ _ | NInt _ _ _ | NPtr _ | NArray _ _ _ | NFuncProto _ _ => True | _ => False end.
Definition supported (h : heap) (x : ref) : Prop :=
  exists S : ref -> Prop, S x /\ forall y, S y -> exists z, stripped h y z /\ comparable h z /\ forall w, part h z w -> S w.

(** ** Matching (bpf_core_type_matches) *)
(** one of the names is missing, or they are equal up to the flavour suffix *)
Definition names_agree (a b : str) : Prop := a = [] \/ b = [] \/ newEssentialName a = newEssentialName b.
(** [x] is, up to qualifiers and typedefs, a forward declaration of a struct (0) or union (1); a struct or union *)
Definition forward (h : heap) (x : ref) (name : str) (kind : Z) : Prop := exists z, stripped h x z /\ deref h z = Some (NFwd name kind).
Definition defined (h : heap) (x : ref) (name : str) (kind : Z) : Prop :=
  exists z s ms tg, stripped h x z /\ (kind = 0 /\ deref h z = Some (NStruct name s ms tg) \/ kind = 1 /\ deref h z = Some (NUnion name s ms tg)).
Definition variants_in (vs ws : list enumvalue) : Prop := forall v, In v vs -> exists w, In w ws /\ names_agree (ev_name v) (ev_name w).
(** the last member of that name *)
Definition last_named (ms : list member) (name : str) (m : member) : Prop :=
  exists p q, ms = p ++ m :: q /\ m_name m = name /\ forall m', In m' q -> m_name m' <> name.
Definition members_match (R : ref -> ref -> Prop) (ms ns : list member) : Prop :=
  (length ms <= length ns)%nat /\ forall m, In m ms -> exists n, last_named ns (m_name m) n /\ R (m_type m) (m_type n).
(** what the code implements *)
Inductive match_rule (h : heap) (R : ref -> ref -> Prop) : ref -> ref -> Prop :=
| mr_void : match_rule h R RVoid RVoid
| mr_fwd x y n n' k : deref h x = Some (NFwd n k) -> deref h y = Some (NFwd n' k) -> names_agree n n' -> match_rule h R x y
| mr_enum x y n n' s g g' vs ws : deref h x = Some (NEnum n s g vs) -> deref h y = Some (NEnum n' s g' ws) -> names_agree n n' ->
    (length vs <= length ws)%nat -> variants_in vs ws -> match_rule h R x y
| mr_struct x y n n' s s' ms ns tg tg' : deref h x = Some (NStruct n s ms tg) -> deref h y = Some (NStruct n' s' ns tg') -> names_agree n n' ->
    members_match R ms ns -> match_rule h R x y
| mr_union x y n n' s s' ms ns tg tg' : deref h x = Some (NUnion n s ms tg) -> deref h y = Some (NUnion n' s' ns tg') -> names_agree n n' ->
    members_match R ms ns -> match_rule h R x y
| mr_int x y n n' s e e' : deref h x = Some (NInt n s e) -> deref h y = Some (NInt n' s e') -> names_agree n n' -> (e = 1 <-> e' = 1) -> match_rule h R x y
| mr_ptr_fwd x y a b n n' k : deref h x = Some (NPtr a) -> deref h y = Some (NPtr b) ->
    (forward h a n k /\ defined h b n' k \/ forward h b n k /\ defined h a n' k) -> match_rule h R x y
| mr_ptr x y a b : deref h x = Some (NPtr a) -> deref h y = Some (NPtr b) -> R a b -> match_rule h R x y
| mr_array x y i i' e e' n : deref h x = Some (NArray i e n) -> deref h y = Some (NArray i' e' n) -> R e e' -> match_rule h R x y
| mr_func x y r r' ps qs : deref h x = Some (NFuncProto r ps) -> deref h y = Some (NFuncProto r' qs) -> R r r' ->
    Forall2 (fun p q => R (p_type p) (p_type q)) ps qs -> match_rule h R x y.

(** what the comment above coreTypesMatch documents: the flag says whether we are behind a pointer, where only the names
    and kinds of structs and unions are compared *)
Inductive kind_like (h : heap) : ref -> ref -> Prop :=
| kl_struct x y n s ms tg n' s' ms' tg' : deref h x = Some (NStruct n s ms tg) -> deref h y = Some (NStruct n' s' ms' tg') -> names_agree n n' -> kind_like h x y
| kl_union x y n s ms tg n' s' ms' tg' : deref h x = Some (NUnion n s ms tg) -> deref h y = Some (NUnion n' s' ms' tg') -> names_agree n n' -> kind_like h x y
| kl_fwd x y n k n' : deref h x = Some (NFwd n k) -> deref h y = Some (NFwd n' k) -> names_agree n n' -> kind_like h x y
| kl_fwd_def x y n k n' : forward h x n k -> defined h y n' k -> names_agree n n' -> kind_like h x y
| kl_def_fwd x y n k n' : defined h x n k -> forward h y n' k -> names_agree n n' -> kind_like h x y.
Inductive doc_rule (h : heap) (R : bool -> ref -> ref -> Prop) : bool -> ref -> ref -> Prop :=
| dr_behind x y : kind_like h x y -> doc_rule h R true x y
| dr_void bp : doc_rule h R bp RVoid RVoid
| dr_fwd bp x y n n' k : deref h x = Some (NFwd n k) -> deref h y = Some (NFwd n' k) -> names_agree n n' -> doc_rule h R bp x y
| dr_enum bp x y n n' s g g' vs ws : deref h x = Some (NEnum n s g vs) -> deref h y = Some (NEnum n' s g' ws) -> names_agree n n' -> variants_in vs ws -> doc_rule h R bp x y
| dr_struct x y n n' s s' ms ns tg tg' : deref h x = Some (NStruct n s ms tg) -> deref h y = Some (NStruct n' s' ns tg') -> names_agree n n' ->
    (forall m, In m ms -> exists m', In m' ns /\ m_name m' = m_name m /\ R false (m_type m) (m_type m')) -> doc_rule h R false x y
| dr_union x y n n' s s' ms ns tg tg' : deref h x = Some (NUnion n s ms tg) -> deref h y = Some (NUnion n' s' ns tg') -> names_agree n n' ->
    (forall m, In m ms -> exists m', In m' ns /\ m_name m' = m_name m /\ R false (m_type m) (m_type m')) -> doc_rule h R false x y
| dr_int bp x y n n' s e e' : deref h x = Some (NInt n s e) -> deref h y = Some (NInt n' s e') -> names_agree n n' -> (e = 1 <-> e' = 1) -> doc_rule h R bp x y
| dr_ptr bp x y a b : deref h x = Some (NPtr a) -> deref h y = Some (NPtr b) -> R true a b -> doc_rule h R bp x y
| dr_array bp x y i i' e e' n n' : deref h x = Some (NArray i e n) -> deref h y = Some (NArray i' e' n') -> R bp e e' -> doc_rule h R bp x y
| dr_func bp x y r r' ps qs : deref h x = Some (NFuncProto r ps) -> deref h y = Some (NFuncProto r' qs) -> R false r r' ->
    Forall2 (fun p q => R false (p_type p) (p_type q)) ps qs -> doc_rule h R bp x y.
Definition documented (h : heap) (l t : ref) : Prop :=
  exists R : bool -> ref -> ref -> Prop, R false l t /\ forall bp x y, R bp x y -> exists x' y', stripped h x x' /\ stripped h y y' /\ doc_rule h R bp x' y'.

(** types that can be matched, with distinct member names *)
Definition matchable (h : heap) (x : ref) : Prop :=
  exists S : ref -> Prop, S x /\ forall y, S y -> exists z, stripped h y z /\ comparable h z /\ (forall w, part h z w -> S w) /\
    forall n s ms tg, deref h z = Some (NStruct n s ms tg) \/ deref h z = Some (NUnion n s ms tg) -> NoDup (map m_name ms) /\ forall m, In m ms -> S (m_type m).
