(** Specification of C86: where the code of a function is in a file. *)
From Coq Require Import String.
From Verif Require Import Base.GoInt Probe.Exec.
Open Scope Z_scope.

(** Segments whose bytes are mapped as code *)
Definition isCode (g : seg) : Prop := g_type g = 1 /\ Z.odd (g_flags g) = true.
Definition inSeg (g : seg) (v : Z) : Prop := g_vaddr g <= v < g_vaddr g + g_memsz g.
(** The instruction at virtual address [v] is loaded from file offset [r]. *)
Definition loadedFrom (f : file) (v r : Z) : Prop := exists g, In g (f_segs f) /\ isCode g /\ inSeg g v /\ r - g_off g = v - g_vaddr g.
Definition notLoaded (f : file) (v : Z) : Prop := forall g, In g (f_segs f) -> isCode g -> ~ inSeg g v.

(** Functions have type STT_FUNC, the low four bits of the info byte. *)
Definition isFunction (y : esym) : Prop := y_info y mod 16 = 2.
Definition symbols (f : file) : list esym := f_syms f ++ f_dyn f.
(** [y] is the last function called [name] in the symbol tables. *)
Definition lastFunction (f : file) (name : string) (y : esym) : Prop :=
  exists l r, symbols f = l ++ y :: r /\ y_name y = name /\ isFunction y /\ forall z, In z r -> isFunction z -> y_name z <> name.

(** A well-formed file: 64 bit numbers; segments of code end within the address space, and do not
    overlap; functions are inside a segment or outside of all. *)
Definition wfFile (f : file) : Prop :=
  (forall g, In g (f_segs f) -> 0 <= g_off g /\ 0 <= g_vaddr g /\ 0 <= g_memsz g /\ g_vaddr g + g_memsz g < 2 ^ 64 /\ g_off g + g_memsz g < 2 ^ 64) /\
  (forall g h v, In g (f_segs f) -> In h (f_segs f) -> isCode g -> isCode h -> inSeg g v -> inSeg h v -> g = h) /\
  (forall y, In y (symbols f) -> 0 <= y_value y /\ 0 <= y_size y /\ y_value y + y_size y < 2 ^ 64 /\
     ((exists g, In g (f_segs f) /\ isCode g /\ inSeg g (y_value y) /\ y_value y + y_size y <= g_vaddr g + g_memsz g) \/ notLoaded f (y_value y))).
(** Where the function [y] begins in the file: its address if no segment of code contains it *)
Definition startsAt (f : file) (y : esym) (r : Z) : Prop := loadedFrom f (y_value y) r \/ notLoaded f (y_value y) /\ r = y_value y.
