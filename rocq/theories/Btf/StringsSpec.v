(** What a BTF string section is: NUL terminated strings one after the other. *)
From Coq Require Import ZArith List Lia Bool.
Import ListNotations.
Open Scope Z_scope.

(** [s] starts at offset [o] of [bytes]: a NUL (or the beginning) before it, a NUL after it, none inside. *)
Definition string_at (bytes : list Z) (o : Z) (s : list Z) : Prop :=
  exists pre post, bytes = pre ++ s ++ 0 :: post /\ Z.of_nat (length pre) = o /\ ~ In 0 s /\
    (pre = [] \/ exists pre', pre = pre' ++ [0]).

(** Every string followed by NUL. *)
Definition encoding (strs : list (list Z)) : list Z := concat (map (fun s => s ++ [0]) strs).
