(** Model of the static linker for bpf-to-bpf calls: linker.go:151-226. *)
From Coq Require Import String.
From Verif Require Import Base.GoInt Asm.Model.
Open Scope Z_scope.

(** map[string]*ProgramSpec, of which only the instructions matter here *)
Definition programs := list (string * list instr).
(** linker.go:156-159: the references of each program *)
Definition refs_of (progs : programs) (name : string) : list string :=
  match lookup name progs with Some l => FunctionReferences l | None => [] end.

(** linker.go:201-223, the loop; [None] is lack of fuel (excluded by the proofs) *)
Fixpoint flatten_loop (fuel : nat) (progs : programs) (insns : list instr) (pending linked : list string) : option (list instr) :=
  match fuel with
  | O => None
  | S f =>
      match pending with
      | [] => Some insns
      | ref :: pending =>
          if existsb (String.eqb ref) linked then flatten_loop f progs insns pending linked
          else match lookup ref progs with
               | None => flatten_loop f progs insns pending linked
               | Some l => flatten_loop f progs (insns ++ l) (pending ++ refs_of progs ref) (ref :: linked)
               end
      end
  end.
Definition flatten_fuel (progs : programs) : nat :=
  S (2 * fold_right (fun p n => List.length (FunctionReferences (snd p)) + n) 0 progs)%nat.
(** linker.go:181-226 flattenInstructions; [None] for a name without a program (the code panics) *)
Definition flattenInstructions (name : string) (progs : programs) : option (list instr) :=
  match lookup name progs with
  | None => None
  | Some l =>
      match FunctionReferences l with
      | [] => Some l
      | refs => flatten_loop (flatten_fuel progs) progs l refs []
      end
  end.
(** linker.go:154-172 flattenPrograms: all names are flattened before any program is changed *)
Fixpoint assign (name : string) (l : list instr) (progs : programs) : programs :=
  match progs with
  | [] => []
  | (n, l0) :: progs' => if String.eqb name n then (n, l) :: progs' else (n, l0) :: assign name l progs'
  end.
Fixpoint flatten_all (names : list string) (progs : programs) : option (list (string * list instr)) :=
  match names with
  | [] => Some []
  | n :: names' =>
      match flattenInstructions n progs, flatten_all names' progs with
      | Some l, Some ls => Some ((n, l) :: ls)
      | _, _ => None
      end
  end.
Definition flattenPrograms (progs : programs) (names : list string) : option programs :=
  match flatten_all names progs with
  | None => None
  | Some ls => Some (fold_left (fun ps nl => assign (fst nl) (snd nl) ps) ls progs)
  end.
