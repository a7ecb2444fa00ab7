(** Model of btf/core.go:202-286 CORERelocate. *)
From Coq Require Import ZArith List Lia Bool.
From Verif.Base Require Import GoInt.
From Verif.Btf Require Import Names Types.
From Verif.Core Require Import Fixup Compat Field.
Import ListNotations.
Open Scope Z_scope.

(** A target *Spec: its byte order, TypesByName and TypeID. *)
Inductive lookup := FoundTypes (l : list ref) | NoTypes | LookupFailed.
Record target_spec := mkTarget { ts_little : bool; ts_by_name : str -> lookup; ts_id : ref -> res ferr Z }.
Inductive rerr := NoTargets | WrongByteOrder | BadAccessor | NoLocalID | Unnamed | Lookup | Calculate (e : serr).

(** btf/core.go:218-254: relocations of local type IDs are solved, the others are split into groups by type.  A group holds the
    relocations and their positions. *)
Definition rgroup := (ref * list (relo * nat))%type.
Fixpoint add_relo (typ : ref) (x : relo * nat) (gs : list rgroup) : list rgroup :=
  match gs with
  | [] => [(typ, [x])]
  | (t, l) :: gs' => if ref_eq_dec t typ then (t, l ++ [x]) :: gs' else (t, l) :: add_relo typ x gs'
  end.
Definition set_nth {A} (n : nat) (x : A) (l : list A) : list A := if (n <? length l)%nat then firstn n l ++ x :: skipn (S n) l else l.
Fixpoint split_relos (resolveLocal : ref -> option Z) (i : nat) (relos : list relo) (gs : list rgroup) (result : list fixup) : res rerr (list rgroup * list fixup) :=
  match relos with
  | [] => Ok (gs, result)
  | r :: relos' =>
      if r_kind r =? reloTypeIDLocal then
        if bad_accessor r then Err BadAccessor (* accessors aren't empty: C43 *)
        else match resolveLocal (r_type r) with
             | None => Err NoLocalID
             | Some id => split_relos resolveLocal (S i) relos' gs (set_nth i (mkFixup (r_kind r) (r_id r) id false false) result)
             end
      else split_relos resolveLocal (S i) relos' (add_relo (r_type r) (r, i) gs) result
  end.

(** the candidates for a type: core.go:263-274 *)
Fixpoint candidates (name : str) (targets : list target_spec) : option (list ref) :=
  match targets with
  | [] => Some []
  | t :: ts => match ts_by_name t name with
               | LookupFailed => None
               | NoTypes => candidates name ts
               | FoundTypes l => match candidates name ts with Some l' => Some (l ++ l') | None => None end
               end
  end.
(** copying the fixups of one group: core.go:281-283 *)
Fixpoint write_fixups (g : list (relo * nat)) (fs : list fixup) (result : list fixup) : list fixup :=
  match g, fs with
  | (_, i) :: g', f :: fs' => write_fixups g' fs' (set_nth i f result)
  | _, _ => result
  end.
Definition relo_calc (fuel : nat) (h : heap) (little : bool) (resolve : ref -> res ferr Z) (r : relo) (t : ref) : option fixup :=
  match coreCalculateFixup fuel h little resolve r t with Some (Ok f) => Some f | _ => None end.
(** local types are never nil pointers; the name of Void and of a type without name is empty *)
Definition local_name (h : heap) (r : ref) : str := match deref h r with Some n => type_name n | None => [] end.
Fixpoint solve_groups (fuel : nat) (h : heap) (little : bool) (resolve : ref -> res ferr Z) (targets : list target_spec) (gs : list rgroup) (result : list fixup) : res rerr (list fixup) :=
  match gs with
  | [] => Ok result
  | (t, g) :: gs' =>
      match local_name h t with
      | [] => Err Unnamed
      | name =>
          match candidates (newEssentialName name) targets with
          | None => Err Lookup
          | Some ts =>
              match coreCalculateFixups relo ref r_kind (relo_calc fuel h little resolve) (map fst g) ts with
              | Err e => Err (Calculate e)
              | Ok fs => solve_groups fuel h little resolve targets gs' (write_fixups g fs result)
              end
          end
      end
  end.
Definition zero_fixup : fixup := mkFixup 0 0 0 false false.
(** The groups are visited in the order of iteration over a Go map: [order] is any permutation of them. *)
Definition CORERelocate (fuel : nat) (h : heap) (little : bool) (relos : list relo) (targets : list target_spec) (resolveLocal : ref -> option Z) (order : list rgroup -> list rgroup) : res rerr (list fixup) :=
  match targets with
  | [] => Err NoTargets
  | t0 :: _ =>
      if existsb (fun t => negb (Bool.eqb (ts_little t) little)) targets then Err WrongByteOrder
      else match split_relos resolveLocal 0 relos [] (repeat zero_fixup (length relos)) with
           | Err e => Err e
           | Ok (gs, result) => solve_groups fuel h little (ts_id t0) targets (order gs) result
           end
  end.
