(** Measurement nodes with a list of projections:
    /repo/src/fock_state_circuit/circuit.py, nodes/measurement_nodes.py, nodes/spectral_nodes.py (SN),
    temporal_and_spectral_gate_functionality/interference_group.py (IG). *)
From Coq Require Import Reals List Arith Bool.
From Verif Require Import Prelude NamesModel FockModel StateModel CollectionModel EvalModel ColumnModel.
Import ListNotations.

(** The columns of a group that are not skipped, IG:929-936. The name of a column is None when one of
    its photon numbers does not exist in the circuit (column_of_states.py:771-774), and None is in no
    list of names; a column without states raises (kept here, measure_group then fails). *)
Definition listed_columns (D : dims) (names : option (list name)) (g : group) : group :=
  match names with
  | None => g
  | Some ns =>
      Group (g_id g) (g_cum g)
        (filter (fun kc => match column_values D (snd kc) with
                           | Some vs => contains_values D vs && existsb (leqb (name_string D vs)) ns
                           | None => true
                           end) (g_cols g))
  end.
(** perform_measurement_photon_resolved, SN:287-323, with list_of_projections. *)
Definition measure_listed (rnd : nat -> nat) (names : option (list name)) (opt cl : list nat) (cs : coll) : option coll :=
  match resolved_groups cs with
  | None => None
  | Some gs => measure_all_groups rnd opt cl cs (map (listed_columns (co_D cs) names) gs)
  end.
(** evaluate_circuit, circuit.py:402-451, hands the list to the photon-resolved measurement only.
    Simplification: all measurement nodes of a circuit have the same list. *)
Definition with_listed (rnd : nat -> nat) (names : option (list name)) (X : externals) : externals :=
  Externals (measure_listed rnd names) (x_pr X).
