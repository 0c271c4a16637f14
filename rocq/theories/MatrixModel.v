(** Model of FockStateCircuit.get_fock_state_matrix for all nodes and for a list of nodes,
    src/fock_state_circuit/circuit.py:758-839 and 956-970. *)
From Coq Require Import Reals List Arith Bool.
From Coquelicot Require Import Complex.
From Verif Require Import Prelude NamesModel FockModel OpticalModel StateModel CollectionModel EvalModel.
Import ListNotations.

(** __generate_fock_state_matrix for a list of node numbers, lines 786-839, with photon number
    selection 'all'. None: an exception (a node number beyond the last node, a node of another type
    than 'optical', or an empty list, of which line 798 reads the first entry). Node numbers are
    natural numbers; Python's negative ones are not modelled. *)
Definition generate_matrix (c : circuit) (ks : list nat) : option mat :=
  if forallb (fun k => (k <? length (c_nodes c)) && is_optical (node_at c k)) ks
  then option_map fst (fock_state_matrix (c_D c) (c_keys c) (flat_map (fun k => onode_of (node_at c k)) ks) SelAll)
  else None.

(** get_fock_state_matrix(nodes_to_be_evaluated = ks), lines 966-970: a list of one custom Fock node
    gives its matrix, whatever that is. *)
Definition matrix_of_nodes (c : circuit) (ks : list nat) : option mat :=
  match ks with
  | [k] =>
      match nth_error (c_nodes c) k with
      | Some (NCustomFock M) => Some M
      | _ => generate_matrix c ks
      end
  | _ => generate_matrix c ks
  end.

(** get_fock_state_matrix() for all nodes: the argument is the string 'all', which has three
    letters, so that lines 966-967 are passed over (also for a circuit of one custom Fock node);
    line 787-788 makes the list of all nodes. *)
Definition matrix_of_circuit (c : circuit) : option mat :=
  generate_matrix c (seq 0 (length (c_nodes c))).
