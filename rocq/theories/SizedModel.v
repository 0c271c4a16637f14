(** Custom Fock-state nodes whose matrix has any number of rows and columns:
    /repo/src/fock_state_circuit/circuit.py:363-381, state.py:532-567. *)
From Coq Require Import Reals List Arith Bool.
From Coquelicot Require Import Complex.
From Verif Require Import Prelude NamesModel FockModel StateModel CollectionModel EvalModel.
Import ListNotations.

(** np.matmul(custom_fock_matrix, state_vector), circuit.py:375, with a matrix given as the list of its
    rows and a vector with [d] numbers. None: there is no row, or a row has not [d] numbers
    (ValueError). *)
Definition matmul_rows (d : nat) (rows : list (list C)) (v : vec) : option (list C) :=
  if negb (length rows =? 0) && forallb (fun r => length r =? d) rows
  then Some (map (fun r => Csum (seq 0 d) (fun j => nth j r (RtoC 0) * v j)%C) rows) else None.
(** set_state_components_from_vector, state.py:548-567, for a vector of any length: the names of the
    entries i and i + d are the same (optical_values_component_names.py:227-228, 274-283), and
    dict.update overwrites. *)
Definition components_from_list (D : dims) (eps : R) (w : list C) : list (name * (C * R)) :=
  fold_left (fun (oc : list (name * (C * R))) (i : nat) =>
      let z := nth i w (RtoC 0) in
      if Rlt_dec (Cnorm2 z) eps then oc else dset leqb (at_index D i) (z, Cnorm2 z) oc)
    (seq 0 (length w)) [].
(** The node on the states of a collection, circuit.py:363-381; the results get random identifiers. *)
Definition sized_items (c : circuit) (rnd : nat -> nat) (rows : list (list C)) (its : items) (seed : nat) : option (items * nat) :=
  fold_left (fun (acc : option (items * nat)) (it : ident * state) =>
      match acc, copy_state (c_eps c) (c_ncl c) (snd it),
            matmul_rows (size_of_basis (c_D c)) rows (state_vector (c_D c) (snd it)) with
      | Some (out, sd), Some st, Some w =>
          Some (add_state_random rnd sd (with_comps st (components_from_list (c_D c) (c_eps c) w)) out)
      | _, _, _ => None
      end) its (Some ([], seed)).
(** The node of custom_fock_state_node, custom_nodes.py:143-167 (no check), in the circuit [c].
    Simplification: written as a function on the collection, so its random identifiers come from an own
    source [rnd]. *)
Definition sized_node (c : circuit) (rnd : nat -> nat) (rows : list (list C)) : node :=
  NFunction (fun cs => option_map (fun r => coll_of c (fst r)) (sized_items c rnd rows (co_items cs) 0)).
