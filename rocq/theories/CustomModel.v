(** Model of the custom Fock-state nodes: src/fock_state_circuit/nodes/custom_nodes.py. *)
From Coq Require Import Reals List Arith ZArith Bool.
From Coquelicot Require Import Complex.
From Verif Require Import Prelude NamesModel FockModel StateModel CollectionModel EvalModel.
Import ListNotations.

(** all([input[channel] == output[channel] for channel in range(n) if channel != target]),
    lines 211 and 432. *)
Definition agree_except (n target : nat) (a b : values) : bool :=
  forallb (fun c => (c =? target) || (nth c a 0 =? nth c b 0)) (seq 0 n).

(** The matrix of one pair: lines 206-214 (shift) and 427-435 (c_shift). [keys]: the tuples in the
    order of _dict_of_optical_values.keys(); [new input]: the value the target channel must have.
    The entries are numpy ubytes; they and the entries of the products below are 0 or 1
    (theorems C39_shift, C39_c_shift), so that arithmetic modulo 256 is exact. *)
Definition transition (n : nat) (keys : list values) (target : nat) (new : values -> nat) : mat :=
  fun o i =>
    let output := nth o keys [] in let input := nth i keys [] in
    if agree_except n target input output && (nth target output 0 =? new input) then RtoC 1 else RtoC 0.

(** (shift + value) % length, lines 213 and 284; shifts can be negative. *)
Definition shifted_by (L : nat) (s : Z) (v : nat) : nat := Z.to_nat ((s + Z.of_nat v) mod Z.of_nat L).

(** The loop that multiplies the matrices, lines 215-219 and 436-440: the first matrix stands
    leftmost. No pair at all: coupling_matrix is unbound, an exception. *)
Definition product_of (d : nat) (l : list mat) : option mat :=
  match l with [] => None | M :: r => Some (fold_left (mat_mul d) r M) end.

(** shift, lines 169-236. The check of the arguments (192-197) has no effect (the Exception is not
    raised); a target channel that does not exist raises an IndexError. Negative channel numbers
    are not modelled. *)
Definition shift (D : dims) (keys : list values) (targets : list nat) (shifts : list Z) : option node :=
  let pairs := combine shifts targets in
  if forallb (fun p => snd p <? dN D) pairs then
    option_map NCustomFock (product_of (size_of_basis D)
      (map (fun p => transition (dN D) keys (snd p) (fun input => shifted_by (dL D) (fst p) (nth (snd p) input 0))) pairs))
  else None.

(** c_shift, lines 369-447. The check of the arguments (411-422) has no effect. *)
Definition c_shift (D : dims) (keys : list values) (controls targets : list nat) : option node :=
  let pairs := combine controls targets in
  if forallb (fun p => (fst p <? dN D) && (snd p <? dN D)) pairs then
    option_map NCustomFock (product_of (size_of_basis D)
      (map (fun p => transition (dN D) keys (snd p) (fun input => (nth (fst p) input 0 + nth (snd p) input 0) mod dL D)) pairs))
  else None.

(** The loops of the direct nodes over the pairs, lines 283-284 and 350-351. *)
Definition shift_values (L : nat) (pairs : list (Z * nat)) (vs : values) : values :=
  fold_left (fun vs p => set_nth vs (snd p) (shifted_by L (fst p) (nth (snd p) vs 0))) pairs vs.
(** One component under all pairs of c_shift_direct, custom_nodes.py:339-351. *)
Definition c_shift_values (L : nat) (pairs : list (nat * nat)) (vs : values) : values :=
  fold_left (fun vs p => set_nth vs (snd p) ((nth (snd p) vs 0 + nth (fst p) vs 0) mod L)) pairs vs.

(** generic_function, lines 272-290 and 339-357: every component is renamed; the states get random
    identifiers. The look-up of the new tuple cannot fail because all values are taken modulo the
    length (for states with proper component names). *)
Definition renamed_components (D : dims) (f : values -> values) (cs : list (name * (C * R))) : list (name * (C * R)) :=
  dict_of leqb (map (fun c => (name_string D (f (values_of_name D (fst c))), snd c)) cs).
(** The function on the collection, custom_nodes.py:272-290 and 339-357. *)
Definition direct_function (rnd : nat -> nat) (f : nat -> values -> values) (cs : coll) : option coll :=
  option_map (fun r : items * nat => with_items cs (fst r))
    (fold_left (fun (acc : option (items * nat)) (it : ident * state) =>
      match acc, copy_state (co_eps cs) (co_ncl cs) (snd it) with
      | Some (out, sd), Some st =>
          Some (add_state_random rnd sd (with_comps st (renamed_components (co_D cs) (f (dL (co_D cs))) (s_comps (snd it)))) out)
      | _, _ => None
      end) (co_items cs) (Some ([], 0))).
(** shift_direct, lines 238-300, and c_shift_direct, lines 303-367; [rnd] is the source of the random
    identifiers. Channel numbers that do not exist raise during evaluation in the code; the model
    is used for existing channels only. *)
Definition shift_direct (rnd : nat -> nat) (targets : list nat) (shifts : list Z) : node :=
  NFunction (direct_function rnd (fun L => shift_values L (combine shifts targets))).
(** c_shift_direct, custom_nodes.py:303-367. *)
Definition c_shift_direct (rnd : nat -> nat) (controls targets : list nat) : node :=
  NFunction (direct_function rnd (fun L => c_shift_values L (combine controls targets))).

(** channel_coupling, lines 449-533 (exact numbers instead of np.csingle): the identity matrix
    times one matrix per pair. The check of the arguments has no effect; strengths outside [0,1]
    (complex square roots) are not modelled. *)
Definition coupling_entry (D : dims) (keys : list values) (strength : R) (control target : nat) : mat :=
  fun o i =>
    let output := nth o keys [] in let input := nth i keys [] in
    let valid := agree_except (dN D) target input output
                 && (nth target output 0 =? (nth control input 0 + nth target input 0) mod dL D) in
    if valid && negb (i =? o) then RtoC (sqrt strength)
    else if valid && (i =? o) then RtoC 1
    else if negb valid && (i =? o) then RtoC (sqrt (1 - strength))
    else RtoC 0.
(** channel_coupling, custom_nodes.py:449-533. *)
Definition channel_coupling (D : dims) (keys : list values) (strength : R) (controls targets : list nat) : option node :=
  let pairs := combine controls targets in
  if forallb (fun p => (fst p <? dN D) && (snd p <? dN D)) pairs then
    Some (NCustomFock (fold_left (mat_mul (size_of_basis D))
      (map (fun p => coupling_entry D keys strength (fst p) (snd p)) pairs)
      (fun o i => if o =? i then RtoC 1 else RtoC 0)))
  else None.

(** The node types of the documentation of custom_optical_node ('optical' or 'optical non-linear'),
    custom_nodes.py:101-113, and membership in _TYPES_OF_NODES, node_list.py:64 and 155-158. *)
Inductive optical_type := TypeOptical | TypeNonLinear.
(** node_list.py:64, 155-158. *)
Definition known_type (t : optical_type) : bool := match t with TypeOptical => true | TypeNonLinear => false end.

(** The check of the size of a matrix given as a list of rows, custom_nodes.py:136 and
    circuit.py:867: len(matrix) != 2 and len(matrix[0]) != 2 (without rows matrix[0] raises). *)
Definition size_accepted (rows : list (list C)) : bool :=
  match rows with
  | [] => false
  | r :: _ => negb (negb (length rows =? 2) && negb (length r =? 2))
  end.
(** matrix[i][j]; None: IndexError. circuit.py:869-872. *)
Definition entry (rows : list (list C)) (i j : nat) : option C :=
  match nth_error rows i with Some r => nth_error r j | None => None end.
(** The four entries that are read, circuit.py:869-872. *)
Definition read_matrix (rows : list (list C)) : option mat2 :=
  match entry rows 0 0, entry rows 1 1, entry rows 0 1, entry rows 1 0 with
  | Some a, Some d, Some b, Some c => Some (Mat2 a b c d)
  | _, _, _, _ => None
  end.

(** custom_optical_node, custom_nodes.py:98-141, with the gatekeeper node_list.py:143-162. None: the
    method raises. Some None: the node is added, and building its Fock matrix (circuit.py:869-872)
    raises in every evaluation. *)
Definition custom_optical_node (n : nat) (rows : list (list C)) (channels : list nat) (t : optical_type) : option (option node) :=
  if negb (size_accepted rows) then None
  else match tensor_list_of n channels with
  | None => None
  | Some tl => if known_type t then Some (option_map (fun A => NOptical A tl) (read_matrix rows)) else None
  end.

(** custom_fock_state_node, custom_nodes.py:143-167: no check. A matrix whose size is not that of the
    basis raises in the evaluation and is not modelled. *)
Definition custom_fock_state_node (M : mat) : node := NCustomFock M.

(** nonlinear_optical_node, nonlinear_optical_nodes.py:10-41: a dummy that returns the collection. *)
Definition nonlinear_optical_node (operator channels : list nat) : node := NFunction (fun cs => Some cs).
