(** Model of optical elements whose channel numbers are negative, which Python counts from the end:
    NodeList._translate_channels_numbers_to_tensor_list,
    src/fock_state_circuit/nodes/nodelist/node_list.py:164-211, with integers instead of natural
    numbers (FockModel.tensor_list_of). *)
From Coq Require Import Reals List Arith Bool ZArith.
From Coquelicot Require Import Complex.
From Verif Require Import Prelude NamesModel FockModel OpticalModel.
Import ListNotations.

(** The place of l[z] in a list of n entries; None: IndexError. Used in lines 189-206. *)
Definition python_index (n : nat) (z : Z) : option nat :=
  if ((0 <=? z) && (z <? Z.of_nat n))%Z then Some (Z.to_nat z)
  else if ((- Z.of_nat n <=? z) && (z <? 0))%Z then Some (Z.to_nat (Z.of_nat n + z))
  else None.

(** _translate_channels_numbers_to_tensor_list, lines 180-211. The comparisons of line 187, 193,
    196 and 198 are comparisons of the numbers as they are given. *)
Definition tensor_list_z (n : nat) (channels : list Z) : option (list nat) :=
  let tl := seq 0 n in
  match channels with
  | [] => Some tl
  | [c] => if (c =? 0)%Z then Some tl
           else match python_index n c with Some c' => Some (swap_at 0 c' tl) | None => None end
  | [h; v] =>
      if (h =? v)%Z then None
      else if ((h =? 0) && (v =? 1))%Z then Some tl
      else if ((h =? 1) && (v =? 0))%Z then Some (swap_at 0 1 tl)
      else match python_index n h, python_index n v with
           | Some h', Some v' => Some (swap_at 1 v' (swap_at 0 h' tl))
           | _, _ => None
           end
  | _ => None
  end.

(** get_fock_state_matrix of a circuit of one element with the matrix A on the given channels,
    optical_nodes.py:203-240 and circuit.py:956-970. *)
Definition element_matrix (D : dims) (A : mat2) (channels : list Z) : option mat :=
  match tensor_list_z (dN D) channels with
  | Some tl => option_map fst (fock_state_matrix D (fresh_keys D) [ONode A tl] SelAll)
  | None => None
  end.

(** The pair of channels of phase_shift_single_channel(c), optical_nodes.py:64-77 (also
    controlled_nodes.py:79-86). *)
Definition phase_channels (c : Z) : list Z := if (c =? 0)%Z then [1; 0]%Z else [0%Z; c].

(** The channels of swap(first, second) in the order in which they are passed on,
    optical_nodes.py:578-579 and 593. *)
Definition swap_channels (a b : Z) : list Z := if (b <? a)%Z then [b; a] else [a; b].
