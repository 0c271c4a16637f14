(** Building a circuit call by call. *)
From Coq Require Import Reals List Arith Bool ZArith.
From Coquelicot Require Import Complex.
From Verif Require Import Prelude NamesModel FockModel OpticalModel StateModel CollectionModel EvalModel CustomModel.
Import ListNotations.

(** The methods of FockStateCircuit that add nodes, as far as they are used here:
    optical_nodes.py:203-750, controlled_nodes.py:37-169, classical_nodes.py:92-138,
    measurement_nodes.py:18-61, custom_nodes.py:169-236 and 369-447; Calculate is
    classical_channel_function, classical_nodes.py:29-90; Custom_element is custom_optical_node of type
    'optical' with a 2x2 matrix, custom_nodes.py:98-141, and Custom_matrix is custom_fock_state_node,
    custom_nodes.py:143-167. *)
Inductive instruction :=
| Optics (call : optical_call)
| Phase_by (c cl : nat)
| Plate_by (h v c_theta c_phi : nat)
| Set_channels (vals : list R) (chs : list nat)
| Calculate (f : list R -> list R -> list nat -> list R) (new_values : list R) (chs : list nat)
| Detectors (opt cl : list nat)
| Shift_by (targets : list nat) (shifts : list Z)
| Control_shift (controls targets : list nat)
| Custom_element (A : mat2) (h v : nat)
| Custom_matrix (M : mat).

(** The nodes one call appends to the node list; None: the call raises. The cached basis is that of a
    circuit of the same dimensions. optical_nodes.py:203-750, controlled_nodes.py:37-169,
    classical_nodes.py:29-138, measurement_nodes.py:18-61, custom_nodes.py:98-236, 369-447. *)
Definition nodes_of (D : dims) (ncl : nat) (i : instruction) : option (list node) :=
  let one := option_map (fun nd : node => [nd]) in
  match i with
  | Optics call =>
      match gates_of (dN D) call with
      | Some gs => option_map (map (fun nd => NOptical (on_matrix nd) (on_tl nd))) (place D gs)
      | None => None
      end
  | Phase_by c cl => one (phase_shift_classical_control (dN D) ncl c cl)
  | Plate_by h v ct cp => one (wave_plate_classical_control (dN D) ncl h v ct cp)
  | Set_channels vals chs => one (set_classical_channels ncl vals chs)
  | Calculate f nv chs => Some [NClassical f nv chs]
  | Detectors opt cl => one (measure_optical_to_classical (dN D) ncl opt cl)
  | Shift_by targets shifts => one (shift D (fresh_keys D) targets shifts)
  | Control_shift controls targets => one (c_shift D (fresh_keys D) controls targets)
  | Custom_element A h v =>
      match custom_optical_node (dN D) [[m00 A; m01 A]; [m10 A; m11 A]] [h; v] TypeOptical with
      | Some (Some nd) => Some [nd]
      | _ => None
      end
  | Custom_matrix M => Some [custom_fock_state_node M]
  end.

(** The node list after a sequence of calls, node_list.py:143-162. *)
Fixpoint program_nodes (D : dims) (ncl : nat) (p : list instruction) : option (list node) :=
  match p with
  | [] => Some []
  | i :: r => match nodes_of D ncl i, program_nodes D ncl r with
              | Some a, Some b => Some (a ++ b)
              | _, _ => None
              end
  end.
