(** Model of the optical-node methods: nodes/optical_nodes.py. Angles and fractions are
    real numbers (the code uses float64), sin/cos/sqrt/pi are the real functions. *)
From Coq Require Import Reals List Arith Bool.
From Coquelicot Require Import Complex.
From Verif Require Import Prelude NamesModel FockModel.
Import ListNotations.

(** _generate_generic_optical_matrix, optical_nodes.py:152-171. *)
Definition generic_matrix (theta phi : R) : mat2 :=
  let e := (cos phi, sin phi) : C in
  let c := cos theta in let s := sin theta in
  Mat2 (RtoC (c ^ 2) + e * RtoC (s ^ 2))%C
       ((RtoC 1 - e) * RtoC c * RtoC s)%C
       ((RtoC 1 - e) * RtoC c * RtoC s)%C
       (RtoC (s ^ 2) + e * RtoC (c ^ 2))%C.

(** math.atan2 for x >= 0 (the only use, line 665, has x = sqrt(transmission)). *)
Definition atan2_pos (y x : R) : R :=
  if Rlt_dec 0 x then atan (y / x)
  else if Rlt_dec 0 y then PI / 2 else if Rlt_dec y 0 then (- PI / 2)%R else 0%R.

(** A gate: optical matrix and channel list handed to
    _translate_channels_numbers_to_tensor_list. *)
(** optical_nodes.py:203-240, node_list.py:164-211. *)
Definition gate := (mat2 * list nat)%type.

(** The public methods adding optical nodes. *)
(** optical_nodes.py:203-750. *)
Inductive optical_call :=
| Wave_plate (h v : nat) (theta phi : R)
| Half_wave_plate (h v : nat) (angle : R)
| Half_wave_plate_45 (h v : nat)
| Half_wave_plate_225 (h v : nat)
| Quarter_wave_plate (h v : nat) (angle : R)
| Quarter_wave_plate_45 (h v : nat)
| Quarter_wave_plate_225 (h v : nat)
| Phase_shift (c : nat) (phi : R)
| Swap (a b : nat)
| Mix_50_50 (a b : nat)
| Mix_generic (a b : nat) (refl transm : R)
| Polarizing_bs (a0 a1 b0 b1 : nat)
| Non_polarizing_50_50 (a0 a1 b0 b1 : nat)
| Non_polarizing (a0 a1 b0 b1 : nat) (refl transm : R).

(** mix_generic_refl_transm, lines 629-667; None: the exception for a sum different from 1,
    or math.sqrt of a negative number. *)
Definition mix_generic (a b : nat) (refl transm : R) : option gate :=
  if Req_EM_T (refl + transm) 1 then
    if Rle_dec 0 refl then
      if Rle_dec 0 transm then
        Some (generic_matrix (atan2_pos (sqrt refl) (sqrt transm)) PI, [a; b])
      else None
    else None
  else None.

(** swap, lines 561-594: the channels are sorted first. *)
Definition swap_gate (a b : nat) : gate :=
  (generic_matrix (PI / 4) PI, if b <? a then [b; a] else [a; b]).

(** Nodes appended to the node list by each method: wave_plate 203-240,
    half_wave_plate 312-346, half_wave_plate_45 348-380, half_wave_plate_225 382-414,
    quarter_wave_plate 416-450, quarter_wave_plate_45 452-484, quarter_wave_plate_225
    486-517, phase_shift_single_channel 519-558, swap 561-594, mix_50_50 596-627,
    mix_generic_refl_transm 629-667, polarizing_beamsplitter 669-702,
    non_polarizing_50_50_beamsplitter 704-750, non_polarizing_beamsplitter 242-310.
    The node_info dictionaries (drawing only) are not modelled. *)
Definition gates_of (n : nat) (c : optical_call) : option (list gate) :=
  match c with
  | Wave_plate h v theta phi => Some [(generic_matrix theta phi, [h; v])]
  | Half_wave_plate h v angle => Some [(generic_matrix angle PI, [h; v])]
  | Half_wave_plate_45 h v => Some [(generic_matrix (PI / 4) PI, [h; v])]
  | Half_wave_plate_225 h v => Some [(generic_matrix (PI / 8) PI, [h; v])]
  | Quarter_wave_plate h v angle => Some [(generic_matrix angle (PI / 2), [h; v])]
  | Quarter_wave_plate_45 h v => Some [(generic_matrix (PI / 4) (PI / 2), [h; v])]
  | Quarter_wave_plate_225 h v => Some [(generic_matrix (PI / 8) (PI / 2), [h; v])]
  | Phase_shift c phi => Some [(generic_matrix 0 phi, if c =? 0 then [1; 0] else [0; c])]
  | Swap a b => Some [swap_gate a b]
  | Mix_50_50 a b => Some [(generic_matrix (PI / 8) PI, [a; b])]
  | Mix_generic a b r t => option_map (fun g => [g]) (mix_generic a b r t)
  | Polarizing_bs a0 a1 b0 b1 => if n <? 4 then None else Some [swap_gate a1 b1]
  | Non_polarizing_50_50 a0 a1 b0 b1 =>
      if n <? 4 then None
      else Some [(generic_matrix (PI / 8) PI, [a0; b0]); (generic_matrix (PI / 8) PI, [a1; b1])]
  | Non_polarizing a0 a1 b0 b1 r t =>
      if n <? 4 then None
      else match mix_generic a0 b0 r t, mix_generic a1 b1 r t with
           | Some g, Some g' => Some [g; g']
           | _, _ => None
           end
  end.

(** The Fock matrix of a circuit built by a sequence of such calls. *)
(** optical_nodes.py:203-750 in a row. *)
Fixpoint gates_of_calls (n : nat) (cs : list optical_call) : option (list gate) :=
  match cs with
  | [] => Some []
  | c :: r => match gates_of n c, gates_of_calls n r with
              | Some g, Some g' => Some (g ++ g')
              | _, _ => None
              end
  end.
(** circuit.py:956-970 after optical_nodes.py:203-750. *)
Definition calls_matrix (D : dims) (cs : list optical_call) : option mat :=
  match gates_of_calls (dN D) cs with
  | Some gs => circuit_matrix D gs
  | None => None
  end.
