(** Undoing what a circuit did, call by call. *)
From Coq Require Import Reals List Arith Bool ZArith.
From Coquelicot Require Import Complex.
From Verif Require Import Prelude NamesModel FockModel OpticalModel ProgramModel.
Import ListNotations.

(** Changing the sign of the value in a classical channel. *)
Definition negate (cl : nat) : instruction :=
  Calculate (fun reg _ _ => map (fun c => if c =? cl then (- nth c reg 0)%R else nth c reg 0%R) (seq 0 (length reg))) [] [cl].

(** The call that undoes an optical element: a wave plate with the opposite phase; half wave plates,
    crossings and mixers undo themselves; of two elements in a row the second is undone first. *)
Definition undo_optics (call : optical_call) : optical_call :=
  match call with
  | Wave_plate h v theta phi => Wave_plate h v theta (- phi)
  | Quarter_wave_plate h v angle => Wave_plate h v angle (- (PI / 2))
  | Quarter_wave_plate_45 h v => Wave_plate h v (PI / 4) (- (PI / 2))
  | Quarter_wave_plate_225 h v => Wave_plate h v (PI / 8) (- (PI / 2))
  | Phase_shift c phi => Phase_shift c (- phi)
  | Non_polarizing_50_50 a0 a1 b0 b1 => Non_polarizing_50_50 a1 a0 b1 b0
  | Non_polarizing a0 a1 b0 b1 r t => Non_polarizing a1 a0 b1 b0 r t
  | _ => call
  end.

(** The calls that undo a call. A classically controlled element is run again with the opposite phase; a
    controlled shift returns after as many applications as there are photon numbers; a unitary matrix is
    undone by its adjoint. *)
Definition undo_call (D : dims) (i : instruction) : list instruction :=
  match i with
  | Optics call => [Optics (undo_optics call)]
  | Phase_by c cl => [negate cl; Phase_by c cl; negate cl]
  | Plate_by h v ct cp => [negate cp; Plate_by h v ct cp; negate cp]
  | Shift_by targets shifts => [Shift_by targets (map Z.opp shifts)]
  | Control_shift controls targets => repeat (Control_shift controls targets) (dL D - 1)
  | Custom_element A h v => [Custom_element (Mat2 (Cconj (m00 A)) (Cconj (m10 A)) (Cconj (m01 A)) (Cconj (m11 A))) h v]
  | Custom_matrix M => [Custom_matrix (fun i j => Cconj (M j i))]
  | Set_channels _ _ | Calculate _ _ _ | Detectors _ _ => []
  end.
Definition undo (D : dims) (p : list instruction) : list instruction := flat_map (undo_call D) (rev p).

(** Which calls can be undone. *)
Definition reversible (i : instruction) : Prop :=
  match i with
  | Optics _ | Phase_by _ _ | Shift_by _ _ | Control_shift _ _ | Custom_element _ _ _ | Custom_matrix _ => True
  | Plate_by _ _ ct cp => ct <> cp
  | Set_channels _ _ | Calculate _ _ _ | Detectors _ _ => False
  end.
