(** What the calls mean. *)
From Coq Require Import Reals List Arith Bool Permutation ZArith.
From Coquelicot Require Import Complex.
From Verif Require Import Prelude NamesModel NamesSpec FockModel FockSpec OpticalModel StateModel StateSpec
  CollectionModel EvalModel MeasureSpec InterferenceSpec CircuitSpec CustomSpec ProgramModel.
Import ListNotations.

(** A wave plate with angle [theta] and phase [phi] in the channels [h] and [v]. *)
Definition plate (theta phi : R) (h v : nat) : operation := Element (fun _ => generic_matrix theta phi) h v.
(** A channel to do the phase shift of channel [c] with. *)
Definition partner (c : nat) : nat := if c =? 0 then 1 else 0.
Definition crossing (a b : nat) : operation := plate (PI / 4) PI (Nat.min a b) (Nat.max a b).
Definition mixing (r t : R) (a b : nat) : operation := plate (atan2_pos (sqrt r) (sqrt t)) PI a b.

Definition optics_meaning (call : optical_call) : list operation :=
  match call with
  | Wave_plate h v theta phi => [plate theta phi h v]
  | Half_wave_plate h v angle => [plate angle PI h v]
  | Half_wave_plate_45 h v => [plate (PI / 4) PI h v]
  | Half_wave_plate_225 h v => [plate (PI / 8) PI h v]
  | Quarter_wave_plate h v angle => [plate angle (PI / 2) h v]
  | Quarter_wave_plate_45 h v => [plate (PI / 4) (PI / 2) h v]
  | Quarter_wave_plate_225 h v => [plate (PI / 8) (PI / 2) h v]
  | Phase_shift c phi => [plate 0 phi (partner c) c]
  | Swap a b => [crossing a b]
  | Mix_50_50 a b => [plate (PI / 8) PI a b]
  | Mix_generic a b r t => [mixing r t a b]
  | Polarizing_bs a0 a1 b0 b1 => [crossing a1 b1]
  | Non_polarizing_50_50 a0 a1 b0 b1 => [plate (PI / 8) PI a0 b0; plate (PI / 8) PI a1 b1]
  | Non_polarizing a0 a1 b0 b1 r t => [mixing r t a0 b0; mixing r t a1 b1]
  end.

(** The register with the listed channels set to the listed values. *)
Fixpoint assigned_at (chs : list nat) (vals : list R) (c : nat) : option R :=
  match chs, vals with
  | c' :: chs', x :: vals' => if c' =? c then Some x else assigned_at chs' vals' c
  | _, _ => None
  end.
Definition assigned (chs : list nat) (vals : list R) (reg : list R) : list R :=
  map (fun c => match assigned_at chs vals c with Some x => x | None => nth c reg 0%R end) (seq 0 (length reg)).

(** Every photon number tuple becomes another one. *)
Definition relabel (F : values -> values) : operation := Transform (fun f g => if leqb g (F f) then RtoC 1 else RtoC 0).
Definition shift_of (L : nat) (pairs : list (Z * nat)) (f : values) : values :=
  map (fun c => Z.to_nat ((Z.of_nat (nth c f 0) + total_shift pairs c) mod Z.of_nat L)) (seq 0 (length f)).
Definition sum_of (L : nat) (pairs : list (nat * nat)) (f : values) : values :=
  map (fun c => (nth c f 0 + total_control pairs f c) mod L) (seq 0 (length f)).

Definition meaning (D : dims) (i : instruction) : list operation :=
  match i with
  | Optics call => optics_meaning call
  | Phase_by c cl => [Element (fun reg => generic_matrix 0 (nth cl reg 0%R)) (partner c) c]
  | Plate_by h v ct cp => [Element (fun reg => generic_matrix (nth ct reg 0%R) (nth cp reg 0%R)) h v]
  | Set_channels vals chs => [Compute (assigned chs vals)]
  | Calculate f nv chs => [Compute (fun reg => f reg nv chs)]
  | Detectors opt cl => [Detect opt cl]
  | Shift_by targets shifts => [relabel (shift_of (dL D) (combine shifts targets))]
  | Control_shift controls targets => [relabel (sum_of (dL D) (combine controls targets))]
  | Custom_element A h v => [Element (fun _ => mat2_tr A) h v]
  | Custom_matrix M => [Transform (fun f g => M (index_of_values D g) (index_of_values D f))]
  end.

(** What the checks of the package leave to the user: an element between channel 0 and a channel above 1
    names channel 0 first (C05), classical channels that control something exist, no classical channel is
    written twice by one call, a function returns a value for every classical channel, no channel of a controlled shift is both control and target,
    a matrix given by the user is unitary. A matrix for two channels acts transposed (C09); the rows and columns of a
    matrix for the whole state are numbered as the tuples, the first channel counting fastest (C01). *)
Definition in_order (h v : nat) : Prop := v = 0 -> h = 1.
Definition careful (D : dims) (ncl : nat) (i : instruction) : Prop :=
  match i with
  | Optics (Wave_plate h v _ _) | Optics (Half_wave_plate h v _) | Optics (Half_wave_plate_45 h v) | Optics (Half_wave_plate_225 h v)
  | Optics (Quarter_wave_plate h v _) | Optics (Quarter_wave_plate_45 h v) | Optics (Quarter_wave_plate_225 h v)
  | Optics (Mix_50_50 h v) | Optics (Mix_generic h v _ _) => in_order h v
  | Optics (Non_polarizing_50_50 a0 a1 b0 b1) | Optics (Non_polarizing a0 a1 b0 b1 _ _) => in_order a0 b0 /\ in_order a1 b1
  | Optics (Phase_shift _ _) | Optics (Swap _ _) | Optics (Polarizing_bs _ _ _ _) => True
  | Phase_by _ cl => cl < ncl
  | Plate_by h v ct cp => in_order h v /\ ct < ncl /\ cp < ncl
  | Set_channels _ chs => NoDup chs
  | Calculate f nv chs => forall reg, length reg = ncl -> length (f reg nv chs) = ncl
  | Detectors _ cl => NoDup cl
  | Shift_by _ _ => True
  | Control_shift controls targets => forall p q, In p (combine controls targets) -> In q (combine controls targets) -> fst p <> snd q
  | Custom_element A h v => unitary2 A /\ in_order h v
  | Custom_matrix M => unitary_mat (size_of_basis D) M
  end.
