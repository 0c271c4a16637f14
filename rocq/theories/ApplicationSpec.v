(** Experiments of the documentation and of the test-suite, for all settings. *)
From Coq Require Import Reals List Arith Bool ZArith.
From Coquelicot Require Import Complex.
From Verif Require Import Prelude NamesModel NamesSpec FockModel FockSpec OpticalModel StateModel StateSpec
  CollectionModel EvalModel MeasureSpec InterferenceSpec CircuitSpec ProgramModel ProgramSpec.
Import ListNotations.

(** The wave function with the listed amplitudes. *)
Definition wave_of (l : list (values * C)) : values -> C := fun g => Csum l (fun p => if leqb g (fst p) then snd p else RtoC 0).
(** A state of the collection with the label [lab], found under no other key, with the given values in the
    classical channels and the given amplitudes. *)
Definition prepared (D : dims) (its : items) (lab : ident) (st : state) (reg : list R) (l : list (values * C)) : Prop :=
  (exists k, In (k, st) its) /\ s_init st = lab /\ (forall k k' st1 st2, In (k, st1) its -> In (k', st2) its -> s_init st1 = lab -> s_init st2 = lab -> k = k') /\
  s_classical st = reg /\ forall f, valid D f -> amp_of D st f = wave_of l f.

(** The weight of the states of a collection that have the label [lab] and whose classical channels have
    the property [P]: what a user finds with filter_on_initial_state, filter_on_classical_channel and a sum
    over cumulative_probability. *)
Definition weight_where (its : items) (lab : ident) (P : list R -> bool) : R :=
  Rsum its (fun it => if leqb (s_init (snd it)) lab && P (s_classical (snd it)) then s_cum (snd it) else 0%R).
Definition shows (c : nat) (x : R) (r : list R) : bool := if Req_EM_T (nth c r 0%R) x then true else false.

(** A photon with polarisation: horizontal (true) or vertical (false). *)
Definition pol (b : bool) : list nat := if b then [1; 0] else [0; 1].
Definition both : list bool := [true; false].
(** The entry of the matrix of a wave plate: from polarisation [i] to polarisation [m]. *)
Definition entry (A : mat2) (m i : bool) : C := match m, i with true, true => m00 A | true, false => m01 A | false, true => m10 A | false, false => m11 A end.

(** ** The Bell experiment: tests/test_fock_state_circuit_applications.py:347-413 and the tutorials *)
Definition bell_test : list instruction := [Plate_by 0 1 0 3; Plate_by 2 3 1 3; Detectors [0; 2] [4; 5]].
(** Two photons with the amplitude [c i j] for the polarisations [i] and [j]. *)
Definition photon_pair (c : bool -> bool -> C) : list (values * C) :=
  flat_map (fun i => map (fun j => (pol i ++ pol j, c i j)) both) both.
Definition count (b : bool) : R := if b then 1%R else 0%R.
(** The entangled state (|HH> + |VV>)/sqrt 2. *)
Definition entangled (i j : bool) : C := if Bool.eqb i j then RtoC (/ sqrt 2) else RtoC 0.
(** The correlation as computed in the test: 2 (p00 + p11) - 1. *)
Definition correlation (out : items) (lab : ident) : R :=
  (2 * (weight_where out lab (fun r => shows 4 1 r && shows 5 1 r) + weight_where out lab (fun r => shows 4 0 r && shows 5 0 r)) - 1)%R.

(** ** Teleportation: docs/Quantum Teleportation with FockStateCircuit.ipynb *)
Definition is_list (a b : list R) : bool := if list_eq_dec Req_EM_T a b then true else false.
(** define_communication_bits *)
Definition define_communication_bits (input : list R) (new_values : list R) (affected : list nat) : list R :=
  let four := map (fun c => nth c input 0%R) [2; 3; 4; 5] in
  let set x y := set_nth (set_nth input 6 x) 7 y in
  if is_list four [1; 1; 0; 0]%R then set 0%R 0%R
  else if is_list four [0; 0; 1; 1]%R then set 0%R 0%R
  else if is_list four [0; 1; 1; 0]%R then set 0%R 1%R
  else if is_list four [1; 0; 0; 1]%R then set 0%R 1%R
  else set 1%R 1%R.
(** determine_wave_plate_settings; it reads the channels 7 and 8 (input_list[7:9]). *)
Definition determine_wave_plate_settings (input : list R) (new_values : list R) (affected : list nat) : list R :=
  let bits := map (fun c => nth c input 0%R) [7; 8] in
  let set x y := set_nth (set_nth input 8 x) 9 y in
  if is_list bits [0; 0]%R then set 0%R PI else set 0%R 0%R.
(** reverse_angles *)
Definition reverse_angles (input : list R) (new_values : list R) (affected : list nat) : list R :=
  set_nth input 13 (- nth 13 input 0)%R.
Definition teleportation : list instruction :=
  [Plate_by 2 3 12 13; Optics (Non_polarizing_50_50 2 3 4 5); Detectors [2; 3; 4; 5] [2; 3; 4; 5];
   Calculate define_communication_bits [] []; Calculate determine_wave_plate_settings [] []; Plate_by 6 7 8 9;
   Calculate reverse_angles [] []; Plate_by 6 7 12 13; Detectors [6; 7] [10; 11]; Detectors [0; 1] [0; 1]].
(** Any photon numbers [k] in the channels 0 and 1, entangled with the source photon in the channels 2 and
    3: the amplitude is [c k s]; and a pair in the state (|HV> - |VH>)/sqrt 2 in the channels 4 to 7. *)
Definition source_and_pair (cs : list (nat * nat)) (c : nat * nat -> bool -> C) : list (values * C) :=
  flat_map (fun k => flat_map (fun s => [(fst k :: snd k :: pol s ++ [1; 0; 0; 1], (c k s * RtoC (/ sqrt 2))%C);
                                         (fst k :: snd k :: pol s ++ [0; 1; 1; 0], (- (c k s * RtoC (/ sqrt 2)))%C)]) both) cs.

(** ** Three photons: docs/GHZ simulation with FockStateCircuit.ipynb *)
Definition ghz_experiment : list instruction :=
  [Optics (Polarizing_bs 0 1 6 7); Optics (Non_polarizing_50_50 2 3 4 5); Optics (Half_wave_plate_225 7 6); Optics (Polarizing_bs 6 7 4 5);
   Plate_by 4 5 8 9; Optics (Half_wave_plate 6 7 (PI / 8)); Optics (Half_wave_plate 2 3 (PI / 8));
   Detectors [0; 1; 2; 3; 4; 5; 6; 7] [0; 1; 6; 7; 2; 3; 4; 5]].
(** Two pairs of photons, |11110000>. *)
Definition two_pairs : list (values * C) := [([1; 1; 1; 1; 0; 0; 0; 0], RtoC 1)].
(** The state (|HHV> + |VVH>)/sqrt 2 of the photons at the detectors 1, 2 and 3. *)
Definition ghz (i j k : bool) : C := if Bool.eqb i j && Bool.eqb k (negb i) then RtoC (/ sqrt 2) else RtoC 0.
(** One photon with the given polarisation at each of the three detectors, and a horizontal one at the trigger. *)
Definition coincidence (m1 m2 m3 : bool) (r : list R) : bool :=
  forallb (fun p => shows (fst p) (snd p) r)
    [(0, 1%R); (1, 0%R); (2, count m1); (3, count (negb m1)); (4, count m2); (5, count (negb m2)); (6, count m3); (7, count (negb m3))].
