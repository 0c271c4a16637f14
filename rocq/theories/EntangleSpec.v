(** How entangled two groups of channels are: the number of products needed to write the state. *)
From Coq Require Import Reals List Arith Bool Permutation.
From Coquelicot Require Import Complex.
From Verif Require Import Prelude NamesModel NamesSpec FockModel FockSpec OpticalModel StateModel StateSpec
  CollectionModel EvalModel MeasureSpec InterferenceSpec CircuitSpec ProtocolSpec ProgramModel ProgramSpec.
Import ListNotations.

(** The amplitude [u] looks only at the photon numbers of the channels [here]. *)
Definition looks_at (D : dims) (here : nat -> bool) (u : values -> C) : Prop :=
  forall f g, valid D f -> valid D g -> (forall c, c < dN D -> here c = true -> nth c f 0 = nth c g 0) -> u f = u g.
Definition others (here : nat -> bool) (c : nat) : bool := negb (here c).
(** The state is a sum of at most [k] products of a factor for the channels [here] and a factor for the
    other channels. With k = 1: a product state. *)
Definition sum_of_products (D : dims) (here : nat -> bool) (k : nat) (st : state) : Prop :=
  exists terms : list ((values -> C) * (values -> C)), length terms <= k /\
    Forall (fun t => looks_at D here (fst t) /\ looks_at D (others here) (snd t)) terms /\
    forall f, valid D f -> amp_of D st f = Csum terms (fun t => fst t f * snd t f)%C.

(** Local operations and classical communication: an element has both channels on one side, and may be
    chosen by anything in the classical channels; photons can be counted on both sides; a transformation
    happens on one side. *)
Definition local_operation (D : dims) (here : nat -> bool) (op : operation) : Prop :=
  match op with
  | Element _ h v => here h = here v /\ h <> v /\ h < dN D /\ v < dN D
  | Transform T => acts_in D here T \/ acts_in D (others here) T
  | Compute _ => True
  | Detect _ _ => True
  end.
(** The tuples [f] and [g] with the photon numbers of the channels [here] exchanged: this is [f] with those of
    [g]. *)
Definition with_here (D : dims) (here : nat -> bool) (f g : values) : values :=
  map (fun c => if here c then nth c g 0 else nth c f 0) (seq 0 (dN D)).

(** The channels a call works on. A phase shift also works on channel 0 (or on channel 1, for the phase of
    channel 0): see C63. *)
Definition optics_channels (call : optical_call) : list nat :=
  match call with
  | Wave_plate h v _ _ | Half_wave_plate h v _ | Half_wave_plate_45 h v | Half_wave_plate_225 h v
  | Quarter_wave_plate h v _ | Quarter_wave_plate_45 h v | Quarter_wave_plate_225 h v
  | Swap h v | Mix_50_50 h v | Mix_generic h v _ _ => [h; v]
  | Phase_shift c _ => [partner c; c]
  | Polarizing_bs a0 a1 b0 b1 | Non_polarizing_50_50 a0 a1 b0 b1 | Non_polarizing a0 a1 b0 b1 _ _ => [a0; a1; b0; b1]
  end.
Definition instruction_channels (i : instruction) : list nat :=
  match i with
  | Optics call => optics_channels call
  | Phase_by c _ => [partner c; c]
  | Plate_by h v _ _ => [h; v]
  | Shift_by targets _ => targets
  | Control_shift controls targets => controls ++ targets
  | Custom_element _ h v => [h; v]
  | Set_channels _ _ | Calculate _ _ _ | Detectors _ _ | Custom_matrix _ => []
  end.
(** The call works on one side only; a matrix for the whole state happens on one side. *)
Definition on_one_side (D : dims) (here : nat -> bool) (i : instruction) : Prop :=
  ((forall c, In c (instruction_channels i) -> here c = true) \/ (forall c, In c (instruction_channels i) -> here c = false)) /\
  match i with
  | Custom_matrix M => let T f g := M (index_of_values D g) (index_of_values D f) in acts_in D here T \/ acts_in D (others here) T
  | _ => True
  end.
