(** Specification of experiments with the quick time delay. *)
From Coq Require Import Reals List Arith Bool.
From Coquelicot Require Import Complex.
From Verif Require Import Prelude NamesModel NamesSpec FockModel FockSpec StateModel StateSpec CollectionModel EvalModel ColumnModel ColumnSpec TemporalSpec InterferenceSpec ExperimentSpec.
Import ListNotations.

(** The amplitude with which the photon numbers [from] become the photon numbers [to]. *)
Definition number_amplitude (U : nat -> nat -> C) (from to : values) : C :=
  (permanent U from to / RtoC (sqrt (INR (factorials from)) * sqrt (INR (factorials to))))%C.

(** No amplitude between photon numbers falls below the threshold of the circuit, except zero. *)
Definition clear_amplitudes (D : dims) (eps : R) (es : list optic) : Prop :=
  forall v u, length v = dN D -> length u = dN D -> photons v = photons u -> photons v < dL D ->
    number_amplitude (transfer (dN D) es) v u = RtoC 0 \/ (eps <= Cnorm2 (number_amplitude (transfer (dN D) es) v u))%R.
(** Photon numbers that are sent to one outcome with certainty get no phase. *)
Definition no_certain_phase (D : dims) (es : list optic) : Prop :=
  forall v u, length v = dN D -> length u = dN D -> photons v = photons u -> photons v < dL D ->
    Cnorm2 (number_amplitude (transfer (dN D) es) v u) = 1%R -> number_amplitude (transfer (dN D) es) v u = RtoC 1.

(** What the quick time delay is said to compute: with the probability of the overlap [ov] the photons
    arrive together, and otherwise far apart (200 pulse widths). *)
Definition quick_detection (D : dims) (es : list optic) (chs : list nat) (ov : R) (st : state) (opt o : list nat) : R :=
  (ov * outcome_detection (dL D) (dN D) (sent_branches D es chs 0 1 st) opt o
   + (1 - ov) * outcome_detection (dL D) (dN D) (sent_branches D es chs 200 1 st) opt o)%R.
