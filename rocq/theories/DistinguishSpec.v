(** Telling two states apart. *)
From Coq Require Import Reals List Arith Bool.
From Coquelicot Require Import Complex.
From Verif Require Import Prelude NamesModel NamesSpec FockModel StateModel StateSpec CollectionModel EvalModel MeasureSpec
  InterferenceSpec OpticalModel CircuitSpec ProtocolSpec TsirelsonSpec ProgramModel.
Import ListNotations.

(** The inner product of two states. *)
Definition overlap (D : dims) (st st2 : state) : C := Csum (basis D) (fun f => amp_of D st f * Cconj (amp_of D st2 f))%C.
(** The squared distance between two states. *)
Definition distance2 (D : dims) (st st2 : state) : R := Rsum (basis D) (fun f => Cnorm2 (amp_of D st f - amp_of D st2 f)%C).

(** Someone sees nothing but the classical values of a result and has to say whether the input was the one
    labelled [l1] or the one labelled [l2]; [guess r] is the probability of saying [l1] after seeing [r]. *)
Definition says (out : items) (l : ident) (guess : list R -> R) : R :=
  Rsum (from l out) (fun it => s_cum (snd it) * guess (s_classical (snd it)))%R.
Definition success (out : items) (l1 l2 : ident) (guess : list R -> R) : R :=
  (says out l1 guess + says out l2 (fun r => 1 - guess r))%R.
Definition guessing (ncl : nat) (guess : list R -> R) : Prop := forall r, length r = ncl -> (0 <= guess r <= 1)%R.

(** The collection contains one state with the label [l]. *)
Definition only (its : items) (l : ident) (st : state) : Prop := exists i, from l its = [(i, st)].

(** A photon with a linear polarisation, and the measurement of it between the two axes. *)
Definition photon_at (t : R) : list (values * C) := [([1; 0], RtoC (cos t)); ([0; 1], RtoC (sin t))].
Definition diagonal_test : list instruction := [Optics (Half_wave_plate_225 0 1); Detectors [0] [0]].
