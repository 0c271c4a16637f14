(** Exponentials of Hamiltonians that are quadratic in the ladder operators, independent of the
    model: a family of one-photon matrices U(t) = exp(t G), described by its differential equation. *)
From Coq Require Import Reals List Arith.
From Coquelicot Require Import Coquelicot.
From Verif Require Import Prelude NamesModel FockModel FockSpec NamesSpec StateModel StateSpec CollectionModel EvalModel OperatorModel.
Import ListNotations.

(** Derivative of a complex valued function of a real variable. *)
Definition cderiv (f : R -> C) (t : R) (l : C) : Prop :=
  is_derive (fun x => fst (f x)) t (fst l) /\ is_derive (fun x => snd (f x)) t (snd l).

(** U(t) = exp(t G): U(0) = 1 and U' = G U. *)
Definition flow (G : mat2) (U : R -> mat2) : Prop :=
  U 0%R = mat2_id /\ forall t,
    cderiv (fun x => m00 (U x)) t (m00 (mat2_mul G (U t))) /\ cderiv (fun x => m01 (U x)) t (m01 (mat2_mul G (U t))) /\
    cderiv (fun x => m10 (U x)) t (m10 (mat2_mul G (U t))) /\ cderiv (fun x => m11 (U x)) t (m11 (mat2_mul G (U t))).

(** The Hamiltonian g00 a0* a0 + g01 a0* a1 + g10 a1* a0 + g11 a1* a1 (the annihilation operator
    acts first), as operator strings for two channels. *)
Definition quadratic (G : mat2) : hamiltonian :=
  Ham [([Minus;Plus;Skip;Skip], m00 G); ([Plus;Skip;Minus;Skip], m01 G);
       ([Minus;Skip;Plus;Skip], m10 G); ([Skip;Skip;Minus;Plus], m11 G)] [0;0;1;1].

(** The error of [k] truncated exponentials (terms up to [power] - 1) of generators bounded by [x], on
    [N] photons. *)
Definition series_error (N k power : nat) (x : R) : R :=
  let delta := (x ^ power / INR (fact power))%R in
  (INR k * INR (S N) ^ k * delta * (1 + delta) ^ k)%R.

(** The state [st'] is, up to an error, what the matrix [M] makes of [st]: for every outcome with
    [N] < L photons in the channels h and v the amplitudes differ by at most [error N]. *)
Definition close_to_gate (D : dims) (h v : nat) (M : mat) (error : nat -> R) (st st' : state) : Prop :=
  same_but_components st st' /\ wf_state D st' /\ probs_ok st' /\
  forall to, valid D to -> nth h to 0 + nth v to 0 < dL D ->
    (Cmod (amp_of D st' to - Csum (map (values_from_index D) (seq 0 (size_of_basis D))%nat) (fun from => M (index_of_values D to) (index_of_values D from) * amp_of D st from))%C
     <= error (nth h to 0 + nth v to 0)%nat)%R.

(** 25 terms of the series, coefficients of absolute value up to sqrt(eps) + 1/20000 dropped, and
    N + 1 ways to distribute the photons. *)
Definition plate_error (eps b : R) (N : nat) : R :=
  (INR (N + 1) * (series_error N 4 25 (b * INR (N + 1)) + (sqrt eps + 1 / 20000)))%R.
