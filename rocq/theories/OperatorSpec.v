(** Ladder operators, independent of the model: operators act on wave functions, functions from
    tuples of photon numbers (of unlimited size) to amplitudes. *)
From Coq Require Import Reals List Arith ZArith Bool.
From Coquelicot Require Import Complex.
From Verif Require Import Prelude NamesModel NamesSpec FockModel FockSpec StateModel StateSpec CollectionModel EvalModel OperatorModel.
Import ListNotations.

Definition wave := values -> C.

(** a^dagger |n> = sqrt(n+1) |n+1>, so the amplitude at n comes from n-1. *)
Definition creation (c : nat) (psi : wave) : wave := fun vs =>
  if nth c vs 0 =? 0 then RtoC 0 else (RtoC (sqrt (INR (nth c vs 0))) * psi (set_nth vs c (nth c vs 0 - 1)%nat))%C.
(** a |n> = sqrt(n) |n-1>, so the amplitude at n comes from n+1. *)
Definition annihilation (c : nat) (psi : wave) : wave := fun vs =>
  (RtoC (sqrt (INR (nth c vs 0 + 1))) * psi (set_nth vs c (nth c vs 0 + 1)%nat))%C.

(** The characters of an operator string act from left to right. *)
Fixpoint string_action (w : list (nat * command)) (psi : wave) : wave :=
  match w with
  | [] => psi
  | (c, Plus) :: r => string_action r (creation c psi)
  | (c, Minus) :: r => string_action r (annihilation c psi)
  | (_, Skip) :: r => string_action r psi
  end.

(** The Hamiltonian: the sum of the strings with their coefficients, restricted to photon numbers
    below the length [dL K]. *)
Definition contained (K : dims) (vs : values) : bool := (length vs =? dN K) && forallb (fun v => v <? dL K) vs.
Definition restricted (K : dims) (psi : wave) : wave := fun vs => if contained K vs then psi vs else RtoC 0.
Definition hamiltonian_action (K : dims) (chs : list nat) (ops : list (list command * C)) (psi : wave) : wave :=
  restricted K (fun vs => Csum ops (fun op => snd op * string_action (combine chs (fst op)) psi vs)%C).

(** The first [p] terms of the exponential series, 1 + H + H^2/2 + ... + H^(p-1)/(p-1)!. *)
Definition series_action (K : dims) (chs : list nat) (p : nat) (ops : list (list command * C)) (psi : wave) : wave :=
  fun vs => Csum (seq 0 p) (fun n => RtoC (/ INR (fact n)) * Nat.iter n (hamiltonian_action K chs ops) psi vs)%C.

(** The Hamiltonians of a list, the first one first. *)
Definition in_order (K : dims) (chs : list nat) (p : nat) (hs : list hamiltonian) (psi : wave) : wave :=
  fold_left (fun w h => series_action K chs p (h_operators h) w) hs psi.

(** What the transition matrix [T] (row = input, column = output) does with a wave function. *)
Definition matrix_action (K : dims) (T : mat) (psi : wave) : wave := fun vs =>
  if contained K vs
  then Csum (seq 0 (size_of_basis K)) (fun i => psi (values_from_index K i) * T i (index_of_values K vs))%C
  else RtoC 0.

(** A coefficient is used when the square of its absolute value, rounded to the nearest multiple of
    0.0001 (a tie to the even multiple), exceeds the threshold; [small_removed]: the matrix with the
    other coefficients replaced by 0. *)
Definition used (eps : R) (z : C) : Prop := exists k : Z,
  (Rabs (Cmod z - IZR k / 10000) <= 1 / 20000)%R /\
  (Rabs (Cmod z - IZR k / 10000) = 1 / 20000 -> Z.even k = true)%R /\
  (eps < (IZR k / 10000) * (IZR k / 10000))%R.
Definition small_removed (eps : R) (T T' : mat) : Prop := forall i o,
  (used eps (T i o) -> T' i o = T i o) /\ (~ used eps (T i o) -> T' i o = RtoC 0).

(** The photon numbers of a tuple in the selected channels. *)
Definition selected (chs : list nat) (vs : values) : values := map (fun c => nth c vs 0) chs.

(** [psi] gives the amplitudes of [st] for the tuples that agree with [to] outside the channels. *)
Definition slice_of (D K : dims) (st : state) (chs : list nat) (to : values) (psi : wave) : Prop :=
  (forall us, ~ valid K us -> psi us = RtoC 0) /\
  forall vs, valid D vs -> (forall c, ~ In c chs -> nth c vs 0 = nth c to 0) -> psi (selected chs vs) = amp_of D st vs.

(** The new state [st']: for every choice of the photon numbers in the other channels, the wave
    function of the selected channels is transformed by [action]. *)
Definition transformed (D K : dims) (chs : list nat) (action : wave -> wave) (st st' : state) : Prop :=
  same_but_components st st' /\ wf_state D st' /\ probs_ok st' /\
  forall to psi, valid D to -> slice_of D K st chs to psi -> amp_of D st' to = action psi (selected chs to).
