(** Specification vocabulary for photon-resolved states. *)
From Coq Require Import Reals List Arith Bool.
From Coquelicot Require Import Complex.
From Verif Require Import Prelude NamesModel NamesSpec FockModel StateModel StateSpec.
Import ListNotations.

(** The product of the factorials of the photon numbers. *)
Fixpoint factorials (vs : values) : nat :=
  match vs with [] => 1 | v :: r => fact v * factorials r end.

(** The photon numbers of [n] channels when there is one photon in every listed channel. *)
Definition occupation (n : nat) (channels : list nat) : values :=
  map (count_occ Nat.eq_dec channels) (seq 0 n).
