(** Vocabulary for negative channel numbers. *)
From Coq Require Import List Arith ZArith.
Import ListNotations.

(** The number z names channel c of n channels: as it is, or counted from the end (-1 is the last
    channel). *)
Definition names_channel (n : nat) (z : Z) (c : nat) : Prop :=
  c < n /\ (z = Z.of_nat c \/ z = (Z.of_nat c - Z.of_nat n)%Z).

(** The number names no channel. *)
Definition names_none (n : nat) (z : Z) : Prop := (z < - Z.of_nat n \/ Z.of_nat n <= z)%Z.
