(** Specification vocabulary for names, tuples and look-up histories. *)
From Coq Require Import List Arith Lia Bool.
From Verif Require Import Prelude NamesModel.
Import ListNotations.

(** A tuple of photon numbers that exists in a circuit of shape [D]: one entry per
    channel, each below length_of_fock_state. *)
Definition valid (D : dims) (vs : values) : Prop :=
  length vs = dN D /\ Forall (fun v => v < dL D) vs.

(** A look-up of an existing component by its proper name or its photon numbers,
    or an enumeration of the basis. *)
Definition well_formed_lookup (D : dims) (o : name_op) : Prop :=
  match o with
  | OpName nm | OpContains nm | OpIndex nm =>
      exists vs, valid D vs /\ name_of_values D vs = Some nm
  | OpValues vs => valid D vs
  | OpNameKeys | OpValueKeys => True
  end.

(** Total number of photons of a tuple. *)
Fixpoint photons (vs : values) : nat :=
  match vs with [] => 0 | v :: r => v + photons r end.
