(** What no circuit can do: copy states, or learn something about them without changing them. *)
From Coq Require Import Reals List Arith Bool.
From Coquelicot Require Import Complex.
From Verif Require Import Prelude NamesModel NamesSpec FockModel StateModel StateSpec CollectionModel EvalModel MeasureSpec
  InterferenceSpec OpticalModel CircuitSpec ProtocolSpec TsirelsonSpec ProgramModel DistinguishSpec.
Import ListNotations.

(** The inner product of two wave functions of [n] channels. *)
Definition scalar (L n : nat) (u v : values -> C) : C := Csum (tuples L n) (fun f => u f * Cconj (v f))%C.
Definition normalised (L n : nat) (u : values -> C) : Prop := scalar L n u u = RtoC 1.
Definition same_up_to_phase (L n : nat) (u v : values -> C) : Prop :=
  exists c : C, Cnorm2 c = 1%R /\ forall f, In f (tuples L n) -> u f = (c * v f)%C.

(** The first [n] channels hold [psi], and the others [blank]. *)
Definition holds (D : dims) (n : nat) (psi blank : values -> C) (st : state) : Prop :=
  forall f, valid D f -> amp_of D st f = (psi (firstn n f) * blank (skipn n f))%C.
(** The first [n] channels hold [psi] and the next [n] hold it too; the others hold anything. *)
Definition holds_twice (D : dims) (n : nat) (psi : values -> C) (st : state) : Prop :=
  exists rest : values -> C, forall f, valid D f ->
    amp_of D st f = (psi (firstn n f) * psi (firstn n (skipn n f)) * rest (skipn (n + n) f))%C.
(** The state is unchanged up to a phase. *)
Definition undisturbed (D : dims) (st st' : state) : Prop :=
  exists c : C, Cnorm2 c = 1%R /\ forall f, valid D f -> amp_of D st' f = (c * amp_of D st f)%C.

(** The number state [a]. *)
Definition number_state (a : values) : values -> C := fun f => if leqb f a then RtoC 1 else RtoC 0.
Definition copy_numbers (n : nat) : list instruction := [Control_shift (seq 0 n) (seq n n)].
