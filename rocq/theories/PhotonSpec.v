(** The number of photons in a whole circuit. *)
From Coq Require Import Reals List Arith Bool.
From Coquelicot Require Import Complex.
From Verif Require Import Prelude NamesModel NamesSpec FockModel StateModel StateSpec CollectionModel EvalModel MeasureSpec
  InterferenceSpec CircuitSpec ProgramModel.
Import ListNotations.

(** All photons of a component. *)
Definition photons (f : values) : nat := list_sum f.

(** The probability that a state with label [l] contains [n] photons. *)
Definition photon_prob (D : dims) (its : items) (l : ident) (n : nat) : R :=
  Rsum its (fun it => if leqb (s_init (snd it)) l
                      then (s_cum (snd it) * Rsum (basis D) (fun f => if photons f =? n then Cnorm2 (amp_of D (snd it) f) else 0))%R else 0%R).

(** Calls that neither create nor destroy photons: everything but the shifts and
    matrices for the whole state given by the user. *)
Definition no_shift (i : instruction) : Prop :=
  match i with Shift_by _ _ | Control_shift _ _ | Custom_matrix _ => False | _ => True end.

(** A component of an input state with the same label as a result. *)
Definition comes_from (D : dims) (its : items) (l : ident) (f0 : values) : Prop :=
  exists it, In it its /\ s_init (snd it) = l /\ valid D f0 /\ amp_of D (snd it) f0 <> RtoC 0.

(** The sum of the values in some classical channels. *)
Definition sum_in (cl : list nat) (reg : list R) : R := fold_right Rplus 0%R (map (fun c => nth c reg 0%R) cl).

(** Two collections that differ at most in the phases between components with different numbers of photons. *)
Definition same_within_numbers (D : dims) (its its2 : items) : Prop :=
  forall l r f g, valid D f -> valid D g -> photons f = photons g -> density_matrix D its l r f g = density_matrix D its2 l r f g.
