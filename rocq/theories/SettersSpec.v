(** Specification vocabulary for creating, changing and comparing states. *)
From Coq Require Import Reals List Arith Bool.
From Coquelicot Require Import Complex.
From Verif Require Import Prelude NamesModel NamesSpec FockModel StateModel StateSpec SettersModel.
Import ListNotations.

(** The string [nm] is the name of a component of the circuit. *)
Definition names_component (D : dims) (nm : name) : Prop := exists vs, valid D vs /\ nm = name_string D vs.

(** The sum of the amplitudes a list of (name, amplitude) gives to [nm]. *)
Definition total_amplitude (l : list (name * C)) (nm : name) : C :=
  Csum l (fun na => if leqb (fst na) nm then snd na else RtoC 0).

(** What a valid state is: probabilities between 0 and 1 up to the threshold, one value per
    classical channel. *)
Definition valid_state (eps : R) (ncl : nat) (st : state) : Prop :=
  (- eps <= s_cum st <= 1 + eps)%R /\
  (forall nm a p, In (nm, (a, p)) (s_comps st) -> (- eps <= p <= 1 + eps)%R) /\
  length (s_classical st) = ncl.

(** The component with most photons has [n] photons. *)
Definition most_photons (D : dims) (st : state) (n : nat) : Prop :=
  (exists nm ap, In (nm, ap) (s_comps st) /\ photons (values_of_name D nm) = n) /\
  (forall nm ap, In (nm, ap) (s_comps st) -> photons (values_of_name D nm) <= n).

(** A state agrees with a dictionary: the given keys have the given values, the others the default. *)
Definition key_is {A} (given : option A) (default actual : A) : Prop :=
  match given with Some x => actual = x | None => actual = default end.
Definition built_from (D : dims) (ncl : nat) (d : state_dict) (st : state) : Prop :=
  key_is (d_init d) (map (fun k => 48 + k) (name_string D (repeat 0 (dN D)))) (s_init st) /\
  key_is (d_cum d) 1%R (s_cum st) /\
  key_is (d_comps d) [(name_string D (repeat 0 (dN D)), (Some (RtoC 1), Some 1%R))]
         (map (fun c => (fst c, (Some (fst (snd c)), Some (snd (snd c))))) (s_comps st)) /\
  key_is (d_classical d) (repeat 0%R ncl) (s_classical st) /\
  key_is (d_results d) [] (s_results st) /\ key_is (d_aux d) [] (s_aux st).
