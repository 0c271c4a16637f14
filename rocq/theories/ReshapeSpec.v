(** Specification vocabulary for changing the shape of a collection. *)
From Coq Require Import Reals List Arith Bool.
From Coquelicot Require Import Complex.
From Verif Require Import Prelude NamesModel NamesSpec FockModel StateModel StateSpec MeasureSpec.
Import ListNotations.

(** The state has a component with these photon numbers. *)
Definition has (D : dims) (st : state) (vs : values) : Prop :=
  valid D vs /\ In (name_string D vs) (map fst (s_comps st)).

(** The channels that are not kept, in increasing order. *)
Definition other_channels (n : nat) (keep : list nat) : list nat :=
  filter (fun c => negb (existsb (Nat.eqb c) keep)) (seq 0 n).

(** The shapes after dropping channels, changing the Fock length and adding [k] channels. *)
Definition kept_shape (D : dims) (keep : list nat) : dims := Dims (dL D) (length keep) (dLeft D).
Definition shape_with_length (D : dims) (L' : nat) : dims := Dims L' (dN D) (dLeft D).
Definition shape_with_extra (D : dims) (k : nat) : dims := Dims (dL D) (dN D + k) (dLeft D).

(** [s] is what [st] looks like in the channels [keep] when the other channels hold the photon
    numbers [o]; the classical values are those of the channels [clkeep]. *)
Definition reduced (D : dims) (keep clkeep o : list nat) (st s : state) : Prop :=
  let others := other_channels (dN D) keep in
  s_init s = s_init st /\ s_results s = s_results st /\ s_aux s = s_aux st /\
  s_classical s = map (fun c => nth c (s_classical st) 0%R) clkeep /\
  s_cum s = (s_cum st * outcome_prob D st others o)%R /\ (0 < outcome_prob D st others o)%R /\
  wf_state (kept_shape D keep) s /\ probs_ok s /\ state_norm2 s = 1%R /\
  (forall vs, valid D vs -> readout others vs = o ->
     amp_of (kept_shape D keep) s (readout keep vs)
     = (amp_of D st vs / RtoC (sqrt (outcome_prob D st others o)))%C) /\
  (forall ks, valid (kept_shape D keep) ks ->
     (forall vs, valid D vs -> readout others vs = o -> readout keep vs <> ks) ->
     amp_of (kept_shape D keep) s ks = RtoC 0) /\
  (forall ks, has (kept_shape D keep) s ks -> exists vs, has D st vs /\ readout others vs = o /\ ks = readout keep vs).

(** The probability of finding the photon numbers [vs] in independent channels with the same
    distribution. *)
Definition distribution_prob (dist : list R) (vs : values) : R :=
  fold_right (fun v acc => (nth v dist 0 * acc)%R) 1%R vs.

(** [s] is [st] with extra optical channels holding the photon numbers [extra] (found with
    probability [p]) and [kcl] extra classical channels with value 0. *)
Definition extension (D : dims) (p : R) (extra : values) (kcl : nat) (st s : state) : Prop :=
  let D' := shape_with_extra D (length extra) in
  s_init s = s_init st /\ s_results s = s_results st /\ s_aux s = s_aux st /\
  s_classical s = s_classical st ++ repeat 0%R kcl /\
  s_cum s = (s_cum st * p)%R /\ wf_state D' s /\ state_norm2 s = state_norm2 st /\
  (forall vs, valid D vs -> amp_of D' s (vs ++ extra) = amp_of D st vs) /\
  (forall vs other, valid D vs -> valid D' (vs ++ other) -> other <> extra -> amp_of D' s (vs ++ other) = RtoC 0) /\
  (forall ws, has D' s ws -> exists vs, has D st vs /\ ws = vs ++ extra).
