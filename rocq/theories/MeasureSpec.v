(** Specification vocabulary for measurements. *)
From Coq Require Import Reals List Arith Bool.
From Coquelicot Require Import Complex.
From Verif Require Import Prelude NamesModel NamesSpec FockModel StateModel StateSpec.
Import ListNotations.

(** The photon numbers a tuple has in the measured channels. *)
Definition readout (channels : list nat) (vs : values) : list nat := map (fun c => nth c vs 0) channels.

(** Born rule: the probability of reading [o] in the channels. *)
Definition outcome_prob (D : dims) (st : state) (channels o : list nat) : R :=
  Rsum (s_comps st) (fun c => if leqb (readout channels (values_of_name D (fst c))) o
                              then Cnorm2 (fst (snd c)) else 0%R).

(** [o] is read by some component of the state. *)
Definition possible (D : dims) (st : state) (channels o : list nat) : Prop :=
  exists vs, valid D vs /\ In (name_string D vs) (map fst (s_comps st)) /\ readout channels vs = o.

(** The classical list after writing the values [o] to the channels [cl]; nothing else changes. *)
Definition written (cl o : list nat) (old new : list R) : Prop :=
  length new = length old /\
  (forall i, i < length cl -> i < length o -> nth (nth i cl 0) new 0%R = INR (nth i o 0)) /\
  (forall c, ~ In c cl -> nth c new 0%R = nth c old 0%R).

(** The collection is measured by the ordinary measurement: some state carries no photon
    resolution information and some state carries no Popescu-Rohrlich information. *)
Definition unmarked (its : items) : Prop :=
  (exists it, In it its /\ forall x, ~ In (AuxPhotonResolution, x) (s_aux (snd it))) /\
  (exists it, In it its /\ forall x, ~ In (AuxPopescuRohrlich, x) (s_aux (snd it))).

(** [s] is what remains of [st] after reading [o] in the channels [opt] and writing it to the
    classical channels [cl]: components with that reading, amplitudes divided by the common
    factor sqrt(probability); the values and the probability are added to the history. *)
Definition collapsed (D : dims) (opt cl o : list nat) (st s : state) : Prop :=
  s_init s = s_init st /\ s_aux s = s_aux st /\
  written cl o (s_classical st) (s_classical s) /\
  s_results s = s_results st ++ [(s_classical s, outcome_prob D st opt o)] /\
  (forall vs, valid D vs -> In (name_string D vs) (map fst (s_comps s)) ->
     In (name_string D vs) (map fst (s_comps st)) /\ readout opt vs = o) /\
  (forall vs, valid D vs -> readout opt vs = o ->
     amp_of D s vs = (amp_of D st vs / RtoC (sqrt (outcome_prob D st opt o)))%C).

(** The results [g] of measuring the state [st]: one for every reading some component shows,
    each related to its reading by [R]. *)
Definition one_per_outcome (D : dims) (opt : list nat) (st : state) (g : items)
    (R : list nat -> ident * state -> Prop) : Prop :=
  exists os, NoDup os /\ (forall o, In o os <-> possible D st opt o) /\ Forall2 R os g.
