(** Specification vocabulary for bridges. *)
From Coq Require Import Reals List Arith.
From Coquelicot Require Import Complex.
From Verif Require Import Prelude NamesModel NamesSpec FockModel StateModel StateSpec CollectionModel EvalModel MeasureSpec ReshapeSpec.
Import ListNotations.

(** A list cut or filled up with zeros to length [n]. *)
Definition resized (n : nat) (l : list R) : list R := firstn n l ++ repeat 0%R (n - length l).

(** The photon numbers of the common channels, with vacuum in the channels that are new. *)
Definition carried_values (n : nat) (vs : values) : values := firstn n vs ++ repeat 0 (n - length vs).

(** The channels that do not exist in a circuit with [n] channels. *)
Definition dropped_channels (D : dims) (n : nat) : list nat := seq n (dN D - n).

(** [s] is what arrives of [st] in a circuit of shape [D'] with [ncl'] classical channels when the
    dropped channels hold the photon numbers [o]: the weight is multiplied by the probability of
    [o], the classical values are cut or filled up with 0, the components with reading [o] keep
    their amplitudes (up to the common normalisation) and have vacuum in the new channels. *)
Definition carried (D D' : dims) (ncl' : nat) (o : list nat) (st s : state) : Prop :=
  let P := outcome_prob D st (dropped_channels D (dN D')) o in
  s_init s = s_init st /\ s_results s = s_results st /\ s_aux s = s_aux st /\
  s_classical s = resized ncl' (s_classical st) /\
  s_cum s = (s_cum st * P)%R /\ (0 < P)%R /\
  wf_state D' s /\ state_norm2 s = 1%R /\
  (forall vs, valid D vs -> readout (dropped_channels D (dN D')) vs = o -> Forall (fun v => v < dL D') (carried_values (dN D') vs) ->
     amp_of D' s (carried_values (dN D') vs) = (amp_of D st vs / RtoC (sqrt P))%C) /\
  (forall ws, valid D' ws ->
     (forall vs, valid D vs -> readout (dropped_channels D (dN D')) vs = o -> ws <> carried_values (dN D') vs) ->
     amp_of D' s ws = RtoC 0).

(** Evaluating the circuits of a list one after the other, with the collection reshaped at every
    border. *)
Fixpoint in_turn (X : externals) (rnd : nat -> nat) (c : circuit) (rest : list circuit) (cs : coll) (seed : nat)
  : result (coll * nat) :=
  rbind (evaluate_from X rnd c (seq 0 (length (c_nodes c))) cs seed) (fun x =>
    match rest with
    | [] => Ok x
    | c' :: r => rbind (of_option (bridge_reshape rnd c c' (fst x) (snd x))) (fun y => in_turn X rnd c' r (fst y) (snd y))
    end).

(** The same without reshaping. *)
Fixpoint one_after_other (X : externals) (rnd : nat -> nat) (c : circuit) (rest : list circuit) (cs : coll) (seed : nat)
  : result (coll * nat) :=
  rbind (evaluate_from X rnd c (seq 0 (length (c_nodes c))) cs seed) (fun x =>
    match rest with
    | [] => Ok x
    | c' :: r => one_after_other X rnd c' r (fst x) (snd x)
    end).
