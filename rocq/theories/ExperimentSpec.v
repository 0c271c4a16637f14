(** Specification of interference experiments: photons with time delays are sent through optical
    elements and detected. *)
From Coq Require Import Reals List Arith Bool.
From Coquelicot Require Import Complex.
From Verif Require Import Prelude NamesModel NamesSpec FockModel FockSpec StateModel StateSpec CollectionModel EvalModel ColumnSpec TemporalSpec InterferenceSpec.
Import ListNotations.

(** An optical element: a 2x2 matrix on the channels [h] and [v]. *)
Definition optic : Type := mat2 * (nat * nat).
(** The amplitude with which one photon goes from channel [k] to channel [c]. The rows of the matrix
    belong to the incoming channel (see C09). *)
Definition optic_transfer (e : optic) (c k : nat) : C :=
  let A := fst e in let h := fst (snd e) in let v := snd (snd e) in
  if k =? h then (if c =? h then m00 A else if c =? v then m01 A else RtoC 0)
  else if k =? v then (if c =? h then m10 A else if c =? v then m11 A else RtoC 0)
  else if c =? k then RtoC 1 else RtoC 0.
(** The same for a sequence of elements on [n] channels. *)
Fixpoint transfer (n : nat) (es : list optic) (c k : nat) : C :=
  match es with
  | [] => if c =? k then RtoC 1 else RtoC 0
  | e :: r => Csum (seq 0 n) (fun j => (transfer n r c j * optic_transfer e j k)%C)
  end.
(** The element exists in the circuit, and is placed correctly (see C05). *)
Definition optic_ok (D : dims) (e : optic) : Prop :=
  unitary2 (fst e) /\ fst (snd e) < dN D /\ snd (snd e) < dN D /\ fst (snd e) <> snd (snd e) /\ (snd (snd e) = 0 -> fst (snd e) = 1).
Definition optic_gates (es : list optic) : list (mat2 * list nat) := map (fun e => (fst e, [fst (snd e); snd (snd e)])) es.

(** The permanent of the one-photon amplitudes: all ways to send the photons of [from] to the
    places of [to]. *)
Definition permanent (U : nat -> nat -> C) (from to : values) : C :=
  Csum (permutations (seq 0 (photons to))) (fun s => Cprod (combine s (channels_of to)) (fun x => U (snd x) (nth (fst x) (channels_of from) 0))).

(** The photons of one component of a state, after the elements [es]: a photon that started in a
    channel in [chs] is delayed by [t]. *)
Definition sent_photons (n : nat) (es : list optic) (chs : list nat) (t w : R) (vs : values) : list photon :=
  map (fun k => Photon (fun c => transfer n es c k) ((if channel_in chs k then - t else 0)%R, w)) (channels_of vs).
Definition sent_branches (D : dims) (es : list optic) (chs : list nat) (t w : R) (st : state) : list branch :=
  map (fun x => let vs := values_of_name D (fst x) in
                Branch (snd x) (sqrt (INR (factorials vs))) (sent_photons (dN D) es chs t w vs)) (weighted_components st).
(** The states that can be sent: normalised, with fewer photons than the circuit counts up to. *)
Definition sendable (D : dims) (st : state) : Prop :=
  probs_ok st /\ state_norm2 st = 1%R /\ Forall (fun c => photons (values_of_name D (fst c)) < dL D) (s_comps st).
