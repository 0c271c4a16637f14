(** Specification of experiments in which photons meet several time delays, with optical elements
    between them. *)
From Coq Require Import Reals List Arith Bool.
From Coquelicot Require Import Complex.
From Verif Require Import Prelude NamesModel NamesSpec FockModel FockSpec StateModel StateSpec CollectionModel EvalModel ColumnModel ColumnSpec TemporalSpec InterferenceSpec ExperimentSpec.
Import ListNotations.

(** A node that changes the timing of the photons: a time delay (channels, delay, pulse width), or a
    new pulse width in some of the channels. *)
Inductive timing := DelayOf (chs : list nat) (d : delay) (w : R) | WidthOf (chs : list nat) (w : R).
(** The timing (delay, pulse width) of a photon in channel [c] after the node; [st] is the state the
    photon comes from (the delay may be read from its classical channels). *)
Definition retimed (k : timing) (st : state) (c : nat) (tm : R * R) : R * R :=
  match k with
  | DelayOf chs d w => ((if channel_in chs c then fst tm - delay_in d st else fst tm)%R, w)
  | WidthOf chs w => if channel_in chs c then (fst tm, w) else tm
  end.
(** The node exists in the circuit. A pulse width is set in some but not in all channels. *)
Definition timing_ok (D : dims) (ncl : nat) (k : timing) : Prop :=
  match k with
  | DelayOf chs d _ => Forall (fun c => c < dN D) chs /\ delay_exists d ncl
  | WidthOf chs _ => Forall (fun c => c < dN D) chs /\ chs <> [] /\ ~ (forall c, c < dN D -> In c chs)
  end.

(** One history of all the photons of a component: its amplitude, the boson factor of the component,
    and the channel and timing of every photon. *)
Record track := Track { tk_amplitude : C; tk_boson : R; tk_photons : list (nat * (R * R)) }.
Definition start_tracks (D : dims) (st : state) : list track :=
  map (fun x => let vs := values_of_name D (fst x) in
                Track (snd x) (sqrt (INR (factorials vs))) (map (fun k => (k, (0%R, 1%R))) (channels_of vs))) (weighted_components st).
Definition timed_tracks (k : timing) (st : state) (ts : list track) : list track :=
  map (fun t => Track (tk_amplitude t) (tk_boson t) (map (fun x => (fst x, retimed k st (fst x) (snd x))) (tk_photons t))) ts.
(** All ways to send the photons from their channels to channels below [n], with their amplitudes. *)
Fixpoint reroutes (n : nat) (U : nat -> nat -> C) (l : list (nat * (R * R))) : list (C * list (nat * (R * R))) :=
  match l with
  | [] => [(RtoC 1, [])]
  | x :: r => flat_map (fun c => map (fun y => ((U c (fst x) * fst y)%C, (c, snd x) :: snd y)) (reroutes n U r)) (seq 0 n)
  end.
Definition moved_tracks (n : nat) (U : nat -> nat -> C) (ts : list track) : list track :=
  flat_map (fun t => map (fun y => Track (tk_amplitude t * fst y)%C (tk_boson t) (snd y)) (reroutes n U (tk_photons t))) ts.
(** The photons of a track behind the last elements. *)
Definition track_branch (U : nat -> nat -> C) (t : track) : branch :=
  Branch (tk_amplitude t) (tk_boson t) (map (fun x => Photon (fun c => U c (fst x)) (snd x)) (tk_photons t)).

(** A leg of the experiment: a change of timing, followed by optical elements. *)
Record leg := Leg { lg_timing : timing; lg_optics : list optic }.
Fixpoint routes (n : nat) (legs : list leg) (st : state) (ts : list track) : list branch :=
  match legs with
  | [] => []
  | [l] => map (track_branch (transfer n (lg_optics l))) (timed_tracks (lg_timing l) st ts)
  | l :: r => routes n r st (moved_tracks n (transfer n (lg_optics l)) (timed_tracks (lg_timing l) st ts))
  end.
Definition routed_branches (D : dims) (legs : list leg) (st : state) : list branch := routes (dN D) legs st (start_tracks D st).

(** The elements are placed correctly, and the threshold of the circuit drops no one-photon amplitude. *)
Definition leg_ok (D : dims) (ncl : nat) (eps : R) (l : leg) : Prop :=
  timing_ok D ncl (lg_timing l) /\ Forall (optic_ok D) (lg_optics l) /\
  forall c k, c < dN D -> k < dN D -> transfer (dN D) (lg_optics l) c k = RtoC 0 \/ (eps <= Cnorm2 (transfer (dN D) (lg_optics l) c k))%R.
(** The nodes of a leg and of the whole circuit; [rnd] supplies the identifiers. *)
Definition timing_node (rnd : nat -> nat) (k : timing) : node :=
  match k with DelayOf chs d w => time_delay_full rnd chs d w | WidthOf chs w => pulse_width_node rnd chs w end.
Definition leg_nodes (rnd : nat -> nat) (k : timing) (nds : list onode) : list node :=
  timing_node rnd k :: map (fun nd => NOptical (on_matrix nd) (on_tl nd)) nds.
Definition route_circuit (D : dims) (ncl : nat) (eps : R) (full : bool) (rnd : nat -> nat) (legs : list leg) (ndss : list (list onode)) (opt cl : list nat) : circuit :=
  Circuit D ncl eps full (fresh_keys D) (flat_map (fun x => leg_nodes rnd (lg_timing (fst x)) (snd x)) (combine legs ndss) ++ [NMeasure opt cl]).
