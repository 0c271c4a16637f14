(** Specification vocabulary for photon-resolved collections. *)
From Coq Require Import Reals List Arith Bool.
From Coquelicot Require Import Complex.
From Verif Require Import Prelude NamesModel NamesSpec FockModel StateModel StateSpec CollectionModel EvalModel ColumnModel ColumnSpec.
Import ListNotations.

(** What one state of a photon-resolved collection stands for: some of the photons of one
    component, with their common timing (time delay, pulse width). States with the same label,
    group and column number belong together. *)
Record part := Part {
  pt_label : ident; pt_classical : list R; pt_cum : R; pt_group : nat; pt_weight : R; pt_column : nat;
  pt_amplitude : C; pt_boson : R; pt_timing : R * R; pt_photons : values }.
(** The state [st] of a circuit of shape [D] is the part [pt]. *)
Definition shows (D : dims) (st : state) (pt : part) : Prop :=
  s_init st = pt_label pt /\ s_classical st = pt_classical pt /\ s_cum st = pt_cum pt /\
  (exists a p, s_comps st = [(name_string D (pt_photons pt), (a, p))]) /\ valid D (pt_photons pt) /\
  dget aux_eqb AuxPhotonResolution (s_aux st) =
    Some (AuxResolution (Resolution (Some (pt_column pt)) (Some (pt_amplitude pt)) (Some (pt_boson pt))
                                    (Some (pt_group pt)) (Some (pt_weight pt)) (Some (pt_timing pt)))).

(** The components of a state with the amplitude they get in the columns: a single component
    counts with amplitude 1. *)
Definition weighted_components (st : state) : list (name * C) :=
  match s_comps st with
  | [(nm, _)] => [(nm, RtoC 1)]
  | cs => map (fun c => (fst c, fst (snd c))) cs
  end.

(** The photons in the channels selected by [keep]. *)
Definition kept (keep : nat -> bool) (vs : values) : values :=
  map (fun i => if keep i then nth i vs 0 else 0) (seq 0 (length vs)).
Definition channel_in (chs : list nat) (c : nat) : bool := existsb (Nat.eqb c) chs.

(** The state belongs to group [k] of its label, which has weight [p]. *)
Definition in_group (st : state) (k : nat) (p : R) : Prop :=
  exists r, dget aux_eqb AuxPhotonResolution (s_aux st) = Some (AuxResolution r) /\ r_group r = Some k /\ r_group_cum r = Some p.
(** The groups of a photon-resolved collection with their weights, every group once. *)
Definition group_weights (its : list (ident * state)) (W : list (ident * nat * R)) : Prop :=
  NoDup (map fst W) /\
  (forall it, In it its -> exists k p, in_group (snd it) k p) /\
  (forall i k p, In (i, k, p) W <-> exists it, In it its /\ s_init (snd it) = i /\ in_group (snd it) k p).
(** The total weight of the groups with label [i]. *)
Definition weight_of (W : list (ident * nat * R)) (i : ident) : R :=
  Rsum (filter (fun w => leqb (fst (fst w)) i) W) snd.
Definition label_weight (its : list (ident * state)) (i : ident) : R :=
  Rsum (filter (fun it => leqb (s_init (snd it)) i) its) (fun it => s_cum (snd it)).

(** The delay of a state: a number, or the value of a classical channel. *)
Definition delay_in (d : delay) (st : state) : R :=
  match d with Delay t => t | DelayFrom c => nth c (s_classical st) 0%R end.
Definition delay_exists (d : delay) (ncl : nat) : Prop := match d with Delay _ => True | DelayFrom c => c < ncl end.

(** Quick time delay of one component (column number, name and amplitude) of the state [st], which
    gets the groups 2n+1 (overlapping pulses) and 2n+2 (separated pulses). [ov]: the overlap. *)
Definition quick_parts (D : dims) (chs : list nat) (ov : R) (n : nat) (st : state) (x : nat * (name * C)) : list part :=
  let vs := values_of_name D (fst (snd x)) in
  let pt k p timing ph := Part (s_init st) (s_classical st) p k p (fst x) (snd (snd x)) 1 timing ph in
  [pt (2 * n + 1) (s_cum st * ov)%R (0%R, 1%R) vs;
   pt (2 * n + 2) (s_cum st * (1 - ov))%R (-100, 1)%R (kept (fun c => negb (channel_in chs c)) vs);
   pt (2 * n + 2) (s_cum st * (1 - ov))%R (100, 1)%R (kept (channel_in chs) vs)].
(** Column numbers for the components of a state. *)
Definition column_numbers (st : state) (ids : list nat) : Prop := length ids = length (weighted_components st) /\ NoDup ids.
Definition numbered (ids : list nat) (st : state) : list (nat * (name * C)) := combine ids (weighted_components st).

(** The channels of the photons, one entry per photon. *)
Definition channels_of (vs : values) : list nat := flat_map (fun i => repeat i (nth i vs 0)) (seq 0 (length vs)).
(** One photon in channel [c] of [n] channels. *)
Definition one_photon (n c : nat) : values := map (fun i => if i =? c then 1 else 0) (seq 0 n).
(** Time delay of one component of the state [st], group [k]: every photon gets a state; an empty
    component gets one state. [t]: the delay, [w]: the pulse width. *)
Definition delay_parts (D : dims) (chs : list nat) (t w : R) (k : nat) (st : state) (x : nat * (name * C)) : list part :=
  let vs := values_of_name D (fst (snd x)) in
  let pt timing ph := Part (s_init st) (s_classical st) (s_cum st) k (s_cum st) (fst x) (snd (snd x)) (sqrt (INR (factorials vs))) timing ph in
  match channels_of vs with
  | [] => [pt (0%R, w) (repeat 0 (dN D))]
  | l => map (fun c => pt ((if channel_in chs c then - t else 0)%R, w) (one_photon (dN D) c)) l
  end.
