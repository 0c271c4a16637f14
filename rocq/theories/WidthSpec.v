(** Specification vocabulary for pulse widths, independent of the model. *)
From Coq Require Import Reals List Arith Bool.
From Coquelicot Require Import Complex.
From Verif Require Import Prelude NamesModel NamesSpec FockModel StateModel StateSpec CollectionModel EvalModel ColumnModel ColumnSpec TemporalSpec.
Import ListNotations.

(** One of the listed channels holds a photon. *)
Definition lit (chs : list nat) (vs : values) : Prop := exists c, In c chs /\ nth c vs 0 <> 0.
(** [pt'] is [pt] with the pulse width [w] if it has a photon in one of the channels; the time delay
    and everything else are the same. *)
Definition rewidthed (chs : list nat) (w : R) (pt pt' : part) : Prop :=
  (lit chs (pt_photons pt) -> pt_timing pt' = (fst (pt_timing pt), w)) /\
  (~ lit chs (pt_photons pt) -> pt_timing pt' = pt_timing pt) /\
  pt_label pt' = pt_label pt /\ pt_classical pt' = pt_classical pt /\ pt_cum pt' = pt_cum pt /\ pt_group pt' = pt_group pt /\
  pt_weight pt' = pt_weight pt /\ pt_column pt' = pt_column pt /\ pt_amplitude pt' = pt_amplitude pt /\ pt_boson pt' = pt_boson pt /\ pt_photons pt' = pt_photons pt.

(** One component of the state [st], group [k]: every photon gets a state, without a time delay; its
    pulse width is [w] in the listed channels and 1 in the others. *)
Definition width_parts (D : dims) (chs : list nat) (w : R) (k : nat) (st : state) (x : nat * (name * C)) : list part :=
  let vs := values_of_name D (fst (snd x)) in
  let pt timing ph := Part (s_init st) (s_classical st) (s_cum st) k (s_cum st) (fst x) (snd (snd x)) (sqrt (INR (factorials vs))) timing ph in
  match channels_of vs with
  | [] => [pt (0%R, 1%R) (repeat 0 (dN D))]
  | l => map (fun c => pt (0%R, if channel_in chs c then w else 1%R) (one_photon (dN D) c)) l
  end.

(** [st'] is [st] with the pulse width [w]: the time delay is kept (0 if there was none), the other
    entries of the photon resolution and all other information are the same. *)
Definition width_set (w : R) (st st' : state) : Prop :=
  s_init st' = s_init st /\ s_cum st' = s_cum st /\ s_comps st' = s_comps st /\ s_classical st' = s_classical st /\ s_results st' = s_results st /\
  (forall k, k <> AuxPhotonResolution -> dget aux_eqb k (s_aux st') = dget aux_eqb k (s_aux st)) /\
  exists t r, dget aux_eqb AuxPhotonResolution (s_aux st') = Some (AuxResolution (Resolution (r_column r) (r_amplitude r) (r_boson r) (r_group r) (r_group_cum r) (Some (t, w)))) /\
    ((dget aux_eqb AuxPhotonResolution (s_aux st) = Some (AuxResolution r) /\ t = match r_photon r with Some i => fst i | None => 0%R end) \/
     ((forall r', dget aux_eqb AuxPhotonResolution (s_aux st) <> Some (AuxResolution r')) /\ r = Resolution None None None None None None /\ t = 0%R)).
