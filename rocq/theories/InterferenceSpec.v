(** Specification of the measurement of partially distinguishable photons. *)
From Coq Require Import Reals List Arith Bool.
From Coquelicot Require Import Complex.
From Verif Require Import Prelude NamesModel NamesSpec FockModel StateModel StateSpec MeasureSpec CollectionModel EvalModel ColumnModel ColumnSpec TemporalSpec.
Import ListNotations.

Definition Cprod {A : Type} (l : list A) (f : A -> C) : C := fold_right (fun x acc => (f x * acc)%C) (RtoC 1) l.
Definition Rprod {A : Type} (l : list A) (f : A -> R) : R := fold_right (fun x acc => (f x * acc)%R) 1%R l.

(** All orders of a list. *)
Fixpoint inserts {A} (x : A) (l : list A) : list (list A) :=
  match l with [] => [[x]] | y :: r => (x :: l) :: map (cons y) (inserts x r) end.
Fixpoint permutations {A} (l : list A) : list (list A) :=
  match l with [] => [[]] | x :: r => flat_map (inserts x) (permutations r) end.

(** All photon-number tuples of a circuit: [n] channels, numbers below [L]. *)
Fixpoint tuples (L n : nat) : list values :=
  match n with O => [[]] | S m => flat_map (fun v => map (cons v) (tuples L m)) (seq 0 L) end.

(** A component of a photon-resolved group: amplitude, boson factor, and the state of each photon.
    A photon is given by its amplitude in every channel and its timing (delay, pulse width). *)
Record photon := Photon { ph_wave : nat -> C; ph_timing : R * R }.
Record branch := Branch { br_amplitude : C; br_boson : R; br_photons : list photon }.

(** The overlap of two Gaussian pulses. *)
Definition pulse_overlap (a b : R * R) : R :=
  exp (- ln 2 * ((fst a - fst b) ^ 2 / (snd a ^ 2 + snd b ^ 2))).

(** The code writes the measured numbers behind each other without separator. This tells all outcomes
    apart for up to ten photon numbers, for one channel, and for two channels with eleven numbers. *)
Definition outcomes_clear (L : nat) (opt : list nat) : Prop := L <= 10 \/ length opt <= 1 \/ (L <= 11 /\ length opt <= 2).

Definition no_photon : photon := Photon (fun _ => RtoC 0) (0%R, 1%R).
Definition nth_photon (b : branch) (j : nat) : photon := nth j (br_photons b) no_photon.
(** The amplitude that photon [s_k] arrives at the [k]-th place of the list of channels [cs]. *)
Definition path (b : branch) (cs s : list nat) : C :=
  (br_amplitude b / RtoC (br_boson b) * Cprod (combine s cs) (fun x => ph_wave (nth_photon b (fst x)) (snd x)))%C.
(** The overlap of photons [s_k] of the first branch with photons [t_k] of the second. *)
Definition indistinct (b b' : branch) (s t : list nat) : R :=
  Rprod (combine s t) (fun x => pulse_overlap (ph_timing (nth_photon b (fst x))) (ph_timing (nth_photon b' (snd x)))).
(** Detection probability of the photon numbers [f]: all pairs of branches with that number of
    photons and all assignments of photons to places interfere as far as the pulses overlap. *)
Definition fitting (bs : list branch) (f : values) : list branch :=
  filter (fun b => length (br_photons b) =? photons f) bs.
Definition interference (bs : list branch) (f : values) : C :=
  Csum (fitting bs f) (fun b => Csum (fitting bs f) (fun b' =>
    Csum (permutations (seq 0 (photons f))) (fun s => Csum (permutations (seq 0 (photons f))) (fun t =>
      (path b (channels_of f) s * Cconj (path b' (channels_of f) t) * RtoC (indistinct b b' s t))%C)))).
Definition detection (bs : list branch) (f : values) : R := (Cmod (interference bs f) / INR (factorials f))%R.
Definition outcome_detection (L n : nat) (bs : list branch) (opt o : list nat) : R :=
  Rsum (filter (fun f => leqb (readout opt f) o) (tuples L n)) (detection bs).

(** ** How a collection of states carries such groups *)
(** The amplitude of a one-photon state in channel [c]; a state with a single component counts with
    amplitude 1. *)
Definition wave (D : dims) (st : state) (c : nat) : C :=
  Csum (weighted_components st) (fun x => if leqb (fst x) (name_string D (one_photon (dN D) c)) then snd x else RtoC 0).
(** A state without photons, or with one photon. *)
Definition dark (D : dims) (st : state) : Prop := exists q, s_comps st = [(name_string D (repeat 0 (dN D)), q)].
Definition lit (D : dims) (st : state) : Prop :=
  s_comps st <> [] /\ NoDup (map fst (s_comps st)) /\
  (forall nm, In nm (map fst (s_comps st)) -> exists c, c < dN D /\ nm = name_string D (one_photon (dN D) c)) /\
  (2 <= length (s_comps st) -> Forall (fun c => fst (snd c) <> RtoC 0) (s_comps st) /\ state_norm2 st = 1%R).
(** One column of a group: number, amplitude, boson factor and states (lit: is it a photon?). *)
Record ray := Ray { ry_number : nat; ry_amplitude : C; ry_boson : R; ry_states : list (bool * state * (R * R)) }.
Record bundle := Bundle { bd_label : ident; bd_group : nat; bd_weight : R; bd_rays : list ray }.
Definition ray_branch (D : dims) (r : ray) : branch :=
  Branch (ry_amplitude r) (ry_boson r)
    (map (fun x => Photon (wave D (snd (fst x))) (snd x)) (filter (fun x => fst (fst x)) (ry_states r))).
Definition ray_ok (D : dims) (eps : R) (ncl : nat) (b : bundle) (r : ray) : Prop :=
  ry_amplitude r <> RtoC 0 /\ (0 < ry_boson r)%R /\ ry_states r <> [] /\ length (br_photons (ray_branch D r)) < dL D /\
  Forall (fun x : bool * state * (R * R) => let st := snd (fst x) in
     check_state eps ncl st = true /\ probs_ok st /\ s_init st = bd_label b /\
     (if fst (fst x) then lit D st else dark D st) /\
     dget aux_eqb AuxPhotonResolution (s_aux st) =
       Some (AuxResolution (Resolution (Some (ry_number r)) (Some (ry_amplitude r)) (Some (ry_boson r))
                                       (Some (bd_group b)) (Some (bd_weight b)) (Some (snd x))))) (ry_states r).
Definition bundle_ok (D : dims) (eps : R) (ncl : nat) (b : bundle) : Prop :=
  bd_rays b <> [] /\ NoDup (map ry_number (bd_rays b)) /\ Forall (ray_ok D eps ncl b) (bd_rays b).
Definition bundle_states (b : bundle) : list state := flat_map (fun r => map (fun x => snd (fst x)) (ry_states r)) (bd_rays b).
(** The collection lists the states of the groups [bs]. *)
Definition carries (cs : coll) (bs : list bundle) : Prop :=
  map snd (co_items cs) = flat_map bundle_states bs /\
  NoDup (map (fun b => (bd_label b, bd_group b)) bs) /\
  Forall (bundle_ok (co_D cs) (co_eps cs) (co_ncl cs)) bs.

(** The group [b'] is the group [b] after a measurement of the channels [opt] with outcome [o],
    written to the classical channels [cl]. *)
Record after_outcome (D : dims) (opt cl o : list nat) (b b' : bundle) : Prop := {
  ao_label : bd_label b' = bd_label b;
  ao_weight : bd_weight b' = (bd_weight b * outcome_detection (dL D) (dN D) (map (ray_branch D) (bd_rays b)) opt o)%R;
  ao_states : forall st, In st (bundle_states b') -> exists x, In x (bundle_states b) /\
    written cl o (s_classical x) (s_classical st) /\
    s_results st = s_results x ++ repeat (s_classical st, outcome_detection (dL D) (dN D) (map (ray_branch D) (bd_rays b)) opt o) (length o);
  ao_found : forall f, length f = dN D -> detection (map (ray_branch D) (bd_rays b')) f <> 0%R -> readout opt f = o;
  ao_outcome : exists f, In f (tuples (dL D) (dN D)) /\ readout opt f = o;
  ao_norm : Rsum (bd_rays b') (fun r => Cnorm2 (ry_amplitude r)) = 1%R }.
