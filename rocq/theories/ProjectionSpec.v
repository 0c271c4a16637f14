(** Specification of measurements restricted to a list of projections. *)
From Coq Require Import Reals List Arith Bool.
From Coquelicot Require Import Complex.
From Verif Require Import Prelude NamesModel NamesSpec FockModel StateModel StateSpec MeasureSpec CollectionModel EvalModel InterferenceSpec.
Import ListNotations.

(** A projection gives the photon numbers of all channels. [among ps f]: the numbers [f] are listed. *)
Definition among (ps : list values) (f : values) : bool := existsb (leqb f) ps.
(** The probability of detecting one of the listed photon numbers that reads [o] in the channels [opt]. *)
Definition listed_detection (L n : nat) (ps : list values) (bs : list branch) (opt o : list nat) : R :=
  Rsum (filter (fun f => leqb (readout opt f) o && among ps f) (tuples L n)) (detection bs).
(** The group [b'] is the group [b] after a measurement of the channels [opt], restricted to the
    projections [ps], with outcome [o], written to the classical channels [cl]. *)
Record after_listed (D : dims) (ps : list values) (opt cl o : list nat) (b b' : bundle) : Prop := {
  al_label : bd_label b' = bd_label b;
  al_weight : bd_weight b' = (bd_weight b * listed_detection (dL D) (dN D) ps (map (ray_branch D) (bd_rays b)) opt o)%R;
  al_states : forall st, In st (bundle_states b') -> exists x, In x (bundle_states b) /\
    written cl o (s_classical x) (s_classical st) /\
    s_results st = s_results x ++ repeat (s_classical st, listed_detection (dL D) (dN D) ps (map (ray_branch D) (bd_rays b)) opt o) (length o);
  al_found : forall f, length f = dN D -> detection (map (ray_branch D) (bd_rays b')) f <> 0%R -> readout opt f = o /\ In f ps;
  al_outcome : exists f, In f ps /\ In f (tuples (dL D) (dN D)) /\ readout opt f = o;
  al_norm : Rsum (bd_rays b') (fun r => Cnorm2 (ry_amplitude r)) = 1%R }.
