(** Specification vocabulary for histograms and correlations. *)
From Coq Require Import Reals List Arith Bool Permutation.
From Coquelicot Require Import Complex.
From Verif Require Import Prelude NamesModel FockModel StateModel CollectionModel EvalModel.
Import ListNotations.

(** Any order in which a set can be listed. *)
Definition listing (ord : ident -> list name -> list name) : Prop := forall i l, Permutation (ord i l) l.
(** The states a histogram for the labels [inits] is about; no labels: all states. *)
Definition selected (inits : list ident) (st : state) : Prop := inits = [] \/ In (s_init st) inits.
(** The channels a histogram is about; no channels: all classical channels. *)
Definition channels_used (ncl : nat) (chs : list nat) : list nat :=
  match chs with [] => seq 0 ncl | _ => chs end.
(** The values of a state in the channels [chs]. *)
Definition classical_read (chs : list nat) (st : state) : list R := map (fun c => nth c (s_classical st) 0%R) chs.
Definition values_eqb (xs ys : list R) : bool := if list_eq_dec Req_EM_T xs ys then true else false.
Definition reads (chs : list nat) (st : state) (vs : values) : bool := values_eqb (classical_read chs st) (map INR vs).
(** The probability of the values [vs] for the label [l]: the weights of the states that show them. *)
Definition reading_weight (chs : list nat) (l : ident) (vs : values) (sts : list state) : R :=
  Rsum sts (fun st => if leqb (s_init st) l then if reads chs st vs then s_cum st else 0 else 0)%R.
(** The weights of all states with the label [l]. *)
Definition label_weight (l : ident) (sts : list state) : R :=
  Rsum sts (fun st => if leqb (s_init st) l then s_cum st else 0)%R.
(** All values in the channels [chs] are photon numbers of the circuit: 0, 1, .., L-1. *)
Definition counts (D : dims) (ncl : nat) (chs : list nat) (st : state) : Prop :=
  length (s_classical st) = ncl /\ exists vs, Forall (fun v => v < dL D) vs /\ classical_read chs st = map INR vs.
(** The string for the values [vs]: a fixed number of digits per channel, channel 0 left, or the
    mirror image. *)
Definition outcome_string (D : dims) (vs : values) : name :=
  let nm := concat (map (pad (digits_per_channel D)) vs) in if dLeft D then nm else rev nm.
(** Weights of the states with label [l] in which channels [a] and [b] agree, and in which not. *)
Definition agree (a b : nat) (st : state) : bool :=
  if Req_EM_T (nth a (s_classical st) 0%R) (nth b (s_classical st) 0%R) then true else false.
Definition agree_weight (a b : nat) (l : ident) (sts : list state) : R :=
  Rsum sts (fun st => if leqb (s_init st) l then if agree a b st then s_cum st else 0 else 0)%R.
Definition differ_weight (a b : nat) (l : ident) (sts : list state) : R :=
  Rsum sts (fun st => if leqb (s_init st) l then if agree a b st then 0 else s_cum st else 0)%R.
(** Some state carries no photon-resolution information: the states are used as they are. *)
Definition ordinary (its : items) : Prop := exists it, In it its /\ forall x, ~ In (AuxPhotonResolution, x) (s_aux (snd it)).
