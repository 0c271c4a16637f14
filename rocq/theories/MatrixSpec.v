(** Vocabulary for the matrix of a list of nodes. *)
From Coq Require Import Reals List Arith.
From Coquelicot Require Import Complex.
From Verif Require Import Prelude NamesModel NamesSpec FockModel FockSpec StateModel StateSpec CollectionModel EvalModel.
Import ListNotations.

(** The node with this number is an optical element. *)
Definition optical_at (c : circuit) (k : nat) : Prop :=
  exists A tl, nth_error (c_nodes c) k = Some (NOptical A tl).

(** The node with this number multiplies states with a matrix of the user. *)
Definition custom_at (c : circuit) (k : nat) (M : mat) : Prop := nth_error (c_nodes c) k = Some (NCustomFock M).

(** Two matrices with the same entries for every pair of numbers of basis states. *)
Definition same_matrix (D : dims) (M M' : mat) : Prop :=
  forall o i, o < dL D ^ dN D -> i < dL D ^ dN D -> M o i = M' o i.

(** First the one, then the other. *)
Definition after (D : dims) (M2 M1 : mat) : mat :=
  fun o i => Csum (seq 0 (dL D ^ dN D)) (fun k => M2 o k * M1 k i)%C.

(** The new state is the matrix applied to the old one, components below the threshold being left
    out; all the rest of the state is as it was. *)
Definition moved_by (D : dims) (eps : R) (M : mat) (old new : state) : Prop :=
  same_but_components old new /\
  forall vs, valid D vs ->
    let z := Csum (seq 0 (dL D ^ dN D)) (fun j => M (index_of_values D vs) j * amp_of D old (values_from_index D j))%C in
    amp_of D new vs = if Rlt_dec (Cnorm2 z) eps then RtoC 0 else z.
