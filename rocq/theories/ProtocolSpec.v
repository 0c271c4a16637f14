(** Two parties sharing a circuit. *)
From Coq Require Import Reals List Arith Bool Permutation.
From Coquelicot Require Import Complex.
From Verif Require Import Prelude NamesModel NamesSpec FockModel FockSpec OpticalModel StateModel StateSpec
  CollectionModel EvalModel MeasureSpec InterferenceSpec CircuitSpec.
Import ListNotations.

(** Two registers that differ at most in the classical channels [K]. *)
Definition same_outside (K : nat -> bool) (r r' : list R) : Prop :=
  length r = length r' /\ forall c, K c = false -> nth c r 0%R = nth c r' 0%R.

(** A transformation that happens in the channels [here]: the others keep their photons and have no
    influence. *)
Definition acts_in (D : dims) (here : nat -> bool) (T : values -> values -> C) : Prop :=
  (forall f g c, valid D f -> valid D g -> c < dN D -> here c = false -> nth c f 0 <> nth c g 0 -> T f g = RtoC 0) /\
  (forall f g f' g', valid D f -> valid D g -> valid D f' -> valid D g' ->
    (forall c, c < dN D -> here c = true -> nth c f 0 = nth c f' 0 /\ nth c g 0 = nth c g' 0) ->
    (forall c, c < dN D -> here c = false -> nth c f 0 = nth c g 0 /\ nth c f' 0 = nth c g' 0) -> T f g = T f' g').
(** A transformation that changes neither lengths nor angles. *)
Definition keeps_inner (D : dims) (T : values -> values -> C) : Prop :=
  forall f g, valid D f -> valid D g -> Csum (basis D) (fun k => T f k * Cconj (T g k))%C = if leqb f g then RtoC 1 else RtoC 0.

(** Alice holds the optical channels [S] and the classical channels [K]. Everything she does happens in
    her channels; what she does may depend on anything. *)
Definition by_alice (D : dims) (ncl : nat) (S K : nat -> bool) (op : operation) : Prop :=
  match op with
  | Element A h v => S h = true /\ S v = true /\ h <> v /\ h < dN D /\ v < dN D /\ forall r, length r = ncl -> unitary2 (A r)
  | Transform T => acts_in D S T /\ keeps_inner D T
  | Compute F => forall r, length r = ncl -> same_outside K (F r) r
  | Detect opt cl => (forall c, In c opt -> S c = true) /\ (forall c, In c cl -> K c = true)
  end.
(** Bob holds the other channels and does not look at Alice's channels. *)
Definition by_bob (D : dims) (ncl : nat) (S K : nat -> bool) (op : operation) : Prop :=
  match op with
  | Element A h v => S h = false /\ S v = false /\ h <> v /\ h < dN D /\ v < dN D /\
      forall r r', length r = ncl -> same_outside K r r' -> A r = A r'
  | Transform T => acts_in D (fun c => negb (S c)) T
  | Compute F => (forall r, length r = ncl -> length (F r) = ncl) /\ forall r r', length r = ncl -> same_outside K r r' -> same_outside K (F r) (F r')
  | Detect opt cl => (forall c, In c opt -> S c = false) /\ (forall c, In c cl -> K c = false)
  end.

(** The two lists of operations differ only in what Alice does. *)
Inductive differ_by_alice (D : dims) (ncl : nat) (S K : nat -> bool) : list operation -> list operation -> Prop :=
| differ_nil : differ_by_alice D ncl S K [] []
| differ_same op ops ops' : by_alice D ncl S K op \/ by_bob D ncl S K op ->
    differ_by_alice D ncl S K ops ops' -> differ_by_alice D ncl S K (op :: ops) (op :: ops')
| differ_first op ops ops' : by_alice D ncl S K op -> differ_by_alice D ncl S K ops ops' -> differ_by_alice D ncl S K (op :: ops) ops'
| differ_second op ops ops' : by_alice D ncl S K op -> differ_by_alice D ncl S K ops ops' -> differ_by_alice D ncl S K ops (op :: ops').

(** The probability that the classical channels outside [K] show the values [r]. *)
Definition agrees_outside (K : nat -> bool) (r r' : list R) : bool :=
  forallb (fun c => K c || if Req_EM_T (nth c r 0%R) (nth c r' 0%R) then true else false) (seq 0 (length r)).
Definition prob_outside (K : nat -> bool) (its : items) (l : ident) (r : list R) : R :=
  Rsum its (fun it => if leqb (s_init (snd it)) l && agrees_outside K (s_classical (snd it)) r then s_cum (snd it) else 0%R).

(** The Fock state matrix of a two-channel element whose matrix [B x] is chosen by the number [x] of
    photons in the optical channel [a]. *)
Definition photon_controlled (D : dims) (B : R -> mat2) (a h v : nat) : mat :=
  fun i j => pair_amp D (mat2_tr (B (INR (nth a (values_from_index D j) 0)))) h v (values_from_index D j) (values_from_index D i).
