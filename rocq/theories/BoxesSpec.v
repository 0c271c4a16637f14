(** Specification vocabulary for no-signalling boxes, independent of the model. *)
From Coq Require Import Reals List Arith Permutation.
From Coquelicot Require Import Complex.
From Verif Require Import Prelude NamesModel NamesSpec FockModel FockSpec StateModel StateSpec CollectionModel EvalModel MeasureSpec PRSpec.
Import ListNotations.

(** The correlation [x] that boxes with the settings [ps] show between the channels [a] and [b]. *)
Definition box_correlation (pairs : list (list nat * R)) (ps : list pr_pair) (a b : nat) (x : R) : Prop :=
  (* the two horizontal channels of a pair: the stretched correlation of the polarisations *)
  (forall j av bv q p, nth_error pairs j = Some ([a; av; b; bv], q) -> nth_error ps j = Some p ->
     stretched q (dot (poincare (p_A p 0)) (poincare (p_B p 0))) x) /\
  (* horizontal on one side and vertical on the other side: the opposite *)
  (forall j av bh q p, nth_error pairs j = Some ([a; av; bh; b], q) -> nth_error ps j = Some p ->
     stretched q (dot (poincare (p_A p 0)) (poincare (p_B p 0))) (- x)) /\
  (* the two channels of one photon: never the same *)
  (forall j c d q, nth_error pairs j = Some ([a; b; c; d], q) \/ nth_error pairs j = Some ([c; d; a; b], q) -> x = (-1)%R) /\
  (* photons of different pairs: no correlation *)
  (forall i j p p', i <> j -> nth_error pairs i = Some p -> nth_error pairs j = Some p' -> In a (fst p) -> In b (fst p') -> x = 0%R).

(** The mean of +1 for outcomes in which the channels [a] and [b] show the same number of photons
    and -1 for the others; [shown]: the numbers of photons of an outcome with its probability. *)
Definition mean_agreement (a b : nat) (shown : list (values * R)) (x : R) : Prop :=
  (x * Rsum shown (fun o => snd o) = Rsum shown (fun o => if nth a (fst o) 0%nat =? nth b (fst o) 0%nat then snd o else - snd o))%R.
