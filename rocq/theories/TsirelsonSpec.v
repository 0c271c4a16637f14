(** Two parties far apart who test a Bell inequality. *)
From Coq Require Import Reals List Arith Bool Permutation.
From Coquelicot Require Import Complex.
From Verif Require Import Prelude NamesModel NamesSpec FockModel FockSpec OpticalModel StateModel StateSpec
  CollectionModel EvalModel MeasureSpec InterferenceSpec CircuitSpec ProtocolSpec.
Import ListNotations.

(** The registers show the same values in the classical channels [K]. *)
Definition same_inside (K : nat -> bool) (r r' : list R) : Prop := forall c, K c = true -> nth c r 0%R = nth c r' 0%R.

(** Done by someone who holds the optical channels [S], writes in no classical channel but [K] and looks at
    no classical channel but [Q]. *)
Definition local_to (D : dims) (ncl : nat) (S K Q : nat -> bool) (op : operation) : Prop :=
  match op with
  | Element A h v => S h = true /\ S v = true /\ h <> v /\ h < dN D /\ v < dN D /\
      forall r r', length r = ncl -> length r' = ncl -> same_inside Q r r' -> A r = A r'
  | Transform T => acts_in D S T
  | Compute F => (forall r, length r = ncl -> same_outside K (F r) r) /\
      forall r r', length r = ncl -> length r' = ncl -> same_inside Q r r' -> same_inside K (F r) (F r')
  | Detect opt cl => (forall c, In c opt -> S c = true) /\ (forall c, In c cl -> K c = true)
  end.

(** Alice and Bob hold different optical channels and neither writes where the other one looks. *)
Definition apart (S T : nat -> bool) : Prop := forall c, S c = true -> T c = false.
Definition within (K Q : nat -> bool) : Prop := forall c, K c = true -> Q c = true.
Definition separate (SA KA QA SB KB QB : nat -> bool) : Prop :=
  apart SA SB /\ apart KA QB /\ apart KB QA /\ within KA QA /\ within KB QB.

(** All orders in which two parties can do what they have to do; a measurement node may measure for both. *)
Inductive shuffle : list operation -> list operation -> list operation -> Prop :=
| shuffle_nil : shuffle [] [] []
| shuffle_left x a b c : shuffle a b c -> shuffle (x :: a) b (x :: c)
| shuffle_right x a b c : shuffle a b c -> shuffle a (x :: b) (x :: c)
| shuffle_joint opt cl opt' cl' a b c : length cl = length opt -> length cl' = length opt' -> (forall k, In k cl -> ~ In k cl') ->
    shuffle a b c -> shuffle (Detect opt cl :: a) (Detect opt' cl' :: b) (Detect (opt ++ opt') (cl ++ cl') :: c).

(** A number between -1 and 1 that someone reads off the classical channels [Q]. *)
Definition verdict (ncl : nat) (Q : nat -> bool) (a : list R -> R) : Prop :=
  (forall r, length r = ncl -> -1 <= a r <= 1)%R /\
  forall r r', length r = ncl -> length r' = ncl -> same_inside Q r r' -> a r = a r'.

(** The states of a collection that come from the input labelled [l]. *)
Definition from (l : ident) (its : items) : items := filter (fun it => leqb (s_init (snd it)) l) its.

(** The same quantum state with the same weight and the same values in the classical channels [Q]. *)
Definition prepared_alike (D : dims) (Q : nat -> bool) (it it' : ident * state) : Prop :=
  s_cum (snd it) = s_cum (snd it') /\ (forall f, valid D f -> amp_of D (snd it) f = amp_of D (snd it') f) /\
  same_inside Q (s_classical (snd it)) (s_classical (snd it')).

(** The mean of a product of verdicts over the outcomes that come from [l]. *)
Definition mean_product (out : items) (l : ident) (a b : list R -> R) : R :=
  Rsum (from l out) (fun it => s_cum (snd it) * (a (s_classical (snd it)) * b (s_classical (snd it))))%R.

(** The state of the channels [S] has nothing to do with the state of the other channels. *)
Definition product_state (D : dims) (S : nat -> bool) (st : state) : Prop :=
  exists u v : values -> C, (forall f, valid D f -> amp_of D st f = (u f * v f)%C) /\
    (forall f g, valid D f -> valid D g -> (forall c, S c = true -> nth c f 0 = nth c g 0) -> u f = u g) /\
    (forall f g, valid D f -> valid D g -> (forall c, S c = false -> nth c f 0 = nth c g 0) -> v f = v g).
