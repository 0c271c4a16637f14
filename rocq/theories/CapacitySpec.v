(** How much can be sent with a given number of basis states. *)
From Coq Require Import Reals List Arith Bool.
From Coquelicot Require Import Complex.
From Verif Require Import Prelude NamesModel NamesSpec FockModel StateModel StateSpec CollectionModel EvalModel MeasureSpec
  InterferenceSpec OpticalModel CircuitSpec ProtocolSpec TsirelsonSpec ProgramModel DistinguishSpec.
Import ListNotations.

(** The sender chooses one of the messages [ms] and puts the states with that label into the circuit; the
    receiver sees the classical values [r] and says [m] with probability [guess m r]. *)
Definition decoder (ncl : nat) (ms : list ident) (guess : ident -> list R -> R) : Prop :=
  forall r, length r = ncl -> (forall m, In m ms -> (0 <= guess m r)%R) /\ (Rsum ms (fun m => guess m r) <= 1)%R.
(** The sum of the probabilities of being understood, over the messages (each with its weight). *)
Definition understood (out : items) (ms : list ident) (guess : ident -> list R -> R) : R :=
  Rsum ms (fun m => says out m (guess m)).
(** Only the tuples in the list have an amplitude. *)
Definition uses_only (D : dims) (alphabet : list values) (st : state) : Prop :=
  forall f, valid D f -> ~ In f alphabet -> amp_of D st f = RtoC 0.
(** The states that carry the messages use only the tuples of the alphabet, and their classical channels
    do not give the message away. *)
Definition encoded (D : dims) (its : items) (ms : list ident) (r : list R) (alphabet : list values) : Prop :=
  forall it, In it its -> In (s_init (snd it)) ms -> s_classical (snd it) = r /\ uses_only D alphabet (snd it).

(** Counting the photons in all channels. *)
Definition count_all (n : nat) : list instruction := [Detectors (seq 0 n) (seq 0 n)].
(** The receiver reads the tuple [code m] in the first channels. *)
Definition reads (n : nat) (code : ident -> values) (m : ident) (r : list R) : R :=
  if list_eq_dec Req_EM_T (firstn n r) (map INR (code m)) then 1%R else 0%R.
(** The tuples with exactly one photon: a photon in one of [n] channels. *)
Definition one_photon (n : nat) : list values := map (fun c => map (fun k => if k =? c then 1 else 0) (seq 0 n)) (seq 0 n).
