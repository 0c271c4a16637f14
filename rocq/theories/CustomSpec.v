(** Specification vocabulary for shift nodes. *)
From Coq Require Import Reals List Arith ZArith Bool.
From Coquelicot Require Import Complex.
From Verif Require Import Prelude NamesModel NamesSpec FockModel StateModel StateSpec CollectionModel EvalModel.
Import ListNotations.

(** The sum of the shifts requested for channel [c]. *)
Fixpoint total_shift (pairs : list (Z * nat)) (c : nat) : Z :=
  match pairs with
  | [] => 0%Z
  | (s, t) :: r => ((if Nat.eqb t c then s else 0) + total_shift r c)%Z
  end.

(** [to] is [from] with every channel increased by its total shift, modulo the length. *)
Definition shifted (L : nat) (pairs : list (Z * nat)) (from to : values) : Prop :=
  length to = length from /\
  forall c, c < length from -> nth c to 0 = Z.to_nat ((Z.of_nat (nth c from 0) + total_shift pairs c) mod Z.of_nat L).

(** [to] is [from] with the value of channel [control] added to channel [target], modulo the
    length. *)
Definition added (L control target : nat) (from to : values) : Prop :=
  length to = length from /\
  nth target to 0 = (nth target from 0 + nth control from 0) mod L /\
  forall c, c <> target -> nth c to 0 = nth c from 0.

(** The same for a list of (control, target) pairs, one after the other. *)
Fixpoint added_in_turn (L : nat) (pairs : list (nat * nat)) (from to : values) : Prop :=
  match pairs with
  | [] => to = from
  | p :: r => exists mid, added L (fst p) (snd p) from mid /\ added_in_turn L r mid to
  end.

(** The sum of the values that the controls of channel [c] have in [from]. *)
Fixpoint total_control (pairs : list (nat * nat)) (from : values) (c : nat) : nat :=
  match pairs with
  | [] => 0
  | p :: r => (if snd p =? c then nth (fst p) from 0 else 0) + total_control r from c
  end.
Definition added_at_once (L : nat) (pairs : list (nat * nat)) (from to : values) : Prop :=
  length to = length from /\
  forall c, c < length from -> nth c to 0 = (nth c from 0 + total_control pairs from c) mod L.

(** The matrix [M] moves the amplitude of a tuple to the tuple(s) related to it, without changing
    it, and does nothing else. *)
Definition moves (D : dims) (M : mat) (R : values -> values -> Prop) : Prop :=
  forall from to, valid D from -> valid D to ->
    (R from to -> M (index_of_values D to) (index_of_values D from) = RtoC 1) /\
    (~ R from to -> M (index_of_values D to) (index_of_values D from) = RtoC 0).

(** The state [s] is the state [st] with its amplitudes moved along [R]; amplitudes below the
    threshold may be dropped, nothing is added. *)
Definition amplitudes_moved (D : dims) (eps : R) (R : values -> values -> Prop) (st s : state) : Prop :=
  same_but_components st s /\ wf_state D s /\
  (forall from to, valid D from -> valid D to -> R from to -> (eps <= Cnorm2 (amp_of D st from))%R \/ amp_of D st from = RtoC 0 ->
     amp_of D s to = amp_of D st from) /\
  (forall to, valid D to -> amp_of D s to <> RtoC 0 -> exists from, valid D from /\ R from to /\ amp_of D st from = amp_of D s to).

(** The same state apart from the identifier and the order of the components. *)
Definition same_state (D : dims) (s1 s2 : state) : Prop :=
  same_but_components s1 s2 /\ forall vs, valid D vs -> amp_of D s1 vs = amp_of D s2 vs.

(** No component has a probability strictly between 0 and the threshold. *)
Definition above_threshold (D : dims) (eps : R) (st : state) : Prop :=
  forall vs, valid D vs -> (eps <= Cnorm2 (amp_of D st vs))%R \/ amp_of D st vs = RtoC 0.

(** The matrix [M] couples [control] to [target] with strength [s]: a tuple with value 0 in the
    control channel is unchanged; of any other a part sqrt(1-s) stays and a part sqrt(s) is moved. *)
Definition couples (D : dims) (M : mat) (s : R) (control target : nat) : Prop :=
  forall from to, valid D from -> valid D to ->
    let m := M (index_of_values D to) (index_of_values D from) in
    (nth control from 0 = 0 -> m = if list_eq_dec Nat.eq_dec to from then RtoC 1 else RtoC 0) /\
    (nth control from 0 <> 0 ->
       (to = from -> m = RtoC (sqrt (1 - s))) /\
       (added (dL D) control target from to -> m = RtoC (sqrt s)) /\
       (to <> from -> ~ added (dL D) control target from to -> m = RtoC 0)).
