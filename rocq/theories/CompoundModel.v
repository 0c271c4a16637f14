(** Model of CompoundFockStateCircuit: src/fock_state_circuit/compound_circuit.py. *)
From Coq Require Import Reals List Arith.
From Verif Require Import Prelude NamesModel FockModel StateModel CollectionModel EvalModel.
Import ListNotations.

(** refresh, lines 76-100: a fresh circuit with the parameters of the given one and a copy of its
    node list, followed by a bridge to the next circuit (if there is one). *)
Definition rebuilt (c : circuit) (more : list node) : circuit :=
  Circuit (c_D c) (c_ncl c) (c_eps c) (c_full c) (fresh_keys (c_D c)) (c_nodes c ++ more).
(** compound_circuit.py:76-100: the circuits are linked from the last to the first. *)
Fixpoint linked (c : circuit) (rest : list circuit) : circuit :=
  match rest with
  | [] => rebuilt c []
  | c' :: r => rebuilt c [NBridge (linked c' r)]
  end.

(** evaluate_circuit, lines 139-147, with a collection. An empty list of circuits raises
    (index out of range). *)
Definition evaluate_compound (X : externals) (rnd : nat -> nat) (l : list circuit) (cs : coll) (seed : nat)
  : result (coll * nat) :=
  match l with
  | [] => Raise
  | c :: r => let c1 := linked c r in evaluate_from X rnd c1 (seq 0 (length (c_nodes c1))) cs seed
  end.
