(** Specification vocabulary for collections: an operation sequence on a collection seen as a
    finite map from identifiers to states. *)
From Coq Require Import Reals List Arith Bool.
From Coquelicot Require Import Complex.
From Verif Require Import Prelude NamesModel NamesSpec FockModel StateModel StateSpec CollectionModel.
Import ListNotations.

(** Updates a user can make on a collection: add_state with identifier, add_state without,
    delete_state by identifier. *)
Inductive coll_op :=
| OpAdd (i : ident) (st : state)
| OpAddRandom (st : state)
| OpDelete (i : ident).

Definition coll_step (rnd : nat -> nat) (acc : items * nat) (o : coll_op) : items * nat :=
  match o with
  | OpAdd i st => (add_state i st (fst acc), snd acc)
  | OpAddRandom st => add_state_random rnd (snd acc) st (fst acc)
  | OpDelete i => (delete_state (Some i) None (fst acc), snd acc)
  end.
Definition coll_run (rnd : nat -> nat) (seed : nat) (its : items) (ops : list coll_op) : items * nat :=
  fold_left (coll_step rnd) ops (its, seed).

(** What the same updates mean for a finite map; [OpAddRandom] may choose any identifier that is
    not in use. *)
Definition fmap := ident -> option state.
Inductive map_step : fmap -> coll_op -> fmap -> Prop :=
| MAdd m i st m' : m' i = Some st -> (forall j, j <> i -> m' j = m j) -> map_step m (OpAdd i st) m'
| MRandom m i st m' : m i = None -> m' i = Some st -> (forall j, j <> i -> m' j = m j) -> map_step m (OpAddRandom st) m'
| MDelete m i m' : m' i = None -> (forall j, j <> i -> m' j = m j) -> map_step m (OpDelete i) m'.
Inductive map_run : fmap -> list coll_op -> fmap -> Prop :=
| MNil m : map_run m [] m
| MCons m o m' ops m'' : map_step m o m' -> map_run m' ops m'' -> map_run m (o :: ops) m''.

(** The map a collection represents: what get_state(identifier) returns. *)
Definition lookup (its : items) : fmap := fun i => get_state (Some i) None its.
