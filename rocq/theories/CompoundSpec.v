(** What a compound circuit means: an ensemble of branches, as in CircuitSpec, that is handed over
    from circuit to circuit. *)
From Coq Require Import Reals List Arith Bool.
From Coquelicot Require Import Complex.
From Verif Require Import Prelude NamesModel NamesSpec FockModel FockSpec StateModel StateSpec CollectionModel EvalModel
  InterferenceSpec BridgeSpec CircuitSpec.
Import ListNotations.

(** What arrives of a branch in the next circuit when the channels that do not exist there hold the
    photon numbers [o]: the register is cut or filled up with zeros, there are no photons in the
    channels that are new. *)
Definition moved (D : dims) (ncl' : nat) (o : list nat) (b : branch) : branch :=
  Branch (b_label b) (resized ncl' (b_reg b))
    (fun g => if forallb (fun v => v =? 0) (skipn (dN D) g) && forallb (fun v => v <? dL D) (firstn (dN D) g)
              then b_wave b (firstn (dN D) g ++ o) else RtoC 0).

(** One branch for every content of the channels that are dropped: they are traced out. *)
Definition handed_on (D D' : dims) (ncl' : nat) (b : branch) : list branch :=
  map (fun o => moved D ncl' o b) (tuples (dL D) (dN D - dN D')).

(** A circuit and the operations its nodes stand for. *)
Record stage := Stage { st_D : dims; st_ncl : nat; st_full : bool; st_nodes : list node; st_ops : list operation }.
Definition circuit_of (eps : R) (s : stage) : circuit :=
  Circuit (st_D s) (st_ncl s) eps (st_full s) (fresh_keys (st_D s)) (st_nodes s).
Definition good_stage (s : stage) : Prop :=
  1 <= dL (st_D s) /\ 2 <= dN (st_D s) /\ Forall2 (means (st_D s) (st_ncl s)) (st_nodes s) (st_ops s).
Definition last_stage (s : stage) (rest : list stage) : stage := last rest s.

(** The circuits agree about the order in which channels are written, and no circuit with classical
    channels is followed by one without. *)
Fixpoint compatible (s : stage) (rest : list stage) : Prop :=
  match rest with
  | [] => True
  | s' :: r => dLeft (st_D s') = dLeft (st_D s) /\ (st_ncl s' = 0 -> st_ncl s = 0) /\ compatible s' r
  end.

(** The operations of all circuits, one circuit after the other. *)
Fixpoint run_stages (s : stage) (rest : list stage) (E : list branch) : list branch :=
  let E1 := run (st_D s) (st_ops s) E in
  match rest with
  | [] => E1
  | s' :: r => run_stages s' r (flat_map (handed_on (st_D s) (st_D s') (st_ncl s')) E1)
  end.

(** At no border do the channels that are kept contain more photons than the next circuit can handle. *)
Fixpoint fits (s : stage) (rest : list stage) (E : list branch) : Prop :=
  let E1 := run (st_D s) (st_ops s) E in
  match rest with
  | [] => True
  | s' :: r =>
      (forall b f, In b E1 -> valid (st_D s) f -> b_wave b f <> RtoC 0 ->
         Forall (fun v => v < dL (st_D s')) (firstn (dN (st_D s')) f)) /\
      fits s' r (flat_map (handed_on (st_D s) (st_D s') (st_ncl s')) E1)
  end.
