(** Specification vocabulary for objects: what "unchanged" means. *)
From Coq Require Import Reals List Arith Bool.
From Verif Require Import Prelude StateModel CollectionModel EvalModel HeapModel.
Import ListNotations.

(** Every object of the collection exists. *)
Definition valid_coll (h : heap) (cs : hcoll) : Prop :=
  forall i a, In (i, a) cs ->
    a < length (hp_states h) /\ h_cl (state_at h a) < length (hp_lists h) /\
    forall l p, In (l, p) (h_res (state_at h a)) -> l < length (hp_lists h).

(** Every object of [h] is still there with the same contents in [h']. *)
Definition untouched (h h' : heap) : Prop :=
  exists ls ss, hp_lists h' = hp_lists h ++ ls /\ hp_states h' = hp_states h ++ ss.

(** The histories of measurements a user reads from a collection. *)
Definition histories (h : heap) (cs : hcoll) : list (list (list R * R)) :=
  map (fun it => s_results (snd it)) (view h cs).

(** The list object [l] is recorded in the history of some state of the collection. *)
Definition recorded (h : heap) (cs : hcoll) (l : nat) : Prop :=
  exists i a p, In (i, a) cs /\ In (l, p) (h_res (state_at h a)).
(** No list recorded in a history of [cs0] is the list of classical values of a state of [cs]. *)
Definition not_recorded (h : heap) (cs0 cs : hcoll) : Prop :=
  forall i a, In (i, a) cs -> ~ recorded h cs0 (h_cl (state_at h a)).

(** The State objects are different objects with different lists of classical values, none of
    which is recorded in a history (as in a collection made of newly created states). *)
Definition isolated (h : heap) (cs : hcoll) : Prop :=
  NoDup (map snd cs) /\ NoDup (map (fun it => h_cl (state_at h (snd it))) cs) /\ not_recorded h cs cs.

(** The classical node has a function that leaves its argument as it is. *)
Definition leaves_argument (nd : hnode) : Prop :=
  match nd with HClassical f nv chs => forall l, fst (f l nv chs) = l | HOther _ => True end.
Definition is_classical (nd : hnode) : bool := match nd with HClassical _ _ _ => true | _ => false end.
(** The classical nodes at the head of the list. *)
Fixpoint leading_classical (c : hcircuit) (inds : list nat) : list nat :=
  match inds with
  | k :: r => if is_classical (hnode_at c k) then k :: leading_classical c r else []
  | [] => []
  end.
(** Changes that do not reach into the recorded lists. *)
Definition not_history (m : mutation) : Prop := match m with MHistory _ _ _ => False | _ => True end.

(** A circuit run in which no classical function that writes into its argument comes directly
    after a measurement (only other classical nodes in between). [fresh = true]: the collection
    has been copied since the last measurement. *)
Fixpoint no_write_after_measure (fresh : bool) (c : hcircuit) (inds : list nat) : Prop :=
  match inds with
  | [] => True
  | k :: r =>
      match hnode_at c k with
      | HClassical _ _ _ => (fresh = true \/ leaves_argument (hnode_at c k)) /\ no_write_after_measure fresh c r
      | HOther (NMeasure _ _) => no_write_after_measure false c r
      | HOther _ => no_write_after_measure true c r
      end
  end.
