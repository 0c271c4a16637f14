(** Specification vocabulary for circuits and collections. *)
From Coq Require Import Reals List Arith Bool Permutation.
From Coquelicot Require Import Complex.
From Verif Require Import Prelude NamesModel NamesSpec FockModel FockSpec OpticalModel StateModel StateSpec
  CollectionModel EvalModel.
Import ListNotations.

(** A collection whose states fit a circuit of shape [D]: distinct identifiers, every state has
    components and they are components of the circuit. *)
Definition wf_items (D : dims) (its : items) : Prop :=
  NoDup (dkeys its) /\ Forall (fun it => wf_state D (snd it) /\ s_comps (snd it) <> []) its.

(** A circuit as built by the API on a fresh object: admissible shape, component table in
    basis order, tensor lists produced by the channel translation. *)
Definition wf_node (D : dims) (nd : node) : Prop :=
  match nd with
  | NOptical _ tl | NControlled _ _ _ tl => Permutation tl (seq 0 (dN D))
  | _ => True
  end.
Definition wf_circuit (c : circuit) : Prop :=
  1 <= dL (c_D c) /\ 2 <= dN (c_D c) /\ c_keys c = fresh_keys (c_D c) /\
  Forall (wf_node (c_D c)) (c_nodes c).

Definition is_bridge (nd : node) : bool := match nd with NBridge _ => true | _ => false end.

(** Two consecutive index lists between which no optical block is cut. *)
Definition cut_ok (c : circuit) (l1 l2 : list nat) : Prop :=
  match l2 with [] => True | k :: _ => l1 = [] \/ is_optical (node_at c (last l1 0)) = false \/ is_optical (node_at c k) = false end.

(** The user-supplied functions of the listed nodes, and the two special measurements, keep
    collections well formed. *)
Definition functions_wf (X : externals) (c : circuit) (inds : list nat) : Prop :=
  (forall opt cl cs cs', wf_items (c_D c) (co_items cs) -> x_resolved X opt cl cs = Some cs' -> wf_items (c_D c) (co_items cs')) /\
  (forall opt cl cs cs', wf_items (c_D c) (co_items cs) -> x_pr X opt cl cs = Some cs' -> wf_items (c_D c) (co_items cs')) /\
  (forall k f cs cs', In k inds -> node_at c k = NFunction f ->
     wf_items (c_D c) (co_items cs) -> f cs = Some cs' -> wf_items (c_D c) (co_items cs')).

(** The same circuit with another setting of use_full_fock_matrix. *)
Definition with_full (b : bool) (c : circuit) : circuit :=
  Circuit (c_D c) (c_ncl c) (c_eps c) b (c_keys c) (c_nodes c).

(** A circuit with optical nodes only, given by optical matrices and channel lists. *)
Definition optical_circuit (D : dims) (ncl : nat) (eps : R) (full : bool) (gates : list (mat2 * list nat))
  : option circuit :=
  option_map (fun nds => Circuit D ncl eps full (fresh_keys D)
                           (map (fun nd => NOptical (on_matrix nd) (on_tl nd)) nds)) (place D gates).

(** evaluate_circuit called once per node index, each call on the result of the previous one. *)
Fixpoint one_by_one (X : externals) (rnd : nat -> nat) (c : circuit) (inds : list nat) (cs : coll) (seed : nat)
  : result (coll * nat) :=
  match inds with
  | [] => Ok (cs, seed)
  | k :: r => rbind (evaluate_from X rnd c [k] cs seed) (fun x => one_by_one X rnd c r (fst x) (snd x))
  end.
