(** Model of the deprecated no-signalling boxes: superquantum_nodes.py:160-262 and
    popescu_rohrlich_correlations.py:392-515 (PRC). *)
From Coq Require Import Reals List Arith Bool.
From Coquelicot Require Import Complex.
From Verif Require Import Prelude NamesModel FockModel StateModel CollectionModel EvalModel OperatorModel PRModel.
Import ListNotations.

(** create_collection_with_NS_boxes, PRC:409-416 (= _create_collection_with_popescu_rohrlich_correlations,
    PRC:204-264): a collection like [cs] (state._collection_of_states.copy()) with one state per
    configuration. *)
Definition create_boxes (rnd : nat -> nat) (rid : ident) (pairs : list (list nat * R)) (cs : coll) (st : state) : option coll :=
  option_map (fun sts => with_items cs (fst (add_states_random rnd 0 sts [])))
    (option_list (map (pr_state (co_D cs) (co_eps cs) (co_ncl cs) rid pairs st) (all_words (length pairs)))).

(** The generic function of create_no_signalling_boxes, superquantum_nodes.py:233-254: the first
    state is the template, all states are replaced. Empty collection: UnboundLocalError. *)
Definition boxes_gate (rnd : nat -> nat) (rid : ident) (boxes : list (list nat * R)) (cs : coll) : option coll :=
  match co_items cs with [] => None | it :: _ => create_boxes rnd rid boxes cs (snd it) end.
(** create_no_signalling_boxes, superquantum_nodes.py:160-261. *)
Definition create_no_signalling_boxes (rnd : nat -> nat) (rid : ident) (boxes : list (list nat * R)) : node :=
  NFunction (boxes_gate rnd rid boxes).

(** measure_collection_with_NS_boxes, PRC:401-407 (= _measure_collection_with_pr_correlation). *)
Definition measure_boxes (cs : coll) : option (list (name * R)) := pr_histogram (map snd (co_items cs)).

(** One term of the loop PRC:502-510. The names dictionary computes the
    values of every name. None: IndexError. *)
Definition box_correlation_step (D : dims) (combi : nat * nat) (acc : option (R * R)) (e : name * R) : option (R * R) :=
  match acc with
  | None => None
  | Some (corr, count) =>
      let vs := values_of_name D (fst e) in
      match nth_error vs (fst combi), nth_error vs (snd combi) with
      | Some a, Some b => Some ((if a =? b then corr + snd e else corr - snd e)%R, (count + snd e)%R)
      | _, _ => None
      end
  end.
(** correlations_from_measured_collection_with_NS_boxes, PRC:419-515; [D]: the naming of the
    template state. None: an exception, or 0/0 (nan). *)
Definition box_correlations (D : dims) (outcomes : list (name * R)) (combis : list (nat * nat)) : option (list R) :=
  option_list (map (fun combi =>
    match fold_left (box_correlation_step D combi) outcomes (Some (0%R, 0%R)) with
    | Some (corr, count) => if Req_EM_T count 0 then None else Some (corr / count)%R
    | None => None
    end) combis).
