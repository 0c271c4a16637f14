(** Model of the Python objects behind states and collections: which lists are shared and which
    are copied. Source: src/fock_state_circuit/state.py, collection_of_states.py, circuit.py and
    nodes/classical_nodes.py.

    Objects with identity in this model: the State objects and the lists of classical values
    ([state['classical_channel_values']] and the lists recorded in
    [state['measurement_results'][j]['measurement_results']]). The component dictionaries and
    auxiliary information are copied by every operation modelled here (state.py:428-437) and are
    values; so is the outer measurement_results list, which State.copy rebuilds (state.py:432).
    Addresses are positions in the two stores; allocation appends. *)
From Coq Require Import Reals List Arith Bool.
From Coquelicot Require Import Complex.
From Verif Require Import Prelude NamesModel FockModel OpticalModel StateModel CollectionModel EvalModel.
Import ListNotations.

(** A State object: the dictionary State.state, state.py:478-499. *)
Record hstate := HState {
  h_init : ident;
  h_cum : R;
  h_comps : list (name * (C * R));
  h_cl : nat;                    (* the list object with the classical values *)
  h_res : list (nat * R);        (* recorded list objects and probabilities *)
  h_aux : list (auxkey * auxval) }.
(** The stores: list objects and State objects (state.py:119-178). *)
Record heap := Heap { hp_lists : list (list R); hp_states : list hstate }.
(** CollectionOfStates._collection_of_states: identifiers and State objects. *)
(** collection_of_states.py:274-335. *)
Definition hcoll := list (ident * nat).

(** Default for addresses that do not exist; not in the code (state.py:119-178). *)
Definition no_state : hstate := HState [] 0 [] 0 [] [].
(** Reading a list object; state.py:231-245. *)
Definition list_at (h : heap) (a : nat) : list R := nth a (hp_lists h) [].
(** Reading a State object; collection_of_states.py:357-372. *)
Definition state_at (h : heap) (a : nat) : hstate := nth a (hp_states h) no_state.
(** Auxiliary: replace one element; state.py:265-269. *)
Definition put {A} (l : list A) (a : nat) (x : A) : list A := firstn a l ++ match skipn a l with [] => [] | _ :: r => x :: r end.
(** l[:] = ... on a list object; state.py:231-241. *)
Definition set_list (h : heap) (a : nat) (l : list R) : heap := Heap (put (hp_lists h) a l) (hp_states h).
(** Assignment to keys of a State object, state.py:265-269. *)
Definition set_state (h : heap) (a : nat) (s : hstate) : heap := Heap (hp_lists h) (put (hp_states h) a s).
(** A new list object; state.py:420-440. *)
Definition new_list (h : heap) (l : list R) : heap * nat := (Heap (hp_lists h ++ [l]) (hp_states h), length (hp_lists h)).
(** A new State object; state.py:420-440. *)
Definition new_state (h : heap) (s : hstate) : heap * nat := (Heap (hp_lists h) (hp_states h ++ [s]), length (hp_states h)).

(** What a user reads from a State object / a collection. *)
(** state.py:180-263. *)
Definition deref (h : heap) (s : hstate) : state :=
  State (h_init s) (h_cum s) (h_comps s) (list_at h (h_cl s))
        (map (fun e => (list_at h (fst e), snd e)) (h_res s)) (h_aux s).
(** collection_of_states.py:357-381. *)
Definition view (h : heap) (cs : hcoll) : items := map (fun it => (fst it, deref h (state_at h (snd it)))) cs.

(** Assignments to keys of State.state. *)
(** state.py:265-269. *)
Definition h_with_comps (s : hstate) c := HState (h_init s) (h_cum s) c (h_cl s) (h_res s) (h_aux s).
(** state.py:265-269. *)
Definition h_with_cl (s : hstate) a := HState (h_init s) (h_cum s) (h_comps s) a (h_res s) (h_aux s).

(** State.copy, state.py:420-440: the list of classical values is copied; the records of earlier
    measurements are new dictionaries holding the SAME list objects ({k:v for k,v in ...}).
    (That the constructor re-checks the values is in the pure model, copy_state.) *)
Definition hcopy (h : heap) (s : hstate) : heap * nat :=
  let (h1, l) := new_list h (list_at h (h_cl s)) in new_state h1 (h_with_cl s l).

(** CollectionOfStates.copy, collection_of_states.py:596-616. *)
Definition hcopy_coll (h : heap) (cs : hcoll) : heap * hcoll :=
  fold_left (fun (acc : heap * hcoll) (it : ident * nat) =>
      let (h', a) := hcopy (fst acc) (state_at (fst acc) (snd it)) in (h', snd acc ++ [(fst it, a)]))
    cs (h, []).

(** Optical (circuit.py:706-760), custom Fock (363-381) and controlled (480-511) nodes: each
    result is a copy of one input state with new optical components; [results] (the values
    computed by the pure model, in the order of the input) gives identifier and components. *)
Definition hcopy_with (h : heap) (cs : hcoll) (results : items) : heap * hcoll :=
  fold_left (fun (acc : heap * hcoll) (p : (ident * nat) * (ident * state)) =>
      let s := state_at (fst acc) (snd (fst p)) in
      let (h', a) := hcopy (fst acc) (h_with_comps s (s_comps (snd (snd p)))) in
      (h', snd acc ++ [(fst (snd p), a)]))
    (combine cs results) (h, []).

(** One outcome of _perform_measurement, circuit.py:677-690: a copy of the measured state; its own
    (new) list of classical values is written in place (lines 681-682) and THE SAME list object is
    recorded in measurement_results (lines 684-687). [r]: identifier and values from the pure model. *)
Definition last_prob (st : state) : R := match rev (s_results st) with e :: _ => snd e | [] => 0%R end.
(** One measured state, circuit.py:677-690. *)
Definition hmeasured (h : heap) (s : hstate) (r : ident * state) : heap * (ident * nat) :=
  let (h1, l) := new_list h (s_classical (snd r)) in
  let (h2, a) := new_state h1 (HState (s_init (snd r)) (s_cum (snd r)) (s_comps (snd r)) l
                                 (h_res s ++ [(l, last_prob (snd r))]) (s_aux (snd r))) in
  (h2, (fst r, a)).
(** measurement node, circuit.py:436-453 (plain measurement). *)
Definition hmeasure (c : circuit) (k : nat) (opt cl : list nat) (h : heap) (cs : hcoll) : option (heap * hcoll) :=
  let num := measurement_number (c_nodes c) k in
  fold_left (fun (acc : option (heap * hcoll)) (it : ident * nat) =>
      match acc with
      | None => None
      | Some (h, out) =>
          let s := state_at h (snd it) in
          match perform_measurement (c_D c) (c_ncl c) (c_eps c) opt cl (deref h s) with
          | None => None
          | Some sts =>
              Some (fold_left (fun (a : heap * hcoll) js =>
                  let (h', r) := hmeasured (fst a) s (measured_identifier (fst it) num (fst js), snd js) in
                  (h', dset leqb (fst r) (snd r) (snd a))) (combine (seq 0 (length sts)) sts) (h, out))
          end
      end) cs (Some (h, [])).

(** A Python function given to a classical node: called with a list object it leaves contents
    [fst] in that object and returns either the same object (None) or a new list (Some). A function
    that returns some other existing list object is not modelled. *)
(** classical_channel_function, nodes/classical_nodes.py:29-90. *)
Definition cfun := list R -> list R -> list nat -> list R * option (list R).
(** The returned list, circuit.py:386-397. *)
Definition returned (f : cfun) (l nv : list R) (chs : list nat) : list R :=
  match snd (f l nv chs) with None => fst (f l nv chs) | Some x => x end.
(** the function of set_classical_channels, nodes/classical_nodes.py:117-120 *)
Definition set_in_place : cfun := fun l nv chs => (set_values l nv chs, None).
(** a function that builds a new list and leaves its argument alone *)
(** nodes/classical_nodes.py:117-120. *)
Definition build_new (g : list R -> list R -> list nat -> list R) : cfun := fun l nv chs => (l, Some (g l nv chs)).

(** classical node, circuit.py:386-397: runs on the State objects of the collection passed in. *)
Definition hclassical_state (ncl : nat) (f : cfun) (nv : list R) (chs : list nat) (h : heap) (a : nat) : option heap :=
  let s := state_at h a in
  let l := list_at h (h_cl s) in
  let h1 := set_list h (h_cl s) (fst (f l nv chs)) in
  if length (returned f l nv chs) =? ncl then
    match snd (f l nv chs) with
    | None => Some h1
    | Some x => let (h2, b) := new_list h1 x in Some (set_state h2 a (h_with_cl s b))
    end
  else None.
(** The classical node for the whole collection, circuit.py:386-397. *)
Definition hclassical (ncl : nat) (f : cfun) (nv : list R) (chs : list nat) (h : heap) (cs : hcoll) : option heap :=
  fold_left (fun (acc : option heap) (it : ident * nat) =>
      match acc with None => None | Some h => hclassical_state ncl f nv chs h (snd it) end) cs (Some h).

(** Nodes whose classical functions are Python functions; the others as in the pure model. *)
(** circuit.py:332-580. *)
Inductive hnode := HClassical (f : cfun) (nv : list R) (chs : list nat) | HOther (nd : node).
(** The same node in EvalModel.v (circuit.py:332-580). *)
Definition erase (nd : hnode) : node :=
  match nd with HClassical f nv chs => NClassical (returned f) nv chs | HOther nd => nd end.
(** A circuit: the shape of [hc_base] with these nodes. *)
(** node_list.py:66-162. *)
Record hcircuit := HCircuit { hc_base : circuit; hc_nodes : list hnode }.
(** The same circuit in EvalModel.v (circuit.py:273-580). *)
Definition erase_circuit (c : hcircuit) : circuit :=
  match hc_base c with Circuit D ncl eps full keys _ => Circuit D ncl eps full keys (map erase (hc_nodes c)) end.
(** self.node_list[index], circuit.py:332-340. *)
Definition hnode_at (c : hcircuit) (k : nat) : hnode := nth k (hc_nodes c) (HOther NSpectrum).

(** One non-optical node. Photon-resolved and Popescu-Rohrlich measurements, generic functions,
    spectrum and bridge nodes are not part of the heap model (None). *)
(** circuit.py:357-580. *)
Definition hrun_node (rnd : nat -> nat) (c : hcircuit) (k : nat) (h : heap) (cs : hcoll) (seed : nat)
  : option (heap * hcoll * nat) :=
  let pc := erase_circuit c in
  match hnode_at c k with
  | HClassical f nv chs => option_map (fun h' => (h', cs, seed)) (hclassical (c_ncl pc) f nv chs h cs)
  | HOther (NCustomFock M) =>
      option_map (fun r => (hcopy_with h cs (fst r), snd r)) (custom_items pc rnd M (view h cs) seed)
  | HOther (NControlled t p vars tl) =>
      option_map (fun i => (hcopy_with h cs i, seed)) (controlled_items pc t p vars tl (view h cs))
  | HOther (NMeasure opt cl) =>
      if all_have AuxPhotonResolution (view h cs) || all_have AuxPopescuRohrlich (view h cs) then None
      else option_map (fun r => (r, seed)) (hmeasure pc k opt cl h cs)
  | _ => None
  end.
(** circuit.py:351-358 and 695-756. *)
Definition hrun_optical (c : hcircuit) (ks : list nat) (h : heap) (cs : hcoll) : option (heap * hcoll) :=
  let pc := erase_circuit c in
  option_map (hcopy_with h cs)
    (apply_optical (c_D pc) (c_ncl pc) (c_eps pc) (c_full pc) (c_keys pc)
       (flat_map (fun k => onode_of (node_at pc k)) ks) (view h cs)).

(** evaluate_circuit, circuit.py:303-580, on objects. *)
Fixpoint heval (fuel : nat) (rnd : nat -> nat) (c : hcircuit) (inds : list nat)
    (h : heap) (cs : hcoll) (seed : nat) : result (heap * hcoll * nat) :=
  match fuel with
  | O => OutOfFuel
  | S fuel' =>
    match inds with
    | [] => Ok (h, cs, seed)
    | k :: r =>
      if negb (forallb (fun i => i <? length (hc_nodes c)) inds) then Raise
      else if is_optical (node_at (erase_circuit c) k) then
          let ks := optical_prefix (erase_circuit c) inds in
          let rest := if list_max inds <=? list_max ks then [] else skipn (length ks) inds in
          match hrun_optical c ks h cs with
          | None => Raise
          | Some (h', cs') => heval fuel' rnd c rest h' cs' seed
          end
      else
          let rest := if list_max inds <=? k then [] else r in
          match hrun_node rnd c k h cs seed with
          | None => Raise
          | Some (h', cs', seed') => heval fuel' rnd c rest h' cs' seed'
          end
    end
  end.
(** circuit.py:303-580. *)
Definition hevaluate (rnd : nat -> nat) (c : hcircuit) (inds : list nat) (h : heap) (cs : hcoll)
  : result (heap * hcoll * nat) := heval (S (length inds)) rnd c inds h cs 0.

(** Changes a user can make to a State object (state.py:180-270 and Python list operations). *)
Inductive mutation :=
| MInit (i : ident)                      (* s.initial_state = i *)
| MCum (p : R)                           (* s.cumulative_probability = p *)
| MComps (c : list (name * (C * R)))     (* s.optical_components = c *)
| MClassical (l : list R)                (* s.classical_channel_values = l, a new list *)
| MWrite (k : nat) (v : R)               (* s.classical_channel_values[k] = v *)
| MRecord (p : R)                        (* s.measurement_results.append({... s.classical_channel_values ...}) *)
| MForget                                (* s.measurement_results = [] *)
| MHistory (j k : nat) (v : R).          (* s.measurement_results[j]['measurement_results'][k] = v *)
(** state.py:180-270 and 478-499. *)
Definition mutate (h : heap) (a : nat) (m : mutation) : heap :=
  let s := state_at h a in
  match m with
  | MInit i => set_state h a (HState i (h_cum s) (h_comps s) (h_cl s) (h_res s) (h_aux s))
  | MCum p => set_state h a (HState (h_init s) p (h_comps s) (h_cl s) (h_res s) (h_aux s))
  | MComps c => set_state h a (h_with_comps s c)
  | MClassical l => let (h1, b) := new_list h l in set_state h1 a (h_with_cl s b)
  | MWrite k v => set_list h (h_cl s) (set_nth (list_at h (h_cl s)) k v)
  | MRecord p => set_state h a (HState (h_init s) (h_cum s) (h_comps s) (h_cl s) (h_res s ++ [(h_cl s, p)]) (h_aux s))
  | MForget => set_state h a (HState (h_init s) (h_cum s) (h_comps s) (h_cl s) [] (h_aux s))
  | MHistory j k v => match nth_error (h_res s) j with
                      | Some (l, _) => set_list h l (set_nth (list_at h l) k v)
                      | None => h
                      end
  end.
(** A sequence of such calls; state.py:180-270. *)
Definition mutate_all (h : heap) (ms : list (nat * mutation)) : heap :=
  fold_left (fun h am => mutate h (fst am) (snd am)) ms h.

(** set_collection_as_statistical_mixture, collection_of_states.py:444-475, as far as the objects
    are concerned: the passed State objects themselves get the weight and the label and become the
    members of the collection under the given new identifiers. *)
Definition hmixture (lab : ident) (h : heap) (l : list (ident * nat * R)) : heap * hcoll :=
  (fold_left (fun h p => mutate (mutate h (snd (fst p)) (MCum (snd p))) (snd (fst p)) (MInit lab)) l h,
   map fst l).
