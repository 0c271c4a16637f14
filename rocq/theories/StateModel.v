(** Model of State objects and of the application of optical matrices to a collection.
    Source: src/fock_state_circuit/state.py, collection_of_states.py:672-697 and
    circuit.py:695-756.

    Values are modelled functionally here; sharing of mutable list objects between
    states is modelled in HeapModel.v. float64/complex128 arithmetic is real/complex
    arithmetic. *)
From Coq Require Import Reals List Arith Lia Bool.
From Coquelicot Require Import Complex.
From Verif Require Import Prelude NamesModel FockModel.
Import ListNotations.

(** A Python string (identifier or initial_state label): the list of its character codes. *)
(** state.py:160-178, collection_of_states.py:404-419. *)
Definition ident := list nat.

(** Keys of auxiliary_information. Only the two keys evaluate_circuit looks at are
    distinguished (collection_of_states.py:1065-1081). *)
Inductive auxkey := AuxPhotonResolution | AuxPopescuRohrlich | AuxOther (k : nat).

(** Values of auxiliary_information. 'popescu_rohrlich_correlation':
    popescu_rohrlich_correlations.py:255-261; the characters of the configuration are digits and
    the quantumness indicators real numbers. 'photon_resolution':
    column_of_states.py:207-211 and temporal_functions.py:129; every key can be absent;
    photon_information is (time_delay, pulse_width). Anything else is opaque. *)
Record pr_info := PRInfo {
  pr_id : ident; pr_config : list nat; pr_quantumness : list R; pr_label : ident; pr_weight : R }.
(** auxiliary_information['photon_resolution'], column_of_states.py:207-214. *)
Record resolution := Resolution {
  r_column : option nat; r_amplitude : option C; r_boson : option R; r_group : option nat;
  r_group_cum : option R; r_photon : option (R * R) }.
(** state.py:253-263. *)
Inductive auxval := AuxPR (i : pr_info) | AuxResolution (r : resolution) | AuxValue (n : nat).

(** state.py:117,160-178: the dictionary self.state. An optical component is a name with
    amplitude and stored probability; a measurement result is the list of classical values
    with the probability of the outcome. *)
Record state := State {
  s_init : ident;
  s_cum : R;
  s_comps : list (name * (C * R));
  s_classical : list R;
  s_results : list (list R * R);
  s_aux : list (auxkey * auxval) }.

(** Assignments to one key of the dictionary. *)
(** state.py:265-269. *)
Definition with_comps (st : state) (cs : list (name * (C * R))) : state :=
  State (s_init st) (s_cum st) cs (s_classical st) (s_results st) (s_aux st).
(** state.py:265-269. *)
Definition with_classical (st : state) (cl : list R) : state :=
  State (s_init st) (s_cum st) (s_comps st) cl (s_results st) (s_aux st).
(** state.py:265-269. *)
Definition with_cum (st : state) (p : R) : state :=
  State (s_init st) p (s_comps st) (s_classical st) (s_results st) (s_aux st).
(** state.py:265-269. *)
Definition with_init (st : state) (i : ident) : state :=
  State i (s_cum st) (s_comps st) (s_classical st) (s_results st) (s_aux st).

(** state.py:253-263. *)
Definition with_aux (st : state) (a : list (auxkey * auxval)) : state :=
  State (s_init st) (s_cum st) (s_comps st) (s_classical st) (s_results st) a.

(** Comparison of floats (<=), state.py:372-418. *)
Definition Rleb (a b : R) : bool := if Rle_dec a b then true else false.
(** Comparison of floats (<), state.py:372-418. *)
Definition Rltb (a b : R) : bool := if Rlt_dec a b then true else false.

(** State._check_valid_state, state.py:372-418 (type checks are not modelled);
    [ncl] = number of classical channels, [eps] = threshold_probability_for_setting_to_zero. *)
Definition check_state (eps : R) (ncl : nat) (st : state) : bool :=
  negb (Rltb (s_cum st) (- eps)) && negb (Rltb eps (s_cum st - 1))
  && forallb (fun c => negb (Rltb (snd (snd c)) (- 1 * eps)) && negb (Rltb (1 + eps) (snd (snd c))))
       (s_comps st)
  && (length (s_classical st) =? ncl).

(** State(...) with a complete dictionary, state.py:119-178: None = exception "invalid state". *)
Definition make_state (eps : R) (ncl : nat) (st : state) : option state :=
  if check_state eps ncl st then Some st else None.

(** State.copy, state.py:420-440. The values are those of the original; the constructor
    checks them again. *)
Definition copy_state (eps : R) (ncl : nat) (st : state) : option state := make_state eps ncl st.

(** initialize_this_state, state.py:478-499. *)
Definition initialized_state (D : dims) (ncl : nat) : state :=
  State (map (fun d => 48 + d) (at_index D 0)) 1 [(at_index D 0, (RtoC 1, 1%R))]
        (repeat 0%R ncl) [] [].

(** index_of(component). *)
(** state.py:532-546, optical_values_component_names.py:267-272. *)
Definition comp_index (D : dims) (nm : name) : nat := index_of_values D (values_of_name D nm).

(** translate_state_components_to_vector, state.py:532-546 (the vector). An index beyond the
    basis (IndexError in numpy) is not modelled. *)
Definition state_vector (D : dims) (st : state) : vec :=
  fold_left (fun (w : vec) c => upd w (comp_index D (fst c)) (fst (snd c)))
            (s_comps st) (fun _ => RtoC 0).

(** set_state_components_from_vector, state.py:548-567; np.abs(z)**2 is Cnorm2. The dictionary
    updates are written as a list because the names at_index(0), at_index(1), ... are distinct. *)
Definition components_from_vector (D : dims) (eps : R) (v : vec) : list (name * (C * R)) :=
  flat_map (fun i => if Rlt_dec (Cnorm2 (v i)) eps then []
                     else [(at_index D i, (v i, Cnorm2 (v i)))])
           (seq 0 (size_of_basis D)).

(** photon_number, state.py:356-370; None: max() of an empty list raises. *)
Definition photon_number (D : dims) (st : state) : option (nat * bool) :=
  match map (fun c => sum_values (values_of_name D (fst c))) (s_comps st) with
  | [] => None
  | p :: ps => let mx := fold_left Nat.max ps p in
               let mn := fold_left Nat.min ps p in
               Some (mx, mx =? mn)
  end.

(** The key '=N' / '<=N' of collection_of_states.py:685-689. *)
Definition selection_of (D : dims) (st : state) : option selection :=
  match photon_number D st with
  | None => None
  | Some (n, true) => Some (SelEq n)
  | Some (n, false) => Some (SelLe n)
  end.

(** Equality of the key strings. *)
(** collection_of_states.py:672-697. *)
Definition sel_eqb (a b : selection) : bool :=
  match a, b with
  | SelAll, SelAll => true
  | SelEq x, SelEq y => x =? y
  | SelLe x, SelLe y => x =? y
  | _, _ => false
  end.

(** d.setdefault(k, []).append(x) *)
(** collection_of_states.py:672-697. *)
Definition dappend {K V} (keq : K -> K -> bool) (k : K) (x : V) (d : list (K * list V)) :
  list (K * list V) :=
  match dget keq k d with
  | Some l => dset keq k (l ++ [x]) d
  | None => d ++ [(k, [x])]
  end.

(** for x in l: d.setdefault(f(x), []).append(x) *)
(** collection_of_states.py:672-697. *)
Definition group_by {K V} (keq : K -> K -> bool) (f : V -> K) (l : list V) : list (K * list V) :=
  fold_left (fun d x => dappend keq (f x) x d) l [].

(** The states of a collection: identifiers with states, in insertion order. *)
(** collection_of_states.py:274-335. *)
Definition items := list (ident * state).

(** An exception in one of the calls is an exception; auxiliary for circuit.py:695-756. *)
Fixpoint option_list {A} (l : list (option A)) : option (list A) :=
  match l with
  | [] => Some []
  | None :: _ => None
  | Some x :: r => match option_list r with Some r' => Some (x :: r') | None => None end
  end.

(** _group_states_together_by_photon_number, collection_of_states.py:672-697: selection keys
    with the identifiers in the group. None: some state has no component. *)
Definition group_states (D : dims) (its : items) : option (list (selection * list ident)) :=
  match option_list (map (fun it => match selection_of D (snd it) with
                                    | Some s => Some (s, fst it) | None => None end) its) with
  | None => None
  | Some l => Some (map (fun g => (fst g, map snd (snd g))) (group_by sel_eqb fst l))
  end.

(** Collection.copy, collection_of_states.py:596-614. *)
Definition copy_items (eps : R) (ncl : nat) (its : items) : option items :=
  option_list (map (fun it => match copy_state eps ncl (snd it) with
                              | Some s => Some (fst it, s) | None => None end) its).

(** The body of the inner loop of circuit.py:742-755 for one identifier. *)
Definition apply_to_identifier (D : dims) (eps : R) (M : mat) (keep : list nat)
    (its : items) (i : ident) : items :=
  match dget leqb i its with
  | None => its
  | Some st =>
      let v := apply_reduced M keep (state_vector D st) in
      dset leqb i (with_comps st (components_from_vector D eps v)) its
  end.

(** __apply_node_or_nodes_to_collection, circuit.py:695-756. [keys]: the result of
    OpticalValues.keys() of the circuit; [full]: use_full_fock_matrix; [nodes]: the optical
    nodes to be evaluated (or the single custom node). None: an exception is raised. *)
Definition apply_optical (D : dims) (ncl : nat) (eps : R) (full : bool) (keys : list values)
    (nodes : list onode) (its : items) : option items :=
  match copy_items eps ncl its with
  | None => None
  | Some its' =>
      let groups := if full then Some [(SelAll, dkeys its')] else group_states D its' in
      match groups with
      | None => None
      | Some gs =>
          fold_left
            (fun acc g =>
               match acc, fock_state_matrix D keys nodes (fst g) with
               | Some cur, Some (M, keep) =>
                   Some (fold_left (apply_to_identifier D eps M keep) (snd g) cur)
               | _, _ => None
               end) gs (Some its')
      end
  end.
