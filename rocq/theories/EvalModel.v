(** Model of FockStateCircuit.evaluate_circuit, src/fock_state_circuit/circuit.py:273-692. *)
From Coq Require Import Reals List Arith Lia Bool ZArith.
From Coquelicot Require Import Complex.
From Verif Require Import Prelude NamesModel FockModel OpticalModel StateModel CollectionModel.
Import ListNotations.

(** ** Measurement *)

(** np.round(x, 3): to three decimals, ties to even. *)
(** Used in circuit.py:659. *)
Definition round3 (x : R) : R :=
  let y := (x * 1000)%R in
  let n := (up y - 1)%Z in
  let d := (y - IZR n)%R in
  let m := if Rlt_dec d (1/2) then n
           else if Rlt_dec (1/2) d then (n + 1)%Z
           else if Z.even n then n else (n + 1)%Z in
  (IZR m / 1000)%R.

(** tuple(values[n] for n in optical_channels_to_measure), circuit.py:659. *)
Definition outcome_of (opt : list nat) (vs : values) : list nat := map (fun n => nth n vs 0) opt.

(** for i,n in enumerate(classical_channels): classical[n] = outcome[i], line 681-682, with the
    list cut to the number of optical channels (lines 650-651). Channel numbers are in range
    (measurement_nodes.py:34-37). *)
Definition write_classical (cl : list nat) (outcome : list nat) (classical : list R) : list R :=
  fold_left (fun acc cv => set_nth acc (fst cv) (INR (snd cv))) (combine cl outcome) classical.

(** The new state for one outcome, lines 667-690. None: the copy or both attempts to set the
    cumulative probability raise, or the outcome has probability 0 (division by zero gives
    nan amplitudes; treated as an exception). *)
Definition collapsed_state (D : dims) (ncl : nat) (eps : R) (cl : list nat) (st : state)
    (outcome : list nat) (members : list (values * C)) : option state :=
  let tot := Rsum members (fun m => Cnorm2 (snd m)) in
  if Req_EM_T tot 0 then None
  else match copy_state eps ncl st with
  | None => None
  | Some st0 =>
      let p := (s_cum st0 * tot)%R in
      match (match set_cumulative st0 p with
             | Some s => Some s | None => set_cumulative st0 (round3 p) end) with
      | None => None
      | Some st1 =>
          let classical := write_classical cl outcome (s_classical st1) in
          Some (State (s_init st1) (s_cum st1)
                  (dict_of leqb (map (fun m =>
                      let a := (snd m / RtoC (sqrt tot))%C in
                      (name_string D (fst m), (a, Cnorm2 a))) members))
                  classical (s_results st1 ++ [(classical, tot)]) (s_aux st1))
      end
  end.

(** _perform_measurement, lines 622-692: the states after measurement, in the order of the
    first component with that outcome (they get random identifiers which the caller drops). *)
Definition perform_measurement (D : dims) (ncl : nat) (eps : R) (opt cl : list nat) (st : state)
  : option (list state) :=
  let val_amp := map (fun c => (values_of_name D (fst c), fst (snd c))) (s_comps st) in
  option_list (map (fun g => collapsed_state D ncl eps cl st (fst g) (snd g))
                   (group_by leqb (fun m => outcome_of opt (fst m)) val_amp)).

(** __next_state_marker, lines 582-604: the status list of the generator, least significant
    letter first. *)
Fixpoint marker_step (status : list nat) : list nat :=
  match status with
  | [] => [0]
  | n :: r => if n =? 25 then 0 :: marker_step r else S n :: r
  end.
(** The letters of the marker, circuit.py:582-604. *)
Definition marker (j : nat) : ident := map (fun n => 97 + n) (Nat.iter j marker_step [0]).

(** ** Nodes and circuits *)

(** What the model knows of a node in node_list. Functions of 'generic function on
    collection' nodes and classical functions are arbitrary. *)
(** The node types of circuit.py:332-580 (node_type, node_info, matrix_optical, tensor_list). *)
Inductive node :=
| NOptical (A : mat2) (tl : list nat)
| NCustomFock (M : mat)
| NClassical (f : list R -> list R -> list nat -> list R) (new_values : list R) (channels : list nat)
| NMeasure (opt cl : list nat)
| NControlled (theta phi : R) (vars : list (bool * nat)) (tl : list nat)
    (* default theta and phi; (true, c): theta from classical channel c, (false, c): phi *)
| NFunction (f : coll -> option coll)
| NSpectrum
| NBridge (next : circuit)
with circuit :=
| Circuit (D : dims) (ncl : nat) (eps : R) (full : bool) (keys : list values) (nodes : list node).

(** node_list.py:66-141. *)
Definition c_D c := match c with Circuit D _ _ _ _ _ => D end.
(** node_list.py:66-141. *)
Definition c_ncl c := match c with Circuit _ n _ _ _ _ => n end.
(** _threshold_full_state_matrix / threshold, node_list.py:66-141. *)
Definition c_eps c := match c with Circuit _ _ e _ _ _ => e end.
(** _use_full_fock_matrix, node_list.py:66-141. *)
Definition c_full c := match c with Circuit _ _ _ f _ _ => f end.
(** what OpticalValues.keys() of the circuit returns *)
(** optical_values_component_names.py:423-425. *)
Definition c_keys c := match c with Circuit _ _ _ _ k _ => k end.
(** node_list, node_list.py:66-162. *)
Definition c_nodes c := match c with Circuit _ _ _ _ _ n => n end.

(** CollectionOfStates(self, ...) *)
(** collection_of_states.py:274-335. *)
Definition coll_of (c : circuit) (its : items) : coll := Coll (c_D c) (c_ncl c) (c_eps c) its.

(** ** Node methods *)

(** set_classical_channels, nodes/classical_nodes.py:92-138 (the effect on the values; that the
    list object is changed in place is modelled in HeapModel.v). None: exception (max of an empty
    list raises as well). *)
Definition set_values (old nv : list R) (chs : list nat) : list R :=
  fold_left (fun acc cv => set_nth acc (fst cv) (snd cv)) (combine chs nv) old.
(** set_classical_channels, nodes/classical_nodes.py:92-138. *)
Definition set_classical_channels (ncl : nat) (vals : list R) (chs : list nat) : option node :=
  match chs with
  | [] => None
  | _ => if (length vals =? length chs) && forallb (fun c => c <? ncl) chs
         then Some (NClassical set_values vals chs) else None
  end.
(** measure_optical_to_classical, nodes/measurement_nodes.py:18-61. *)
Definition measure_optical_to_classical (n ncl : nat) (opt cl : list nat) : option node :=
  if (length cl =? length opt) && forallb (fun c => c <? n) opt && forallb (fun c => c <? ncl) cl
  then Some (NMeasure opt cl) else None.
(** phase_shift_single_channel_classical_control, nodes/controlled_nodes.py:37-100. The checks
    compare with > instead of >=; an optical channel equal to the number of channels fails in the
    tensor list. *)
Definition phase_shift_classical_control (n ncl : nat) (c cl : nat) : option node :=
  if (ncl <? cl) || (n <? c) then None
  else option_map (NControlled 0 0 [(false, cl)])
         (tensor_list_of n (if c =? 0 then [1; 0] else [0; c])).
(** wave_plate_classical_control, nodes/controlled_nodes.py:102-169. *)
Definition wave_plate_classical_control (n ncl : nat) (h v c_theta c_phi : nat) : option node :=
  if (ncl <? Nat.max c_phi c_theta) || (n <? Nat.max h v) then None
  else option_map (NControlled (PI / 2) 0 [(true, c_theta); (false, c_phi)]) (tensor_list_of n [h; v]).

(** node_type == 'optical', circuit.py:326-330, 351. *)
Definition is_optical (nd : node) : bool := match nd with NOptical _ _ => true | _ => false end.
(** node_type == 'measurement optical to classical', circuit.py:606-620. *)
Definition is_measure (nd : node) : bool := match nd with NMeasure _ _ => true | _ => false end.
(** The optical nodes of a list, circuit.py:326-330 and 695-756. *)
Definition onode_of (nd : node) : list onode := match nd with NOptical A tl => [ONode A tl] | _ => [] end.

(** __get_identifier_for_measurement, lines 606-620. *)
Definition count_measure (l : list node) : nat := length (filter is_measure l).
(** __get_identifier_for_measurement, circuit.py:606-620. *)
Definition measurement_number (nodes : list node) (k : nat) : ident :=
  map (fun d => 48 + d)
    (pad (ndigits (count_measure nodes)) (count_measure (firstn (S k) nodes))).

(** identifier + '-M' + measurement_identifier + next(marker), line 450. *)
Definition measured_identifier (i num : ident) (j : nat) : ident := i ++ [45; 77] ++ num ++ marker j.

(** Photon-resolved measurements (perform_measurement_photon_resolved) and measurements of
    Popescu-Rohrlich correlations are not part of this model: arbitrary functions. *)
(** spectral_nodes.py:287-320 and superquantum_nodes.py:102-156. *)
Record externals := Externals {
  x_resolved : list nat -> list nat -> coll -> option coll;
  x_pr : list nat -> list nat -> coll -> option coll }.

(** Equality of dictionary keys, collection_of_states.py:1065-1081. *)
Definition aux_eqb (a b : auxkey) : bool :=
  match a, b with
  | AuxPhotonResolution, AuxPhotonResolution => true
  | AuxPopescuRohrlich, AuxPopescuRohrlich => true
  | AuxOther x, AuxOther y => x =? y
  | _, _ => false
  end.
(** is_photon_resolved / has_pr_correlations, collection_of_states.py:1065-1081. *)
Definition all_have (k : auxkey) (its : items) : bool :=
  forallb (fun it => dmem aux_eqb k (s_aux (snd it))) its.

(** Lines 436-451: the plain measurement of all states. *)
Definition measure_items (c : circuit) (k : nat) (opt cl : list nat) (its : items) : option items :=
  let num := measurement_number (c_nodes c) k in
  fold_left (fun (acc : option items) (it : ident * state) =>
      match acc, perform_measurement (c_D c) (c_ncl c) (c_eps c) opt cl (snd it) with
      | Some out, Some sts =>
          Some (fold_left (fun o js => add_state (measured_identifier (fst it) num (fst js)) (snd js) o)
                  (combine (seq 0 (length sts)) sts) out)
      | _, _ => None
      end) its (Some []).

(** Lines 363-381: custom Fock matrix; the results get random identifiers. *)
Definition custom_items (c : circuit) (rnd : nat -> nat) (M : mat) (its : items) (seed : nat)
  : option (items * nat) :=
  fold_left (fun (acc : option (items * nat)) (it : ident * state) =>
      match acc, copy_state (c_eps c) (c_ncl c) (snd it) with
      | Some (out, sd), Some st =>
          let v := mat_vec (size_of_basis (c_D c)) M (state_vector (c_D c) (snd it)) in
          Some (add_state_random rnd sd (with_comps st (components_from_vector (c_D c) (c_eps c) v)) out)
      | _, _ => None
      end) its (Some ([], seed)).

(** Lines 386-397: classical nodes; the setter checks the length of the new list. *)
Definition classical_items (c : circuit) (f : list R -> list R -> list nat -> list R)
    (nv : list R) (chs : list nat) (its : items) : option items :=
  option_list (map (fun it : ident * state =>
      let cl := f (s_classical (snd it)) nv chs in
      if length cl =? c_ncl c then Some (fst it, with_classical (snd it) cl) else None) its).

(** Lines 482-491: theta and phi for a state. None: IndexError. *)
Definition controlled_angles (theta phi : R) (vars : list (bool * nat)) (classical : list R)
  : option (R * R) :=
  fold_left (fun (acc : option (R * R)) (v : bool * nat) =>
      match acc, nth_error classical (snd v) with
      | Some (t, p), Some x => Some (if fst v then (x, p) else (t, x))
      | _, _ => None
      end) vars (Some (theta, phi)).

(** Lines 480-511: every state gets its own gate; the result keeps the identifier. *)
Definition controlled_items (c : circuit) (theta phi : R) (vars : list (bool * nat)) (tl : list nat)
    (its : items) : option items :=
  fold_left (fun (acc : option items) (it : ident * state) =>
      match acc, controlled_angles theta phi vars (s_classical (snd it)) with
      | Some out, Some (t, p) =>
          match apply_optical (c_D c) (c_ncl c) (c_eps c) (c_full c) (c_keys c)
                  [ONode (generic_matrix t p) tl] [it] with
          | None => None
          | Some res => Some (fold_left (fun o it2 => add_state (fst it2) (snd it2) o) res out)
          end
      | _, _ => None
      end) its (Some []).

(** Lines 558-574: reshaping of the collection for the next circuit. *)
Definition bridge_reshape (rnd : nat -> nat) (c next : circuit) (cs : coll) (seed : nat)
  : option (coll * nat) :=
  match copy_collection cs with
  | None => None
  | Some cs0 =>
    let no := dN (c_D next) in let o := dN (c_D c) in
    let ncl' := c_ncl next in let ncl := c_ncl c in
    match (if o <? no then extend rnd seed (no - o) 0 [] cs0
           else if no <? o then option_map (fun x => (x, seed)) (reduce (seq 0 no) [] cs0)
           else Some (cs0, seed)) with
    | None => None
    | Some (cs1, seed1) =>
      match (if ncl <? ncl' then extend rnd seed1 0 (ncl' - ncl) [] cs1
             else if ncl' <? ncl then option_map (fun x => (x, seed1)) (reduce [] (seq 0 ncl') cs1)
             else Some (cs1, seed1)) with
      | None => None
      | Some (cs2, seed2) => option_map (fun x => (x, seed2)) (adjust_length (dL (c_D next)) cs2)
      end
    end
  end.

(** ** evaluate_circuit *)
(** Outcome of a call: a value, an exception, or (never for the fuel used, see EvalProofs) out of fuel. Not in the code (circuit.py:273-580 recurses). *)
Inductive result (A : Type) := Ok (a : A) | Raise | OutOfFuel.
Arguments Ok {A}. Arguments Raise {A}. Arguments OutOfFuel {A}.
(** None: exception. Auxiliary for circuit.py:273-580. *)
Definition of_option {A} (o : option A) : result A := match o with Some a => Ok a | None => Raise end.
(** Sequencing with exceptions; auxiliary for circuit.py:273-580. *)
Definition rbind {A B} (r : result A) (f : A -> result B) : result B :=
  match r with Ok a => f a | Raise => Raise | OutOfFuel => OutOfFuel end.

(** self.node_list[index], circuit.py:332-340. *)
Definition node_at (c : circuit) (k : nat) : node := nth k (c_nodes c) NSpectrum.

(** The leading node indices of type 'optical', lines 326-331. *)
Fixpoint optical_prefix (c : circuit) (inds : list nat) : list nat :=
  match inds with
  | k :: r => if is_optical (node_at c k) then k :: optical_prefix c r else []
  | [] => []
  end.

(** One non-optical node (lines 363-552); bridges are handled by [eval]. The 'spectrum' case
    calls a method that does not exist (_apply_time_delay), so it raises unless the collection
    is empty; here: it raises. *)
Definition run_node (X : externals) (rnd : nat -> nat) (c : circuit) (k : nat) (cs : coll) (seed : nat)
  : option (coll * nat) :=
  match node_at c k with
  | NCustomFock M => option_map (fun r => (coll_of c (fst r), snd r)) (custom_items c rnd M (co_items cs) seed)
  | NClassical f nv chs => option_map (fun i => (with_items cs i, seed)) (classical_items c f nv chs (co_items cs))
  | NMeasure opt cl =>
      if all_have AuxPhotonResolution (co_items cs) then option_map (fun x => (x, seed)) (x_resolved X opt cl cs)
      else if all_have AuxPopescuRohrlich (co_items cs) then option_map (fun x => (x, seed)) (x_pr X opt cl cs)
      else option_map (fun i => (coll_of c i, seed)) (measure_items c k opt cl (co_items cs))
  | NControlled t p vars tl =>
      option_map (fun i => (coll_of c i, seed)) (controlled_items c t p vars tl (co_items cs))
  | NFunction f => option_map (fun x => (x, seed)) (f cs)
  | NOptical _ _ | NSpectrum | NBridge _ => None
  end.

(** The optical nodes with the given indices, lines 351-355. *)
Definition run_optical (c : circuit) (ks : list nat) (cs : coll) : option coll :=
  option_map (coll_of c)
    (apply_optical (c_D c) (c_ncl c) (c_eps c) (c_full c) (c_keys c)
       (flat_map (fun k => onode_of (node_at c k)) ks) (co_items cs)).

(** The recursion of evaluate_circuit, circuit.py:303-580. *)
Fixpoint eval (fuel : nat) (X : externals) (rnd : nat -> nat) (c : circuit) (inds : list nat)
    (cs : coll) (seed : nat) : result (coll * nat) :=
  match fuel with
  | O => OutOfFuel
  | S fuel' =>
    match inds with
    | [] => Ok (cs, seed)
    | k :: r =>
      if negb (forallb (fun i => i <? length (c_nodes c)) inds) then Raise
      else match node_at c k with
      | NOptical _ _ =>
          let ks := optical_prefix c inds in
          let rest := if list_max inds <=? list_max ks then [] else skipn (length ks) inds in
          match run_optical c ks cs with
          | None => Raise
          | Some cs' => eval fuel' X rnd c rest cs' seed
          end
      | NBridge next =>
          match bridge_reshape rnd c next cs seed with
          | None => Raise
          | Some (cs', seed') => eval fuel' X rnd next (seq 0 (length (c_nodes next))) cs' seed'
          end
      | _ =>
          let rest := if list_max inds <=? k then [] else r in
          match run_node X rnd c k cs seed with
          | None => Raise
          | Some (cs', seed') => eval fuel' X rnd c rest cs' seed'
          end
      end
    end
  end.

(** An upper bound for the number of recursive calls of evaluate_circuit. *)
(** Fuel for circuit.py:303-580, not in the code. *)
Fixpoint size_of_circuit (c : circuit) : nat :=
  match c with
  | Circuit _ _ _ _ _ nodes =>
      S (length nodes) +
      (fix go (l : list node) : nat :=
         match l with
         | [] => 0
         | NBridge next :: r => size_of_circuit next + go r
         | _ :: r => go r
         end) nodes
  end.

(** evaluate_circuit(collection, list of node indices) / evaluate_circuit(collection) for all
    nodes. [rnd]: the random numbers drawn for identifiers, [seed]: how many were drawn before
    the call; the result contains the number drawn after the call. Python's recursion limit is
    not modelled. *)
(** circuit.py:273-580. *)
Definition evaluate_from (X : externals) (rnd : nat -> nat) (c : circuit) (inds : list nat)
    (cs : coll) (seed : nat) : result (coll * nat) :=
  eval (S (length inds) + size_of_circuit c) X rnd c inds cs seed.
(** circuit.py:273-331. *)
Definition evaluate_nodes (X : externals) (rnd : nat -> nat) (c : circuit) (inds : list nat)
    (cs : coll) : result coll :=
  rbind (evaluate_from X rnd c inds cs 0) (fun r => Ok (fst r)).
(** circuit.py:273-331 without a list of nodes. *)
Definition evaluate_circuit (X : externals) (rnd : nat -> nat) (c : circuit) (cs : coll) : result coll :=
  evaluate_nodes X rnd c (seq 0 (length (c_nodes c))) cs.
(** evaluate_circuit() without collection, lines 317-319 (for a circuit with at least one
    node; an empty circuit returns None, line 307). *)
Definition evaluate_default (X : externals) (rnd : nat -> nat) (c : circuit) : result coll :=
  evaluate_circuit X rnd c (default_collection (c_D c) (c_ncl c) (c_eps c)).
