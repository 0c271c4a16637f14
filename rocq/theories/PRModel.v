(** Model of Popescu-Rohrlich correlations:
    src/fock_state_circuit/popescu_rohrlich_correlation_functionality/popescu_rohrlich_correlations.py
    (PRC below) and popescu_rohrlich_photon_pair_amplitude_functionality.py (PRA below), and the
    node of src/fock_state_circuit/nodes/superquantum_nodes.py:16-100. Exact numbers; nan
    (division by zero) is treated as an exception: None. *)
From Coq Require Import Reals List Arith Bool.
From Coquelicot Require Import Complex.
From Verif Require Import Prelude NamesModel FockModel StateModel CollectionModel EvalModel OperatorModel.
Import ListNotations.

(** ** From the amplitudes of the configurations to the photons (PRA) *)

(** The digits 0..3 of configurations of [d] pairs, in the order of np.base_repr (PRC:238-240),
    which is also the order of the elements of the matrix. *)
Fixpoint all_words (d : nat) : list (list nat) :=
  match d with
  | O => [[]]
  | S d' => flat_map (fun i => map (cons i) (all_words d')) (seq 0 4)
  end.

(** generate_matrix_from_dict, PRA:172-185. *)
Definition tensor_of (dict : list (list nat * C)) : list nat -> C :=
  fun w => match dget leqb w dict with Some a => a | None => RtoC 0 end.

(** np.exp(1j*np.angle(z)); np.angle(0) = 0. *)
(** PRA:133-155. *)
Definition unit_of (z : C) : C := if Ceq_dec z (RtoC 0) then RtoC 1 else (z / RtoC (Cmod z))%C.

(** np.argmax: the first element with the largest value. *)
(** PRA:133-155. *)
Fixpoint argmax {A} (f : A -> R) (best : A) (l : list A) : A :=
  match l with [] => best | x :: r => argmax f (if Rlt_dec (f best) (f x) then x else best) r end.
(** PRA:133-155. *)
Definition argmax_of {A} (f : A -> R) (l : list A) : option A :=
  match l with [] => None | x :: r => Some (argmax f x r) end.

(** vector_from_matrix, PRA:133-155, for a matrix with first index below [n] and the other
    indices in [rest]. None: the matrix is zero. *)
Definition vector_from_matrix (n : nat) (rest : list (list nat)) (M : nat -> list nat -> C) : option (nat -> C) :=
  let idx := list_prod (seq 0 n) rest in
  let total := Rsum idx (fun x => Cnorm2 (M (fst x) (snd x))) in
  if Req_EM_T total 0 then None else
  match argmax_of (fun x => Cnorm2 (M (fst x) (snd x))) idx with
  | None => None
  | Some m =>
      let scaled := fun i w => (M i w / RtoC (sqrt total))%C in
      let phase := (scaled (fst m) (snd m) / RtoC (Cmod (scaled (fst m) (snd m))))%C in
      let rescaled := fun i w => (M i w / phase)%C in
      let squares := fun i => Rsum rest (fun w => Cnorm2 (M i w)) in
      let ratio := fun i => sqrt (squares i / Rsum (seq 0 n) squares) in
      Some (fun i => RtoC (ratio i) * unit_of (rescaled i (snd m)))%C
  end.

(** np.swapaxes(matrix, k, 0). *)
(** PRA:133-155. *)
Definition swap_word (k : nat) (w : list nat) : list nat := set_nth (set_nth w 0 (nth k w 0)) k (nth 0 w 0).

(** self.reproduced_vectors, PRA:102-111. *)
Definition reproduced_vectors (d : nat) (T : list nat -> C) : option (list (nat -> C)) :=
  if 1 <? d
  then option_list (map (fun k => vector_from_matrix 4 (all_words (d - 1)) (fun i r => T (swap_word k (i :: r)))) (seq 0 d))
  else Some [fun i => T [i]].

(** photon_amplitudes_from_reproduced_vector, PRA:223-240. *)
Definition photon_amplitudes (v : nat -> C) : option ((nat -> C) * (nat -> C)) :=
  match vector_from_matrix 2 [[0]; [1]] (fun a r => v (2 * a + hd 0 r)),
        vector_from_matrix 2 [[0]; [1]] (fun b r => v (2 * hd 0 r + b)) with
  | Some p1, Some p2 => Some (p1, p2)
  | _, _ => None
  end.

(** stokes_vector_from_amplitudes, PRA:278-316 (the vector). *)
Definition stokes_vector (p : nat -> C) : option (R * R * R) :=
  let h := p 0 in let v := p 1 in
  let n := (Cnorm2 h + Cnorm2 v)%R in
  if Req_EM_T n 0 then None else
  let z := ((Cnorm2 h - Cnorm2 v) / n)%R in
  let xy := sqrt (1 - z * z) in
  let ph := if Ceq_dec h (RtoC 0) then RtoC 1 else if Ceq_dec v (RtoC 0) then RtoC 1 else unit_of (h / v)%C in
  Some (snd ph * xy, fst ph * xy, z)%R.

(** compare_matrices_ppm_level, PRA:187-211, for matrices with indices in [idx]. None: nan. *)
Definition difference_ppm {A} (idx : list A) (old new : A -> C) : option R :=
  let n1 := sqrt (Rsum idx (fun x => Cnorm2 (old x))) in
  let n2 := sqrt (Rsum idx (fun x => Cnorm2 (new x))) in
  if Req_EM_T n1 0 then None else if Req_EM_T n2 0 then None else
  let o := fun x => (old x / RtoC n1)%C in let n := fun x => (new x / RtoC n2)%C in
  match argmax_of (fun x => Cmod (o x)) idx with
  | None => None
  | Some m =>
      if Ceq_dec (n m) (RtoC 0) then None else
      let po := (o m / RtoC (Cmod (o m)))%C in let pn := (n m / RtoC (Cmod (n m)))%C in
      Some (sqrt (Rsum idx (fun x => Cnorm2 (o x / po - n x / pn)%C)) * 1000000)%R
  end.
(** The comparison with the tolerance, PRA:187-211. *)
Definition below (o : option R) : bool := match o with Some r => Rltb r 1 | None => false end.

(** dict_from_reproduced_vectors, PRA:157-170. *)
Definition product_of (vs : list (nat -> C)) (w : list nat) : C :=
  fold_right (fun (vi : (nat -> C) * nat) acc => (fst vi (snd vi) * acc)%C) (RtoC 1) (combine vs w).
(** is_dict_factorable, PRA:213-221. *)
Definition dict_factorable (d : nat) (T : list nat -> C) (vs : list (nat -> C)) : bool :=
  below (difference_ppm (all_words d) T (product_of vs)).
(** is_photon_pair_factorable and are_all_photon_pairs_factorable, PRA:258-276. *)
Definition pair_factorable (v : nat -> C) : bool :=
  match photon_amplitudes v with
  | None => false
  | Some (p1, p2) => below (difference_ppm (seq 0 4) v (fun i => Cmult (p1 (i / 2)) (p2 (i mod 2))))
  end.

(** ** Probabilities (PRC) *)

(** Inner product of two Stokes vectors, PRC:93-114. *)
Definition inner3 (a b : R * R * R) : R :=
  (fst (fst a) * fst (fst b) + snd (fst a) * snd (fst b) + snd a * snd b)%R.
(** np.sign(x)*np.power(np.sign(x)*x, 1/q); 0 for x = 0. *)
(** PRC:93-114. *)
Definition signed_root (q x : R) : R :=
  if Rlt_dec 0 x then Rpower x (1 / q) else if Rlt_dec x 0 then (- Rpower (- x) (1 / q))%R else 0%R.
(** _probability_from_stokes_vectors, PRC:93-114. *)
Definition alignment_probability (v1 v2 : R * R * R) (q : R) : R :=
  (1 / 2 * (signed_root q (inner3 v1 v2 / sqrt (inner3 v1 v1 * inner3 v2 v2)) + 1))%R.

(** One outcome of _measure_collection_with_pr_correlation, PRC:301-329; [dict]: the amplitudes of
    the configurations. Line 311: the condition is (not A) and B. *)
Definition outcome_probability (qs : list R) (weight : R) (dict : list (list nat * C)) : option R :=
  match dict with
  | [] => None
  | (w0, _) :: _ =>
    let d := length w0 in
    let T := tensor_of dict in
    match reproduced_vectors d T with
    | None => None
    | Some vs =>
      match option_list (map photon_amplitudes vs) with
      | None => None
      | Some ps =>
        match option_list (map (fun p => match stokes_vector (fst p), stokes_vector (snd p) with
                                         | Some a, Some b => Some (a, b) | _, _ => None end) ps) with
        | None => None
        | Some ss =>
          if negb (dict_factorable d T vs) && forallb pair_factorable vs then None
          else if length ss <? length qs then None
          else
            let overall := Rsum dict (fun x => Cnorm2 (snd x)) in
            Some (fold_left (fun p x => p * alignment_probability (fst (fst x)) (snd (fst x)) (snd x))%R
                    (combine ss qs) overall * weight)%R
        end
      end
    end
  end.

(** _group_configurations_per_outcome, PRC:116-147. None: no information in a state. *)
Definition pr_info_of (st : state) : option pr_info :=
  match dget aux_eqb AuxPopescuRohrlich (s_aux st) with Some (AuxPR i) => Some i | _ => None end.
(** One state of the group, PRC:116-147. *)
Definition group_component (config : list nat) (cum : R)
    (groups : list (name * list (list nat * C))) (c : name * (C * R)) : list (name * list (list nat * C)) :=
  let a := (fst (snd c) * RtoC (sqrt cum))%C in
  match dget leqb (fst c) groups with
  | Some d => dset leqb (fst c) (dset leqb config a d) groups
  | None => dset leqb (fst c) [(config, a)] groups
  end.
(** _group_configurations_per_outcome, PRC:116-147. *)
Definition group_configurations (sts : list state) : option (list (name * list (list nat * C))) :=
  fold_left (fun (acc : option (list (name * list (list nat * C)))) (st : state) =>
    match acc, pr_info_of st with
    | Some groups, Some i => Some (fold_left (group_component (pr_config i) (s_cum st)) (s_comps st) groups)
    | _, _ => None
    end) sts (Some []).

(** _measure_collection_with_pr_correlation, PRC:266-331: quantumness indicators and weight are
    those of the first state. *)
Definition pr_histogram (sts : list state) : option (list (name * R)) :=
  match sts with
  | [] => None
  | st :: _ =>
    match pr_info_of st, group_configurations sts with
    | Some i, Some groups =>
        option_list (map (fun g => option_map (fun p => (fst g, p)) (outcome_probability (pr_quantumness i) (pr_weight i) (snd g))) groups)
    | _, _ => None
    end
  end.

(** The states written for one identifier, PRC:362-388; [st]: the first state of the group. The
    states are changed in place by the code (lines 367-368), which only matters for the input
    collection and is not modelled. *)
Definition pr_measured_state (D : dims) (eps : R) (ncl : nat) (opt cl : list nat) (lab : ident) (st : state) (o : name * R)
  : option state :=
  match copy_state eps ncl (with_aux (with_init st lab) (ddel aux_eqb AuxPopescuRohrlich (s_aux st))) with
  | None => None
  | Some s1 =>
    match set_cumulative s1 (snd o) with None => None | Some s =>
    if forallb (fun c => c <? ncl) (map fst (combine cl opt)) && forallb (fun c => c <? dN D) (map snd (combine cl opt)) then
      let vs := values_of_name D (fst o) in
      let classical := fold_left (fun l (p : nat * nat) => set_nth l (fst p) (INR (nth (snd p) vs 0))) (combine cl opt) (s_classical s) in
      Some (State (s_init s) (s_cum s) [(fst o, (RtoC 1, 1%R))] classical (s_results s ++ [(classical, snd o)]) (s_aux s))
    else None
    end
  end.

(** The states of the collection per identifier, PRC:353-357. *)
Definition pr_groups (sts : list state) : option (list (ident * list state)) :=
  fold_left (fun (acc : option (list (ident * list state))) (st : state) =>
    match acc, pr_info_of st with
    | Some gs, Some i =>
        Some (match dget leqb (pr_id i) gs with
              | Some l => dset leqb (pr_id i) (l ++ [st]) gs
              | None => dset leqb (pr_id i) [st] gs
              end)
    | _, _ => None
    end) sts (Some []).

(** The measurement of one group, PRC:334-388. *)
Definition pr_measure_group (D : dims) (eps : R) (ncl : nat) (opt cl : list nat) (g : list state) : option (list state) :=
  match g with
  | [] => None
  | st :: _ =>
    match pr_info_of st, pr_histogram g with
    | Some i, Some histo => option_list (map (pr_measured_state D eps ncl opt cl (pr_label i) st) histo)
    | _, _ => None
    end
  end.

(** perform_measurement_popescu_rohrlich_correlation, PRC:334-390. *)
Definition pr_measure (rnd : nat -> nat) (opt cl : list nat) (cs : coll) : option coll :=
  match pr_groups (map snd (co_items cs)) with
  | None => None
  | Some gs =>
      option_map (fun l => with_items cs (fst (add_states_random rnd 0 (concat l) [])))
        (option_list (map (fun g => pr_measure_group (co_D cs) (co_eps cs) (co_ncl cs) opt cl (snd g)) gs))
  end.

(** ** The gate *)

(** Line 240: the photon numbers for the digits 0..3: hh, hv, vh and vv. *)
Definition config_values (digit : nat) : list nat :=
  match digit with 0 => [1;0;1;0] | 1 => [1;0;0;1] | 2 => [0;1;1;0] | _ => [0;1;0;1] end.

(** Lines 252-258: the new photon numbers of a component. *)
Definition config_component (pairs : list (list nat * R)) (config : list nat) (vs : values) : values :=
  fold_left (fun vs (dp : nat * (list nat * R)) => replace_values (fst (snd dp)) (config_values (fst dp)) vs)
            (combine config pairs) vs.

(** One state of _create_collection_with_popescu_rohrlich_correlations, PRC:246-263. [pairs]: the
    channels Ah, Av, Bh, Bv and the quantumness of every pair; [rid]: the random identifier.
    None: IndexError or KeyError. A pair with more than four channels (IndexError) is an error; of
    a pair with fewer the last values are not used. *)
Definition pr_state (D : dims) (eps : R) (ncl : nat) (rid : ident) (pairs : list (list nat * R)) (st : state) (config : list nat)
  : option state :=
  match copy_state eps ncl st with
  | None => None
  | Some s =>
    if forallb (fun p => (length (fst p) <=? 4) && forallb (fun c => c <? dN D) (fst p)) pairs then
      option_map (fun comps =>
          State (s_init s) ((1 / 2) ^ length pairs)%R (components_of_list comps) (s_classical s) (s_results s)
            (dset aux_eqb AuxPopescuRohrlich
               (AuxPR (PRInfo rid config (map snd pairs) (s_init st) (s_cum st))) (s_aux s)))
        (option_list (map (fun c =>
            let vs := config_component pairs config (values_of_name D (fst c)) in
            if contains_values D vs then Some (name_string D vs, fst (snd c)) else None) (s_comps st)))
    else None
  end.

(** execute_popescu_rohrlich_gate, PRC:149-202; the state number [k] of the collection gets the
    random identifier [rid k]. *)
Definition pr_gate (rnd : nat -> nat) (rid : nat -> ident) (pairs : list (list nat * R)) (cs : coll) : option coll :=
  option_map (fun l => with_items cs (fst (add_states_random rnd 0 (concat l) [])))
    (option_list (map (fun kit : nat * (ident * state) =>
        option_list (map (pr_state (co_D cs) (co_eps cs) (co_ncl cs) (rid (fst kit)) pairs (snd (snd kit))) (all_words (length pairs))))
      (combine (seq 0 (length (co_items cs))) (co_items cs)))).

(** popescu_rohrlich_correlation_gate, superquantum_nodes.py:16-100. *)
Definition popescu_rohrlich_correlation_gate (rnd : nat -> nat) (rid : nat -> ident) (pairs : list (list nat * R)) : node :=
  NFunction (pr_gate rnd rid pairs).
(** perform_measurement_pr_correlation, superquantum_nodes.py:102-156, as called by
    evaluate_circuit. *)
Definition with_pr (rnd : nat -> nat) (X : externals) : externals := Externals (x_resolved X) (pr_measure rnd).
