(** Model of quantum operators given by Hamiltonians:
    src/fock_state_circuit/quantum_operator_functionality/quantum_operators.py and
    src/fock_state_circuit/nodes/quantum_operator_nodes.py. Exact numbers instead of np.csingle. *)
From Coq Require Import Reals List Arith ZArith Bool.
From Coquelicot Require Import Complex.
From Verif Require Import Prelude NamesModel FockModel StateModel CollectionModel EvalModel.
Import ListNotations.

(** A character of the operator string: '+', '-' or any other. *)
(** quantum_operators.py:160-170. *)
Inductive command := Plus | Minus | Skip.

(** Hamiltonian, quantum_operators.py:43-71: list of (string, coefficient) and operator_channels. *)
Record hamiltonian := Ham { h_operators : list (list command * C); h_channels : list nat }.

(** len(set(operator_channels)), lines 130 and 155. *)
Definition number_of_channels (chs : list nat) : nat := length (nodup Nat.eq_dec chs).

(** The limited basis, lines 113-140, is the basis of a circuit with that many channels: index
    and tuple are related as in node_list.py:227-228. *)
Definition limited (L : nat) (chs : list nat) : dims := Dims L (number_of_channels chs) true.

(** The loop over the characters of one operator, lines 163-172; None: the loop is left by break. *)
Fixpoint run_word (w : list (nat * command)) (vs : values) (coef : C) : option (values * C) :=
  match w with
  | [] => Some (vs, coef)
  | (ch, Plus) :: r =>
      let n := nth ch vs 0 + 1 in run_word r (set_nth vs ch n) (coef * RtoC (sqrt (INR n)))%C
  | (ch, Minus) :: r =>
      if nth ch vs 0 =? 0 then None
      else run_word r (set_nth vs ch (nth ch vs 0 - 1)) (coef * RtoC (sqrt (INR (nth ch vs 0))))%C
  | (_, Skip) :: r => run_word r vs coef
  end.

(** _generate_limited_matrix, lines 142-178: matrix[input index, output index]. *)
Definition limited_matrix (L : nat) (chs : list nat) (ops : list (list command * C)) : mat :=
  let K := limited L chs in
  fun i o => Csum ops (fun op =>
    match run_word (combine chs (fst op)) (values_from_index K i) (snd op) with
    | None => RtoC 0
    | Some (vs, coef) => if forallb (fun v => v <? L) vs && (index_of_values K vs =? o) then coef else RtoC 0
    end).

(** np.linalg.matrix_power *)
(** quantum_operators.py:180-189. *)
Fixpoint mat_pow (d : nat) (M : mat) (n : nat) : mat :=
  match n with
  | O => fun i j => if i =? j then RtoC 1 else RtoC 0
  | S n' => mat_mul d (mat_pow d M n') M
  end.

(** _exponentiaze, lines 180-189, for one matrix: the powers 0 .. power - 1. *)
Definition exponential (d power : nat) (M : mat) : mat :=
  fun i j => fold_left (fun acc n => acc + RtoC (/ INR (fact n)) * mat_pow d M n i j)%C
               (seq 1 (power - 1)) (if i =? j then RtoC 1 else RtoC 0).

(** _combine_operators, lines 191-198: every matrix is multiplied from the left. *)
Definition combine_matrices (d : nat) (l : list mat) : mat :=
  fold_left (fun T M => mat_mul d M T) l (fun i j => if i =? j then RtoC 1 else RtoC 0).

(** The channels of the '+' and '-' characters must exist in the limited basis (IndexError). The
    code raises only when it reaches such a character; the model always does. Negative channel
    numbers are not modelled. *)
(** quantum_operators.py:160-175. *)
Definition word_ok (k : nat) (w : list (nat * command)) : bool :=
  forallb (fun x => match snd x with Skip => true | _ => fst x <? k end) w.

(** QuantumOperator: the transition matrix, __post_init__ (lines 98-111). operator_channels are
    those of the first Hamiltonian. An empty list of Hamiltonians raises; an empty list of
    channels (max of an empty list raises) is treated as an exception. *)
Definition operator_channels (hs : list hamiltonian) : list nat := match hs with h :: _ => h_channels h | [] => [] end.
(** __post_init__, quantum_operators.py:97-111. *)
Definition transition_matrix (L power : nat) (hs : list hamiltonian) : option mat :=
  let chs := operator_channels hs in
  match chs with
  | [] => None
  | _ =>
    if forallb (fun h => forallb (fun op => word_ok (number_of_channels chs) (combine chs (fst op))) (h_operators h)) hs then
      let d := size_of_basis (limited L chs) in
      Some (combine_matrices d (map (fun h => exponential d power (limited_matrix L chs (h_operators h))) hs))
    else None
  end.

(** np.round(x, 4): to four decimals, ties to even. *)
(** quantum_operators.py:237. *)
Definition round4 (x : R) : R :=
  let y := (x * 10000)%R in
  let n := (up y - 1)%Z in
  let d := (y - IZR n)%R in
  let m := if Rlt_dec d (1/2) then n
           else if Rlt_dec (1/2) d then (n + 1)%Z
           else if Z.even n then n else (n + 1)%Z in
  (IZR m / 10000)%R.

(** Line 237: the coefficient is used. *)
Definition coef_kept (eps : R) (z : C) : bool := Rltb eps (round4 (Cmod z) * round4 (Cmod z)).

(** Lines 239-241: the values of the selected channels are replaced. *)
Definition replace_values (chs : list nat) (new vs : values) : values :=
  fold_left (fun acc cv => set_nth acc (fst cv) (snd cv)) (combine chs new) vs.

(** The contributions of one component, lines 231-245. [K]: the limited basis. None: KeyError
    (the values of the channels are not in the limited basis, or the new tuple does not exist in
    the circuit). The break in line 245 is never reached because names found in the table of
    tuples are valid. *)
Definition component_images (D K : dims) (eps : R) (T : mat) (chs : list nat) (vs : values) (amp : C)
  : option (list (name * C)) :=
  let affected := map (fun c => nth c vs 0) chs in
  if contains_values K affected && forallb (fun c => c <? dN D) chs then
    option_list (map (fun o =>
        let vs' := replace_values chs (values_from_index K o) vs in
        if contains_values D vs' then Some (name_string D vs', T (index_of_values K affected) o * amp)%C else None)
      (filter (fun o => coef_kept eps (T (index_of_values K affected) o)) (seq 0 (size_of_basis K))))
  else None.

(** The setter of optical_components for a list, state.py:208-225: amplitudes for the same name
    are added. *)
Definition components_of_list (l : list (name * C)) : list (name * (C * R)) :=
  fold_left (fun (acc : list (name * (C * R))) (x : name * C) =>
      let a := match dget leqb (fst x) acc with Some (a, _) => (a + snd x)%C | None => snd x end in
      dset leqb (fst x) (a, Cnorm2 a) acc) l [].

(** apply_operator_to_state, lines 217-249. *)
Definition apply_operator (D K : dims) (ncl : nat) (eps : R) (T : mat) (chs : list nat) (st : state) : option state :=
  match copy_state eps ncl st with
  | None => None
  | Some st' =>
      option_map (fun l => with_comps st' (components_of_list (concat l)))
        (option_list (map (fun c => component_images D K eps T chs (values_of_name D (fst c)) (fst (snd c))) (s_comps st')))
  end.

(** apply_operator_to_collection, lines 200-215: random identifiers. *)
Definition apply_operator_collection (rnd : nat -> nat) (K : dims) (T : mat) (chs : list nat) (cs : coll) : option coll :=
  option_map (fun r : items * nat => with_items cs (fst r))
    (fold_left (fun (acc : option (items * nat)) (it : ident * state) =>
      match acc, apply_operator (co_D cs) K (co_ncl cs) (co_eps cs) T chs (snd it) with
      | Some (out, sd), Some st => Some (add_state_random rnd sd st out)
      | _, _ => None
      end) (co_items cs) (Some ([], 0))).

(** hamiltonian_operator_gate, quantum_operator_nodes.py:13-52: power 25, the length of the
    collection. *)
Definition hamiltonian_operator_gate (rnd : nat -> nat) (chs : list nat) (hs : list hamiltonian) : node :=
  NFunction (fun cs =>
    match transition_matrix (dL (co_D cs)) 25 hs with
    | None => None
    | Some T => apply_operator_collection rnd (limited (dL (co_D cs)) (operator_channels hs)) T chs cs
    end).

(** The list of Hamiltonians of wave_plate_from_hamiltonian, quantum_operator_nodes.py:93-106. *)
Definition wave_plate_hamiltonians (theta phi : R) : list hamiltonian :=
  let chi := (- phi / 2)%R in let chs := [0;0;1;1] in
  let ham_phi := Ham [([Plus;Minus;Skip;Skip], (0, - phi / 2)%R); ([Skip;Skip;Plus;Minus], (0, phi / 2)%R)] chs in
  let ham_theta_plus := Ham [([Plus;Skip;Minus;Skip], RtoC theta); ([Minus;Skip;Plus;Skip], RtoC (- theta))] chs in
  let ham_theta_minus := Ham [([Plus;Skip;Minus;Skip], RtoC (- theta)); ([Minus;Skip;Plus;Skip], RtoC theta)] chs in
  let ham_chi := Ham [([Minus;Plus;Skip;Skip], (0, - chi)%R); ([Skip;Skip;Minus;Plus], (0, - chi)%R)] chs in
  [ham_theta_minus; ham_phi; ham_theta_plus; ham_chi].
(** wave_plate_from_hamiltonian, quantum_operator_nodes.py:54-119. *)
Definition wave_plate_from_hamiltonian (rnd : nat -> nat) (h v : nat) (theta phi : R) : node :=
  hamiltonian_operator_gate rnd [h; v] (wave_plate_hamiltonians theta phi).

(** wave_plate_from_hamiltonian_classical_control, quantum_operator_nodes.py:121-207: for every state
    the orientation and the phase shift are read from its classical channels (IndexError if a channel
    does not exist). The checks in lines 149-152 (with > where >= is meant) happen when the node is
    added to the circuit and are not modelled. Negative channel numbers are not modelled. *)
Definition controlled_plate (D : dims) (ncl : nat) (eps : R) (h v orientation shift : nat) (st : state) : option state :=
  match nth_error (s_classical st) orientation, nth_error (s_classical st) shift with
  | Some theta, Some phi =>
      match transition_matrix (dL D) 25 (wave_plate_hamiltonians theta phi) with
      | Some T => apply_operator D (limited (dL D) (operator_channels (wave_plate_hamiltonians theta phi))) ncl eps T [h; v] st
      | None => None
      end
  | _, _ => None
  end.
(** wave_plate_from_hamiltonian_classical_control, quantum_operator_nodes.py:121-206. *)
Definition wave_plate_classical_control (rnd : nat -> nat) (h v orientation shift : nat) : node :=
  NFunction (fun cs =>
    option_map (fun r : items * nat => with_items cs (fst r))
      (fold_left (fun (acc : option (items * nat)) (it : ident * state) =>
        match acc, controlled_plate (co_D cs) (co_ncl cs) (co_eps cs) h v orientation shift (snd it) with
        | Some (out, sd), Some st => Some (add_state_random rnd sd st out)
        | _, _ => None
        end) (co_items cs) (Some ([], 0)))).
