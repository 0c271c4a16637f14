(** Specification of the statistics of Popescu-Rohrlich pairs, independent of the model. *)
From Coq Require Import Reals List Arith.
From Coquelicot Require Import Complex.
From Verif Require Import Prelude NamesModel NamesSpec FockModel FockSpec StateModel StateSpec CollectionModel EvalModel MeasureSpec.
Import ListNotations.

(** The polarisation with horizontal amplitude [p 0] and vertical amplitude [p 1] as a point on
    the Poincare sphere. *)
Definition poincare (p : nat -> C) : R * R * R :=
  let x := (p 0%nat * Cconj (p 1%nat))%C in (2 * snd x, 2 * fst x, Cnorm2 (p 0%nat) - Cnorm2 (p 1%nat))%R.
Definition dot (a b : R * R * R) : R :=
  let '(a1, a2, a3) := a in let '(b1, b2, b3) := b in (a1 * b1 + a2 * b2 + a3 * b3)%R.
Definition norm_of (p : nat -> C) : R := (Cnorm2 (p 0%nat) + Cnorm2 (p 1%nat))%R.

(** [y] has the sign of [x] and |y|^q = |x|. *)
Definition stretched (q x y : R) : Prop :=
  ((0 < x)%R -> (0 < y)%R /\ Rpower y q = x) /\ (x = 0%R -> y = 0%R) /\ ((x < 0)%R -> (y < 0)%R /\ Rpower (- y) q = (- x)%R).

(** Row [s] of the matrix: what detector [s] projects on. *)
Definition unitary_setting (U : nat -> nat -> C) : Prop :=
  forall s s', s < 2 -> s' < 2 ->
    (U s 0%nat * Cconj (U s' 0%nat) + U s 1%nat * Cconj (U s' 1%nat))%C = (if s =? s' then RtoC 1 else RtoC 0).

(** A pair: the quantumness and the settings of the two sides. An outcome: for every pair the
    detectors that see the two photons. *)
Record pr_pair := Pair { p_q : R; p_A : nat -> nat -> C; p_B : nat -> nat -> C }.
Definition pair_ok (p : pr_pair) : Prop := (0 < p_q p)%R /\ unitary_setting (p_A p) /\ unitary_setting (p_B p).

(** The amplitude of outcome [o] if the pairs start in the polarisations of the configuration
    [w]: digit 2a+b means polarisation a on side A and b on side B; every pair carries a factor
    sqrt(1/2). *)
Fixpoint amplitude_of (ps : list pr_pair) (o : list (nat * nat)) (w : list nat) : C :=
  match ps, o, w with
  | p :: ps', (s, t) :: o', i :: w' =>
      (RtoC (sqrt (1 / 2)) * (p_A p s (i / 2)%nat * p_B p t (i mod 2)%nat) * amplitude_of ps' o' w')%C
  | _, _, _ => RtoC 1
  end.

(** The probability of an outcome for one pair: a quarter of 1 + the stretched correlation. *)
Definition pair_probability (p : pr_pair) (st : nat * nat) (x : R) : Prop :=
  exists y, stretched (p_q p) (dot (poincare (p_A p (fst st))) (poincare (p_B p (snd st)))) y /\ x = ((1 + y) / 4)%R.
Inductive outcome_has (ps : list pr_pair) : list (nat * nat) -> R -> Prop :=
| OutcomeHas o xs : length o = length ps -> Forall2 (fun pst x => pair_probability (fst pst) (snd pst) x) (combine ps o) xs ->
    outcome_has ps o (fold_right Rmult 1%R xs).

(** All possible outcomes of [d] pairs, and the detectors on one side. *)
Fixpoint all_outcomes (d : nat) : list (list (nat * nat)) :=
  match d with
  | O => [[]]
  | S d' => flat_map (fun st => map (cons st) (all_outcomes d')) [(0,0); (0,1); (1,0); (1,1)]
  end.

(** The detectors on one side. *)
Fixpoint all_detectors (d : nat) : list (list nat) :=
  match d with O => [[]] | S d' => flat_map (fun s => map (cons s) (all_detectors d')) [0; 1] end.

(** Quantum mechanics: the probability of an outcome when every pair starts in the state
    (hh + vv) / sqrt 2. *)
Definition quantum_pair (p : pr_pair) (st : nat * nat) : R :=
  Cnorm2 (RtoC (sqrt (1 / 2)) * (p_A p (fst st) 0%nat * p_B p (snd st) 0%nat + p_A p (fst st) 1%nat * p_B p (snd st) 1%nat))%C.
Definition quantum_outcome (ps : list pr_pair) (o : list (nat * nat)) : R :=
  fold_right (fun x r => (quantum_pair (fst x) (snd x) * r)%R) 1%R (combine ps o).
(** A setting that projects on linear polarisations: real up to a phase. *)
Definition linear_setting (U : nat -> nat -> C) : Prop :=
  forall s, s < 2 -> exists (c : C) (r : nat -> R), forall i, i < 2 -> U s i = (c * RtoC (r i))%C.
(** The same analysers with the rows of side B conjugated: the state (hh + vv)/sqrt 2 seen by a
    partner whose phase shifts have the opposite sign. *)
Definition conjugated (p : pr_pair) : pr_pair := Pair (p_q p) (p_A p) (fun t i => Cconj (p_B p t i)).

(** The expectation value of the product of the results (+1 for detector 0, -1 for detector 1),
    for a table of probabilities. *)
Definition sign_of (s : nat) : R := if s =? 0 then 1%R else (-1)%R.
Definition correlator (P : nat -> nat -> R) : R :=
  (P 0%nat 0%nat - P 0%nat 1%nat - P 1%nat 0%nat + P 1%nat 1%nat)%R.
(** CHSH combination of the correlators for the settings A, A' and B, B'. *)
Definition chsh_of (E : nat -> nat -> R) : R := (E 0%nat 0%nat + E 0%nat 1%nat + E 1%nat 0%nat - E 1%nat 1%nat)%R.
(** Half wave plate or polariser rotation over angle [x]: detector 0 sees cos x h + sin x v. *)
Definition rotated (x : R) (s i : nat) : C :=
  match s, i with
  | 0, 0 => RtoC (cos x) | 0, _ => RtoC (sin x)
  | _, 0 => RtoC (- sin x) | _, _ => RtoC (cos x)
  end.

(** What the optical elements do to one pair that starts in the polarisations [i]: the amplitude
    with which the detectors [s], [t] see the photons, multiplied over the pairs. *)
Fixpoint settings_amplitude (ps : list pr_pair) (o : list (nat * nat)) (w : list nat) : C :=
  match ps, o, w with
  | p :: ps', (s, t) :: o', i :: w' => (p_A p s (i / 2)%nat * p_B p t (i mod 2)%nat * settings_amplitude ps' o' w')%C
  | _, _, _ => RtoC 1
  end.

(** The states [sts] are those of one input state after the gate (identifier [id]) and behind the
    settings [ps]: one state for every configuration, each of weight 2^-d; outcome [o] shows as the
    photon numbers [place o]. *)
Record pr_ready (D : dims) (eps : R) (ncl : nat) (ps : list pr_pair) (id label : ident) (weight : R)
    (place : list (nat * nat) -> values) (sts : list state) : Prop := PRReady {
  ready_pairs : ps <> [] /\ Forall pair_ok ps;
  ready_weight : (0 <= weight <= 1)%R;
  ready_place : forall o o', In o (all_outcomes (length ps)) -> In o' (all_outcomes (length ps)) -> valid D (place o) /\ (place o = place o' -> o = o');
  ready_states : exists ws, NoDup ws /\ (forall w, In w ws <-> length w = length ps /\ Forall (fun i => i < 4) w) /\
    Forall2 (fun w st =>
      In (AuxPopescuRohrlich, AuxPR (PRInfo id w (map p_q ps) label weight)) (s_aux st) /\ NoDup (map fst (s_aux st)) /\
      check_state eps ncl st = true /\ wf_state D st /\ s_cum st = ((1 / 2) ^ length ps)%R /\
      (forall vs, valid D vs -> In (name_string D vs) (map fst (s_comps st)) -> exists o, In o (all_outcomes (length ps)) /\ vs = place o) /\
      (forall o, In o (all_outcomes (length ps)) -> amp_of D st (place o) = settings_amplitude ps o w)) ws sts }.

(** The state [s] that reports outcome [o]; [st] is the state whose classical values and history
    it continues. *)
Definition pr_reported (D : dims) (ps : list pr_pair) (label : ident) (weight : R) (opt cl : list nat) (place : list (nat * nat) -> values)
    (st : state) (o : list (nat * nat)) (s : state) : Prop :=
  exists x, outcome_has ps o x /\ s_cum s = (x * weight)%R /\ s_init s = label /\
    s_comps s = [(name_string D (place o), (RtoC 1, 1%R))] /\
    written cl (readout opt (place o)) (s_classical st) (s_classical s) /\
    s_results s = s_results st ++ [(s_classical s, (x * weight)%R)] /\
    (forall a, In a (s_aux s) <-> In a (s_aux st) /\ fst a <> AuxPopescuRohrlich).

(** The photon numbers [vs'] are [vs] with every pair put in its configuration: for digit 2a+b
    polarisation a on side A and b on side B (0 horizontal, 1 vertical). *)
Definition configured (pairs : list (list nat * R)) (w : list nat) (vs vs' : values) : Prop :=
  length vs' = length vs /\
  (forall j ah av bh bv q, nth_error pairs j = Some ([ah; av; bh; bv], q) ->
     nth ah vs' 0 = 1 - nth j w 0 / 2 /\ nth av vs' 0 = nth j w 0 / 2 /\
     nth bh vs' 0 = 1 - nth j w 0 mod 2 /\ nth bv vs' 0 = nth j w 0 mod 2) /\
  (forall c, ~ In c (concat (map fst pairs)) -> nth c vs' 0 = nth c vs 0).
(** Four existing channels for every pair, all different. *)
Definition good_pairs (D : dims) (pairs : list (list nat * R)) : Prop :=
  Forall (fun p => length (fst p) = 4 /\ (0 < snd p)%R) pairs /\ NoDup (concat (map fst pairs)) /\
  (forall c, In c (concat (map fst pairs)) -> c < dN D).
(** What the gate makes of the state [st] for configuration [w]. *)
Definition prepared (D : dims) (pairs : list (list nat * R)) (rid : ident) (st : state) (w : list nat) (s : state) : Prop :=
  s_init s = s_init st /\ s_cum s = ((1 / 2) ^ length pairs)%R /\ s_classical s = s_classical st /\ s_results s = s_results st /\
  In (AuxPopescuRohrlich, AuxPR (PRInfo rid w (map snd pairs) (s_init st) (s_cum st))) (s_aux s) /\
  (NoDup (map fst (s_aux st)) -> NoDup (map fst (s_aux s)) /\ forall a, fst a <> AuxPopescuRohrlich -> (In a (s_aux s) <-> In a (s_aux st))) /\
  forall vs a p, s_comps st = [(name_string D vs, (a, p))] -> valid D vs ->
    exists vs', valid D vs' /\ configured pairs w vs vs' /\ s_comps s = [(name_string D vs', (a, Cnorm2 a))].

(** No optical elements between the gate and the detectors. *)
Definition no_setting (s i : nat) : C := if s =? i then RtoC 1 else RtoC 0.

(** The probability that both detectors of every pair agree, each with probability 1/2. *)
Fixpoint aligned (o : list (nat * nat)) : R :=
  match o with [] => 1%R | (s, t) :: r => ((if s =? t then 1 / 2 else 0) * aligned r)%R end.

(** An optical element behind one side of a pair: the number of the pair, the side (true: A) and
    the matrix of the element; a photon goes from polarisation s' to s with amplitude (row s',
    column s), see C09. *)
Definition element := (nat * bool * mat2)%type.
Definition entry_of (A : mat2) (from to : nat) : C :=
  match from, to with
  | 0, 0 => m00 A | 0, _ => m01 A | _, 0 => m10 A | _, _ => m11 A
  end.
Definition followed (U : nat -> nat -> C) (A : mat2) (s i : nat) : C :=
  (entry_of A 0 s * U 0%nat i + entry_of A 1 s * U 1%nat i)%C.
Definition followed_pair (p : pr_pair) (e : element) : pr_pair :=
  if snd (fst e) then Pair (p_q p) (followed (p_A p) (snd e)) (p_B p) else Pair (p_q p) (p_A p) (followed (p_B p) (snd e)).
Fixpoint at_pair (j : nat) (f : pr_pair -> pr_pair) (ps : list pr_pair) : list pr_pair :=
  match ps, j with
  | [], _ => []
  | p :: r, O => f p :: r
  | p :: r, S j' => p :: at_pair j' f r
  end.
Definition followed_by (ps : list pr_pair) (e : element) : list pr_pair := at_pair (fst (fst e)) (fun p => followed_pair p e) ps.
(** The two channels the element is placed in. *)
Definition element_channels (pairs : list (list nat * R)) (e : element) : list nat :=
  match nth_error pairs (fst (fst e)) with
  | Some ([ah; av; bh; bv], _) => if snd (fst e) then [ah; av] else [bh; bv]
  | _ => []
  end.
(** Admissible: an existing pair, a unitary matrix, and not the misplaced channel list of C05. *)
Definition element_ok (pairs : list (list nat * R)) (e : element) : Prop :=
  fst (fst e) < length pairs /\ unitary2 (snd e) /\
  (nth 1 (element_channels pairs e) 1 = 0 -> nth 0 (element_channels pairs e) 0 = 1).
