(** What a whole circuit means, independently of the data structures of the package: an ensemble of
    branches, each with the label of the state it started from, a classical register and an
    unnormalised wave function whose squared norm is the weight of the branch. *)
From Coq Require Import Reals List Arith Bool Permutation.
From Coquelicot Require Import Complex.
From Verif Require Import Prelude NamesModel NamesSpec FockModel FockSpec OpticalModel StateModel StateSpec
  CollectionModel EvalModel MeasureSpec InterferenceSpec.
Import ListNotations.

Record branch := Branch { b_label : ident; b_reg : list R; b_wave : values -> C }.

(** All photon number tuples of the circuit. *)
Definition basis (D : dims) : list values := tuples (dL D) (dN D).

(** The weight of a branch. *)
Definition weight (D : dims) (b : branch) : R := Rsum (basis D) (fun f => Cnorm2 (b_wave b f)).
Definition nonzero (D : dims) (b : branch) : bool := if Req_EM_T (weight D b) 0 then false else true.

(** The amplitude for going from the tuple [f] to the tuple [g] in a two-channel element: the other
    channels keep their photons, the two channels follow the rule for bosons. *)
Definition pair_amp (D : dims) (A : mat2) (h v : nat) (f g : values) : C :=
  if forallb (fun c => (c =? h) || (c =? v) || (nth c f 0 =? nth c g 0)) (seq 0 (dN D))
  then gate_amp (dL D) A (nth h f 0) (nth v f 0) (nth h g 0) (nth v g 0)
  else RtoC 0.

(** The wave function after an operation with transition amplitudes [T from to]. *)
Definition evolve (D : dims) (T : values -> values -> C) (w : values -> C) : values -> C :=
  fun g => Csum (basis D) (fun f => T f g * w f)%C.

(** The register in which the numbers [o] are noted in the channels [cl]. *)
Fixpoint noted_at (cl o : list nat) (c : nat) : option nat :=
  match cl, o with
  | c' :: cl', x :: o' => if c' =? c then Some x else noted_at cl' o' c
  | _, _ => None
  end.
Definition noted (cl o : list nat) (reg : list R) : list R :=
  map (fun c => match noted_at cl o c with Some x => INR x | None => nth c reg 0%R end) (seq 0 (length reg)).

(** The operations: a two-channel element which may be chosen by the classical register, any
    transformation of the whole optical state, a computation on the register, and a photon number
    measurement of the channels [opt] whose results are noted in the register. *)
Inductive operation :=
| Element (A : list R -> mat2) (h v : nat)
| Transform (T : values -> values -> C)
| Compute (f : list R -> list R)
| Detect (opt cl : list nat).

(** The part of a branch in which the channels [opt] read [o]. *)
Definition reading (opt cl o : list nat) (b : branch) : branch :=
  Branch (b_label b) (noted cl o (b_reg b)) (fun f => if leqb (readout opt f) o then b_wave b f else RtoC 0).

(** All readings of the channels. *)
Definition all_readings (D : dims) (opt : list nat) : list (list nat) :=
  nodup (list_eq_dec Nat.eq_dec) (map (readout opt) (basis D)).

Definition perform (D : dims) (op : operation) (b : branch) : list branch :=
  match op with
  | Element A h v => [Branch (b_label b) (b_reg b) (evolve D (pair_amp D (A (b_reg b)) h v) (b_wave b))]
  | Transform T => [Branch (b_label b) (b_reg b) (evolve D T (b_wave b))]
  | Compute f => [Branch (b_label b) (f (b_reg b)) (b_wave b)]
  | Detect opt cl => map (fun o => reading opt cl o b) (all_readings D opt)
  end.

(** The operations one after the other. *)
Definition run (D : dims) (ops : list operation) (E : list branch) : list branch :=
  fold_left (fun E op => flat_map (perform D op) E) ops E.

(** The density matrix of the branches with a given label and register. *)
Definition density (E : list branch) (l : ident) (r : list R) (f g : values) : C :=
  Csum E (fun b => if leqb (b_label b) l
                   then if list_eq_dec Req_EM_T (b_reg b) r then (b_wave b f * Cconj (b_wave b g))%C else RtoC 0
                   else RtoC 0).

(** Nothing that can be observed distinguishes the two ensembles. *)
Definition same_ensemble (D : dims) (E E' : list branch) : Prop :=
  forall l r f g, valid D f -> valid D g -> density E l r f g = density E' l r f g.

(** The branch a state of a collection stands for. *)
Definition branch_of (D : dims) (st : state) : branch :=
  Branch (s_init st) (s_classical st) (fun f => (RtoC (sqrt (s_cum st)) * amp_of D st f)%C).
Definition branches_of (D : dims) (its : items) : list branch := map (fun it => branch_of D (snd it)) its.

(** States as users build them: normalised, no zero components, positive weight at most 1, all
    classical channels present, no special information attached. *)
Definition proper_state (D : dims) (ncl : nat) (st : state) : Prop :=
  wf_state D st /\ (forall nm a p, In (nm, (a, p)) (s_comps st) -> a <> RtoC 0 /\ p = Cnorm2 a) /\
  state_norm2 st = 1%R /\ (0 < s_cum st <= 1)%R /\ length (s_classical st) = ncl /\ s_aux st = [].
Definition proper_items (D : dims) (ncl : nat) (its : items) : Prop :=
  its <> [] /\ NoDup (dkeys its) /\ Forall (fun it => proper_state D ncl (snd it)) its.

(** The node of a circuit and the operation it stands for. The package lets the matrix of an optical
    element act transposed (C09); for all built-in elements the matrix is symmetric (C11). *)
Inductive means (D : dims) (ncl : nat) : node -> operation -> Prop :=
| means_optical A h v rest :
    Permutation (h :: v :: rest) (seq 0 (dN D)) -> unitary2 A ->
    means D ncl (NOptical A (h :: v :: rest)) (Element (fun _ => mat2_tr A) h v)
| means_controlled t p vars h v rest (A : list R -> mat2) :
    Permutation (h :: v :: rest) (seq 0 (dN D)) ->
    (forall reg, length reg = ncl -> exists t' p', controlled_angles t p vars reg = Some (t', p') /\ A reg = generic_matrix t' p') ->
    means D ncl (NControlled t p vars (h :: v :: rest)) (Element A h v)
| means_custom M (T : values -> values -> C) :
    unitary_mat (size_of_basis D) M ->
    (forall f g, valid D f -> valid D g -> T f g = M (index_of_values D g) (index_of_values D f)) ->
    means D ncl (NCustomFock M) (Transform T)
| means_classical f nv chs (F : list R -> list R) :
    (forall reg, length reg = ncl -> f reg nv chs = F reg /\ length (F reg) = ncl) ->
    means D ncl (NClassical f nv chs) (Compute F)
| means_measure opt cl :
    length cl = length opt -> (forall c, In c cl -> c < ncl) -> NoDup cl ->
    means D ncl (NMeasure opt cl) (Detect opt cl).

(** Every amplitude that occurs is zero or has a probability of at least [eps] within its branch. *)
Definition clear (D : dims) (eps : R) (E : list branch) : Prop :=
  forall b f, In b E -> valid D f -> b_wave b f = RtoC 0 \/ (eps * weight D b <= Cnorm2 (b_wave b f))%R.
Definition clear_throughout (D : dims) (eps : R) (ops : list operation) (E : list branch) : Prop :=
  forall n, clear D eps (run D (firstn n ops) E).

(** The same branches: nothing but their order differs. *)
Definition same_branches (D : dims) (E E' : list branch) : Prop :=
  exists E1, Permutation E1 E' /\
    Forall2 (fun b b' => b_label b = b_label b' /\ b_reg b = b_reg b' /\ forall f, valid D f -> b_wave b f = b_wave b' f) E E1.

(** The probability with which states with label [l] and classical values [r] occur in a collection. *)
Definition prob_of_values (its : items) (l : ident) (r : list R) : R :=
  Rsum its (fun it => if leqb (s_init (snd it)) l then if list_eq_dec Req_EM_T (s_classical (snd it)) r then s_cum (snd it) else 0%R else 0%R).
Definition weight_of_label (its : items) (l : ident) : R :=
  Rsum its (fun it => if leqb (s_init (snd it)) l then s_cum (snd it) else 0%R).

(** The density matrix of the states with label [l] and classical values [r] in a collection. *)
Definition density_matrix (D : dims) (its : items) (l : ident) (r : list R) (f g : values) : C :=
  Csum its (fun it => if leqb (s_init (snd it)) l
                      then if list_eq_dec Req_EM_T (s_classical (snd it)) r
                           then (RtoC (s_cum (snd it)) * amp_of D (snd it) f * Cconj (amp_of D (snd it) g))%C else RtoC 0
                      else RtoC 0).

(** Two collections no measurement can distinguish. *)
Definition indistinguishable (D : dims) (its its' : items) : Prop :=
  forall l r f g, valid D f -> valid D g -> density_matrix D its l r f g = density_matrix D its' l r f g.
