(** Which calls are accepted when a circuit is built. *)
From Coq Require Import Reals List Arith Bool ZArith.
From Verif Require Import Prelude NamesModel OpticalModel ProgramModel.
Import ListNotations.

(** Two different channels of the circuit. *)
Definition two_channels (D : dims) (h v : nat) : Prop := h <> v /\ h < dN D /\ v < dN D.
(** Reflection and transmission are probabilities that add up to one. *)
Definition fractions (r t : R) : Prop := (0 <= r /\ 0 <= t /\ r + t = 1)%R.
Definition exist_all (n : nat) (chs : list nat) : Prop := forall c, In c chs -> c < n.

(** A call with valid arguments: every channel exists, channels that have to differ differ, lists that
    belong together are not empty and have the same length, fractions add up to one, and beam splitters
    for polarised light have four channels. *)
Definition valid_call (D : dims) (ncl : nat) (i : instruction) : Prop :=
  match i with
  | Optics (Wave_plate h v _ _) | Optics (Half_wave_plate h v _) | Optics (Half_wave_plate_45 h v) | Optics (Half_wave_plate_225 h v)
  | Optics (Quarter_wave_plate h v _) | Optics (Quarter_wave_plate_45 h v) | Optics (Quarter_wave_plate_225 h v)
  | Optics (Swap h v) | Optics (Mix_50_50 h v) => two_channels D h v
  | Optics (Mix_generic h v r t) => two_channels D h v /\ fractions r t
  | Optics (Phase_shift c _) => c < dN D
  | Optics (Polarizing_bs a0 a1 b0 b1) | Optics (Non_polarizing_50_50 a0 a1 b0 b1) => NoDup [a0; a1; b0; b1] /\ exist_all (dN D) [a0; a1; b0; b1]
  | Optics (Non_polarizing a0 a1 b0 b1 r t) => NoDup [a0; a1; b0; b1] /\ exist_all (dN D) [a0; a1; b0; b1] /\ fractions r t
  | Phase_by c cl => c < dN D /\ cl < ncl
  | Plate_by h v ct cp => two_channels D h v /\ ct < ncl /\ cp < ncl
  | Set_channels vals chs => chs <> [] /\ length vals = length chs /\ exist_all ncl chs
  | Calculate _ _ chs => exist_all ncl chs
  | Detectors opt cl => length opt = length cl /\ exist_all (dN D) opt /\ exist_all ncl cl
  | Shift_by targets shifts => targets <> [] /\ length shifts = length targets /\ exist_all (dN D) targets
  | Control_shift controls targets => targets <> [] /\ length controls = length targets /\ exist_all (dN D) controls /\ exist_all (dN D) targets /\
      forall k, k < length targets -> nth k controls 0 <> nth k targets 0
  | Custom_element _ h v => two_channels D h v
  | Custom_matrix _ => True
  end.

(** What is accepted although it is not valid: a polarizing beam splitter only looks at its second and
    fourth channel, the other beam splitters may name a channel twice, a control channel may be one too
    large, a classical function may be told to affect channels that do not exist, and lists of shifts may
    have different lengths (the longer one is cut off), and a channel may control itself. *)
Definition accepted (D : dims) (ncl : nat) (i : instruction) : Prop :=
  match i with
  | Optics (Polarizing_bs a0 a1 b0 b1) => 4 <= dN D /\ two_channels D a1 b1
  | Optics (Non_polarizing_50_50 a0 a1 b0 b1) => 4 <= dN D /\ two_channels D a0 b0 /\ two_channels D a1 b1
  | Optics (Non_polarizing a0 a1 b0 b1 r t) => 4 <= dN D /\ two_channels D a0 b0 /\ two_channels D a1 b1 /\ fractions r t
  | Optics _ => valid_call D ncl i
  | Phase_by c cl => c < dN D /\ cl <= ncl
  | Plate_by h v ct cp => two_channels D h v /\ ct <= ncl /\ cp <= ncl
  | Set_channels _ _ | Detectors _ _ => valid_call D ncl i
  | Calculate _ _ _ => True
  | Shift_by targets shifts => let n := Nat.min (length targets) (length shifts) in 0 < n /\ exist_all (dN D) (firstn n targets)
  | Control_shift controls targets =>
      let n := Nat.min (length controls) (length targets) in 0 < n /\ exist_all (dN D) (firstn n controls) /\ exist_all (dN D) (firstn n targets)
  | Custom_element _ _ _ | Custom_matrix _ => valid_call D ncl i
  end.
