(** Parties who share a circuit, in terms of the calls they make. *)
From Coq Require Import Reals List Arith Bool Permutation ZArith.
From Coquelicot Require Import Complex.
From Verif Require Import Prelude NamesModel NamesSpec FockModel FockSpec OpticalModel StateModel StateSpec
  CollectionModel EvalModel MeasureSpec InterferenceSpec CircuitSpec ProtocolSpec TsirelsonSpec ProgramModel ProgramSpec EntangleSpec.
Import ListNotations.

(** What a matrix given for the whole state does, from one tuple to another. *)
Definition matrix_action (D : dims) (M : mat) : values -> values -> C := fun f g => M (index_of_values D g) (index_of_values D f).

(** Alice's calls work on her optical channels [S] and write in her classical channels [K]; they may read
    every classical channel. *)
Definition done_by_alice (D : dims) (ncl : nat) (S K : nat -> bool) (i : instruction) : Prop :=
  (forall c, In c (instruction_channels i) -> S c = true) /\
  match i with
  | Set_channels _ chs => forall c, In c chs -> K c = true
  | Calculate f nv chs => forall reg, length reg = ncl -> same_outside K (f reg nv chs) reg
  | Detectors opt cl => (forall c, In c opt -> S c = true) /\ (forall c, In c cl -> K c = true)
  | Custom_matrix M => acts_in D S (matrix_action D M)
  | _ => True
  end.
(** Bob's calls work on the other optical channels and do not read Alice's classical channels. *)
Definition done_by_bob (D : dims) (ncl : nat) (S K : nat -> bool) (i : instruction) : Prop :=
  (forall c, In c (instruction_channels i) -> S c = false) /\
  match i with
  | Phase_by _ cl => K cl = false
  | Plate_by _ _ ct cp => K ct = false /\ K cp = false
  | Calculate f nv chs => forall reg reg', length reg = ncl -> same_outside K reg reg' -> same_outside K (f reg nv chs) (f reg' nv chs)
  | Detectors opt cl => (forall c, In c opt -> S c = false) /\ (forall c, In c cl -> K c = false)
  | Custom_matrix M => acts_in D (others S) (matrix_action D M)
  | _ => True
  end.
(** Two lists of calls that differ only in what Alice does, at whatever places. *)
Inductive same_but_for_alice (D : dims) (ncl : nat) (S K : nat -> bool) : list instruction -> list instruction -> Prop :=
| both_end : same_but_for_alice D ncl S K [] []
| both_call i p q : done_by_alice D ncl S K i \/ done_by_bob D ncl S K i -> same_but_for_alice D ncl S K p q -> same_but_for_alice D ncl S K (i :: p) (i :: q)
| first_calls i p q : done_by_alice D ncl S K i -> same_but_for_alice D ncl S K p q -> same_but_for_alice D ncl S K (i :: p) q
| second_calls i p q : done_by_alice D ncl S K i -> same_but_for_alice D ncl S K p q -> same_but_for_alice D ncl S K p (i :: q).

(** The call works on the optical channels [S], writes in no classical channel but [K] and reads no
    classical channel but [Q]. *)
Definition local_call (D : dims) (ncl : nat) (S K Q : nat -> bool) (i : instruction) : Prop :=
  (forall c, In c (instruction_channels i) -> S c = true) /\
  match i with
  | Phase_by _ cl => Q cl = true
  | Plate_by _ _ ct cp => Q ct = true /\ Q cp = true
  | Set_channels _ chs => forall c, In c chs -> K c = true
  | Calculate f nv chs => (forall reg, length reg = ncl -> same_outside K (f reg nv chs) reg) /\
      forall reg reg', length reg = ncl -> length reg' = ncl -> same_inside Q reg reg' -> same_inside K (f reg nv chs) (f reg' nv chs)
  | Detectors opt cl => (forall c, In c opt -> S c = true) /\ (forall c, In c cl -> K c = true)
  | Custom_matrix M => acts_in D S (matrix_action D M)
  | _ => True
  end.
(** All orders in which two parties can make their calls; two calls for measurements may be made as one. *)
Inductive interleaved : list instruction -> list instruction -> list instruction -> Prop :=
| inter_end : interleaved [] [] []
| inter_left i a b p : interleaved a b p -> interleaved (i :: a) b (i :: p)
| inter_right i a b p : interleaved a b p -> interleaved a (i :: b) (i :: p)
| inter_joint opt cl opt' cl' a b p : length cl = length opt -> length cl' = length opt' -> (forall k, In k cl -> ~ In k cl') ->
    interleaved a b p -> interleaved (Detectors opt cl :: a) (Detectors opt' cl' :: b) (Detectors (opt ++ opt') (cl ++ cl') :: p).
