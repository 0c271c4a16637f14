(** Specification of custom Fock-state nodes with matrices of any size. *)
From Coq Require Import Reals List Arith Bool.
From Coquelicot Require Import Complex.
From Verif Require Import Prelude NamesModel NamesSpec FockModel StateModel StateSpec.
Import ListNotations.

(** The number of basis states of a circuit with [n] channels and at most [L] - 1 photons each. *)
Definition basis_size (D : dims) : nat := dL D ^ dN D.
(** One row of the matrix times the amplitudes of a state. *)
Definition row_times (D : dims) (old : state) (row : list C) : C :=
  Csum (seq 0 (basis_size D)) (fun j => nth j row (RtoC 0) * amp_of D old (values_from_index D j))%C.
(** Row [i] of a matrix (zero if there is none). *)
Definition row_of (rows : list (list C)) (i : nat) : list C := nth i rows [].
(** [z] is the last value above the threshold among the rows i, i + d, i + 2d, ..., or zero if there is
    none. *)
Definition last_written (D : dims) (eps : R) (old : state) (rows : list (list C)) (i : nat) (z : C) : Prop :=
  (z = RtoC 0 /\ forall k, k < length rows -> k mod basis_size D = i -> (Cnorm2 (row_times D old (row_of rows k)) < eps)%R) \/
  exists k, k < length rows /\ k mod basis_size D = i /\ (eps <= Cnorm2 (row_times D old (row_of rows k)))%R /\
    z = row_times D old (row_of rows k) /\
    forall k', k < k' -> k' < length rows -> k' mod basis_size D = i -> (Cnorm2 (row_times D old (row_of rows k')) < eps)%R.
(** The matrix has the given number of columns. *)
Definition columns (n : nat) (rows : list (list C)) : Prop := rows <> [] /\ Forall (fun r => length r = n) rows.
(** The matrix as a function, filled up with zeros. *)
Definition filled_up (rows : list (list C)) (i j : nat) : C := nth j (nth i rows []) (RtoC 0).
