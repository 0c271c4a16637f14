(** Specification of the physics of a two-channel optical gate, independent of how the
    code computes it. *)
From Coq Require Import Reals List Arith Lia Bool.
From Coquelicot Require Import Complex.
From Verif Require Import Prelude NamesModel NamesSpec FockModel.
Import ListNotations.

(** [boson_poly a b c d n m u]: the coefficient of x^u y^(n+m-u) in
    (a x + b y)^n (c x + d y)^m, by the recursion "multiply by one more factor". *)
Fixpoint boson_poly1 (c d : C) (m u : nat) : C :=
  match m with
  | O => if u =? 0 then RtoC 1 else RtoC 0
  | S m' => ((match u with O => RtoC 0 | S u' => c * boson_poly1 c d m' u' end)
             + d * boson_poly1 c d m' u)%C
  end.
Fixpoint boson_poly (a b c d : C) (n m u : nat) : C :=
  match n with
  | O => boson_poly1 c d m u
  | S n' => ((match u with O => RtoC 0 | S u' => a * boson_poly a b c d n' m u' end)
             + b * boson_poly a b c d n' m u)%C
  end.

(** Amplitude for |n,m> -> |u,v> when the creation operator of the first channel becomes
    m00 x + m10 y and the one of the second channel m01 x + m11 y, bosonic
    normalisation included, and the truncation rule of the package: a pair of channels
    holding L or more photons is left alone. *)
Definition gate_amp (L : nat) (A : mat2) (n m u v : nat) : C :=
  if L <=? n + m then (if (n =? u) && (m =? v) then RtoC 1 else RtoC 0)
  else if u + v =? n + m
       then (boson_poly (m00 A) (m10 A) (m01 A) (m11 A) n m u
              * RtoC (sqrt (INR (fact u * fact v) / INR (fact n * fact m))))%C
       else RtoC 0.

(** Unitarity of a 2x2 matrix: A A* = 1 and A* A = 1. *)
Definition mat2_mul (A B : mat2) : mat2 :=
  Mat2 (m00 A * m00 B + m01 A * m10 B)%C (m00 A * m01 B + m01 A * m11 B)%C
       (m10 A * m00 B + m11 A * m10 B)%C (m10 A * m01 B + m11 A * m11 B)%C.
Definition mat2_adj (A : mat2) : mat2 :=
  Mat2 (Cconj (m00 A)) (Cconj (m10 A)) (Cconj (m01 A)) (Cconj (m11 A)).
Definition mat2_id : mat2 := Mat2 (RtoC 1) (RtoC 0) (RtoC 0) (RtoC 1).
Definition unitary2 (A : mat2) : Prop :=
  mat2_mul A (mat2_adj A) = mat2_id /\ mat2_mul (mat2_adj A) A = mat2_id.

(** Unitarity of a d x d matrix. *)
Definition unitary_mat (d : nat) (M : mat) : Prop :=
  forall i j, i < d -> j < d ->
    Csum (seq 0 d) (fun k => (M i k * Cconj (M j k))%C) = (if i =? j then RtoC 1 else RtoC 0) /\
    Csum (seq 0 d) (fun k => (Cconj (M k i) * M k j)%C) = (if i =? j then RtoC 1 else RtoC 0).

(** Two tuples agree outside channels h and v. *)
Definition same_elsewhere (h v : nat) (us vs : values) : Prop :=
  forall c, c <> h -> c <> v -> nth c us 0 = nth c vs 0.

Definition mat2_tr (A : mat2) : mat2 := Mat2 (m00 A) (m10 A) (m01 A) (m11 A).
Definition mat2_symmetric (A : mat2) : Prop := m01 A = m10 A.

(** The squared norm of a vector of d amplitudes. *)
Definition norm2 (d : nat) (v : vec) : R := Rsum (seq 0 d) (fun i => Cnorm2 (v i)).

(** [to] is [from] with the photon numbers of channels a and b exchanged. *)
Definition exchanged (a b : nat) (from to : values) : Prop :=
  nth a to 0 = nth b from 0 /\ nth b to 0 = nth a from 0 /\ same_elsewhere a b from to.

(** exp(i x) *)
Definition cis (x : R) : C := (cos x, sin x).
