(** C41: the limit of the quantum operators is determined by the differential equations. *)
From Coq Require Import Reals List Arith Lia Lra Bool.
From Coquelicot Require Import Coquelicot.
From Verif Require Import Prelude NamesModel NamesSpec NamesProofs FockModel FockSpec BosonProofs FockProofs StateModel StateSpec StateProofs CollectionModel EvalModel OperatorModel OperatorSpec PropOperator ExponentialSpec ExponentialProofs PropConverge.
Import ListNotations.
Open Scope nat_scope.

Lemma family_derive' d H t i u : i < d -> u < d -> cderiv (fun x => family d H x i u) t (mat_mul d H (family d H t) i u).
Proof.
  intros Hi Hu. eapply cderiv_eq; [|apply CP_derive; now apply coefficient_entire].
  unfold mat_mul, family. symmetry.
  rewrite (CP_ext _ (fun n => Csum (seq 0 d) (fun k => coefficient d H k u n * H i k)%C)).
  - rewrite CP_sum.
    + apply Csum_ext. intros k Hk. apply in_seq in Hk. rewrite Cmult_comm. symmetry. apply CP_scal. apply coefficient_entire; lia.
    + intros k Hk. apply in_seq in Hk. apply entire_scal, coefficient_entire; lia.
  - intros n. unfold coefficient. rewrite <- pow_comm by assumption. unfold mat_mul.
    rewrite (Csum_ext _ (fun k => RtoC (/ INR (fact n)) * mat_pow d H n k u * H i k)%C (fun k => RtoC (/ INR (fact n)) * (H i k * mat_pow d H n k u))%C) by (intros; ring).
    rewrite Csum_scal_l, Cmult_assoc. f_equal. rewrite <- RtoC_mult. f_equal. rewrite INR_fact_S. field. split; [apply INR_fact_neq_0|apply not_0_INR; lia].
Qed.
Lemma cderiv_mirror f t l : cderiv f (1 - t)%R l -> cderiv (fun x => f (1 - x)%R) t (- l)%C.
Proof.
  intros [A B]. assert (M : is_derive (fun x : R => (1 - x)%R) t (-1)%R).
  { auto_derive; [exact I|ring]. }
  split; cbn.
  - replace (- fst l)%R with (-1 * fst l)%R by ring. apply (is_derive_comp (fun y => fst (f y)) (fun x => (1 - x)%R)); [exact A|exact M].
  - replace (- snd l)%R with (-1 * snd l)%R by ring. apply (is_derive_comp (fun y => snd (f y)) (fun x => (1 - x)%R)); [exact B|exact M].
Qed.
Lemma cderiv_zero f : (forall t, cderiv f t (RtoC 0)) -> f 0%R = f 1%R.
Proof.
  intros H. apply C_eq.
  - apply (eq_is_derive (fun x => fst (f x)) 0 1); [intros t _; exact (proj1 (H t))|lra].
  - apply (eq_is_derive (fun x => snd (f x)) 0 1); [intros t _; exact (proj2 (H t))|lra].
Qed.
(** Rows that solve w' = w H are moved by the exponential of H. *)
Lemma solution_is_family d H (w : R -> nat -> C) : (forall t u, u < d -> cderiv (fun x => w x u) t (Csum (seq 0 d) (fun k => w t k * H k u)%C)) ->
  forall u, u < d -> w 1%R u = Csum (seq 0 d) (fun k => w 0%R k * family d H 1%R k u)%C.
Proof.
  intros HW u Hu.
  set (g := fun t => Csum (seq 0 d) (fun k => w t k * family d H (1 - t)%R k u)%C).
  assert (E : g 0%R = g 1%R).
  { apply cderiv_zero. intros t. unfold g.
    eapply cderiv_eq; [|apply (cderiv_sum (seq 0 d) (fun k x => w x k * family d H (1 - x)%R k u)%C
      (fun k => (Csum (seq 0 d) (fun j => w t j * H j k)) * family d H (1 - t)%R k u + w t k * (- mat_mul d H (family d H (1 - t)%R) k u))%C)].
    - unfold mat_mul.
      rewrite (Csum_ext (seq 0 d) (fun k => Csum (seq 0 d) (fun j => w t j * H j k) * family d H (1 - t)%R k u + w t k * - Csum (seq 0 d) (fun j => H k j * family d H (1 - t)%R j u))%C
        (fun k => Csum (seq 0 d) (fun j => w t j * H j k * family d H (1 - t)%R k u) + (- RtoC 1) * Csum (seq 0 d) (fun j => w t k * H k j * family d H (1 - t)%R j u))%C).
      + rewrite Csum_plus, Csum_scal_l, Csum_swap. ring.
      + intros k _. rewrite <- Csum_scal_r. f_equal.
        transitivity ((- RtoC 1) * (w t k * Csum (seq 0 d) (fun j => H k j * family d H (1 - t)%R j u)))%C; [ring|]. f_equal.
        rewrite <- Csum_scal_l. apply Csum_ext. intros j _. ring.
    - intros k Hk. apply in_seq in Hk. apply cderiv_mult; [apply HW; lia|].
      apply (cderiv_mirror (fun y => family d H y k u)). apply family_derive'; lia. }
  unfold g in E. rewrite Rminus_0_r, Rminus_diag_eq in E by reflexivity.
  rewrite E. symmetry. rewrite (Csum_single _ u).
  - rewrite family_start, Nat.eqb_refl. apply Cmult_1_r.
  - apply seq_NoDup.
  - apply in_seq. lia.
  - intros k _ Hk. rewrite family_start. apply Nat.eqb_neq in Hk. rewrite Hk. apply Cmult_0_r.
Qed.

Lemma evolves_family L chs h psi phi : let K := limited L chs in 1 <= L ->
  forallb (fun op => word_ok (number_of_channels chs) (combine chs (fst op))) (h_operators h) = true ->
  (forall t, supported K (phi t)) -> evolves K chs h psi phi ->
  forall vs, phi 1%R vs = matrix_action K (family (size_of_basis K) (limited_matrix L chs (h_operators h)) 1%R) psi vs.
Proof.
  intros K HL Hok HS [E0 E1] vs. assert (HLK : 1 <= dL K) by exact HL. unfold matrix_action.
  destruct (contained K vs) eqn:E.
  2:{ apply (HS 1%R vs). intros V. apply contained_spec in V. congruence. }
  apply contained_spec in E. pose proof (index_of_values_bound K vs E) as Hb.
  pose proof (solution_is_family (size_of_basis K) (limited_matrix L chs (h_operators h)) (fun t u => phi t (values_from_index K u))) as S.
  assert (S' : forall t u, u < size_of_basis K -> cderiv (fun x => phi x (values_from_index K u)) t
      (Csum (seq 0 (size_of_basis K)) (fun k => phi t (values_from_index K k) * limited_matrix L chs (h_operators h) k u)%C)).
  { intros t u Hu. eapply cderiv_eq; [|apply E1]. rewrite (hamiltonian_matrix L chs (h_operators h) (phi t) HL Hok (HS t)).
    fold K. unfold matrix_action. replace (contained K (values_from_index K u)) with true by (symmetry; apply contained_spec; now apply values_from_index_valid).
    now rewrite index_values_roundtrip by (auto; lia). }
  specialize (S S' (index_of_values K vs) Hb). cbv beta in S. rewrite values_index_roundtrip in S by auto. rewrite S.
  apply Csum_ext. intros i _. now rewrite E0.
Qed.

Lemma constant_from_0 (f : R -> R) : (forall t, is_derive f t 0%R) -> forall t, f t = f 0%R.
Proof.
  intros H t. destruct (Rtotal_order t 0) as [Ht|[->|Ht]]; [|reflexivity|].
  - apply (eq_is_derive f t 0); [intros x _; apply H|exact Ht].
  - symmetry. apply (eq_is_derive f 0 t); [intros x _; apply H|exact Ht].
Qed.
Lemma evolves_supported K chs h psi phi : supported K psi -> evolves K chs h psi phi -> forall t, supported K (phi t).
Proof.
  intros HS [E0 E1] t vs V. rewrite <- (HS vs V), <- E0.
  assert (Z : forall x, cderiv (fun y => phi y vs) x (RtoC 0)).
  { intros x. eapply cderiv_eq; [|apply E1]. now apply hamiltonian_supported. }
  apply C_eq.
  - exact (constant_from_0 (fun y => fst (phi y vs)) (fun x => proj1 (Z x)) t).
  - exact (constant_from_0 (fun y => snd (phi y vs)) (fun x => proj2 (Z x)) t).
Qed.

(** C41: the differential equations determine the result: the limit in C41_converges is the only
    function that is reached from [psi]. *)
Theorem C41_limit_unique : forall L hs psi chi chi', let K := limited L (operator_channels hs) in
  1 <= L -> (exists T, transition_matrix L 1 hs = Some T) -> (forall vs, ~ valid K vs -> psi vs = RtoC 0) ->
  evolved K (operator_channels hs) (rev hs) psi chi -> evolved K (operator_channels hs) (rev hs) psi chi' ->
  forall vs, chi vs = chi' vs.
Proof.
  intros L hs psi chi chi' K HL [T1 E1] HS.
  assert (Hok : forall h, In h (rev hs) -> forallb (fun op => word_ok (number_of_channels (operator_channels hs)) (combine (operator_channels hs) (fst op))) (h_operators h) = true).
  { intros h Hh. apply in_rev in Hh. unfold transition_matrix in E1. cbv zeta in E1.
    destruct (operator_channels hs); [discriminate|]. destruct (forallb _ hs) eqn:Ef; [|discriminate].
    rewrite forallb_forall in Ef. now apply Ef. }
  clear E1 T1. generalize dependent (rev hs). intros l Hok. unfold K in *. clear K. generalize dependent (operator_channels hs). clear hs. intros chs HS Hok.
  set (K := limited L chs) in *. assert (HLK : 1 <= dL K) by exact HL.
  assert (G : forall l psi psi', (forall h, In h l -> forallb (fun op => word_ok (number_of_channels chs) (combine chs (fst op))) (h_operators h) = true) ->
    supported K psi -> supported K psi' -> (forall vs, psi vs = psi' vs) -> forall chi chi', evolved K chs l psi chi -> evolved K chs l psi' chi' -> forall vs, chi vs = chi' vs).
  { clear -HL HLK. intros l. induction l as [|h l IH]; intros psi psi' Hok HS HS' HE chi chi' A B vs.
    - cbn [evolved] in A, B. now rewrite A, B.
    - destruct A as (phi & A1 & A2), B as (phi' & B1 & B2). pose proof (evolves_supported _ _ _ _ _ HS A1) as SA. pose proof (evolves_supported _ _ _ _ _ HS' B1) as SB.
      apply (IH (phi 1%R) (phi' 1%R)); auto; [intros h' Hh'; apply Hok; now right|].
      intros us. rewrite (evolves_family L chs h psi phi), (evolves_family L chs h psi' phi'); auto; [|apply Hok; now left|apply Hok; now left].
      apply matrix_action_ext; auto. }
  intros A B. exact (G l psi psi Hok HS HS (fun _ => eq_refl) chi chi' A B).
Qed.
Print Assumptions C41_limit_unique.

(** The hypotheses are met: by the Hamiltonians of C41_converges_case, and C41_converges gives a
    function that is reached. *)
Example C41_limit_unique_case : let hs := [Ham [([Plus], RtoC 1); ([Minus], RtoC (-1))] [0; 0]; Ham [([Minus; Plus], (0, 1)%R)] [0; 0]] in
  let K := limited 3 (operator_channels hs) in let psi := delta (RtoC 1) [0] in
  (forall vs, ~ valid K vs -> psi vs = RtoC 0) /\ exists chi, evolved K (operator_channels hs) (rev hs) psi chi.
Proof.
  intros hs K psi. assert (HS : forall vs, ~ valid K vs -> psi vs = RtoC 0).
  { intros vs H. unfold psi, delta. destruct (list_eq_dec Nat.eq_dec vs [0]) as [->|]; [|reflexivity]. exfalso. apply H. split; [reflexivity|repeat constructor]. }
  split; [exact HS|]. destruct (C41_converges 3 hs psi ltac:(lia) C41_converges_case HS) as (chi & E & _). now exists chi.
Qed.
