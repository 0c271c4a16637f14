(** C48: the amplitudes of states with several photons are permanents of the one-photon amplitudes. *)
From Coq Require Import Reals List Arith Lia Lra Bool Permutation.
From Coquelicot Require Import Complex.
From Verif Require Import Prelude NamesModel NamesSpec NamesProofs FockModel FockSpec BosonProofs FockProofs GateProofs PropFock StateModel StateSpec
  CollectionModel EvalModel ColumnModel ColumnSpec ColumnProofs TemporalSpec TemporalProofs PropPROptics InterferenceSpec ArrangementProofs InterferenceProofs ExperimentSpec PermanentProofs.
Import ListNotations.

(** Every sequence of unitary elements on existing channels has a matrix, and the one-photon
    amplitudes form a unitary matrix. *)
Theorem C48_elements_exist : forall D es, 1 <= dL D -> es <> [] -> Forall (optic_ok D) es ->
  (exists M, circuit_matrix D (optic_gates es) = Some M) /\ unitary_mat (dN D) (transfer (dN D) es).
Proof.
  intros D es HL Hne He. split; [|now apply optics_transfer_unitary].
  assert (HN : 2 <= dN D). { destruct He as [|e es (_ & H1 & H2 & H3 & _) _]; [congruence|lia]. }
  destruct (optics_place D es He HN) as (nds & Ep & HF). rewrite circuit_matrix_product, Ep by exact HL.
  destruct nds as [|nd r]; [inversion HF; subst; exfalso; now apply Hne|]. eexists. reflexivity.
Qed.
(** The amplitude from [from] to [to] is the permanent of the one-photon amplitudes, divided by the
    square root of the factorials of the photon numbers. *)
Theorem C48_permanent : forall D es M from to,
  1 <= dL D -> Forall (optic_ok D) es -> circuit_matrix D (optic_gates es) = Some M ->
  length from = dN D -> length to = dN D -> NamesSpec.photons from = NamesSpec.photons to -> NamesSpec.photons to < dL D ->
  M (index_of_values D to) (index_of_values D from) =
  (permanent (transfer (dN D) es) from to / RtoC (sqrt (INR (factorials from)) * sqrt (INR (factorials to))))%C.
Proof. exact circuit_permanent. Qed.

Lemma one_unit n c : one_photon n c = occupation n [c].
Proof.
  unfold one_photon, occupation. apply map_ext. intro i. cbn [count_occ]. destruct (Nat.eq_dec c i) as [->|Hn]; [now rewrite Nat.eqb_refl|].
  now rewrite (proj2 (Nat.eqb_neq i c) (not_eq_sym Hn)).
Qed.
Lemma one_channels n c : c < n -> channels_of (one_photon n c) = [c].
Proof. intro H. rewrite one_unit, <- unit_occupation, <- channels_of_spec by exact H. now apply channels_of_unit. Qed.
Lemma one_facts n c : c < n -> length (one_photon n c) = n /\ NamesSpec.photons (one_photon n c) = 1 /\ factorials (one_photon n c) = 1.
Proof.
  intro H. split; [unfold one_photon; now rewrite map_length, seq_length|]. split; [rewrite <- channels_length, one_channels by exact H; reflexivity|].
  rewrite one_unit, <- unit_occupation by exact H. apply factorials_unit.
Qed.
(** One photon: the amplitude is the sum over all ways through the elements. *)
Theorem C48_one_photon : forall D es M c k,
  2 <= dL D -> Forall (optic_ok D) es -> circuit_matrix D (optic_gates es) = Some M -> c < dN D -> k < dN D ->
  M (index_of_values D (one_photon (dN D) c)) (index_of_values D (one_photon (dN D) k)) = transfer (dN D) es c k.
Proof.
  intros D es M c k HL He EM Hc Hk. destruct (one_facts (dN D) c Hc) as [L1 [P1 F1]]. destruct (one_facts (dN D) k Hk) as [L2 [P2 F2]].
  rewrite (C48_permanent D es M) by (try assumption; lia). unfold permanent. rewrite P1, F1, F2, !one_channels by assumption. cbn [seq permutations flat_map inserts app].
  rewrite Csum_cons, Csum_nil. cbn [combine Cprod fold_right fst snd nth INR]. rewrite sqrt_1. rewrite Rmult_1_l. field. intro X. apply RtoC_inj in X. lra.
Qed.

(** Two photons on a 50/50 splitter never leave through different channels. *)
Definition splitter : list optic := [(plate, (0, 1))].
Lemma splitter_ok : Forall (optic_ok (Dims 3 2 true)) splitter.
Proof. constructor; [|constructor]. split; [apply plate_unitary|]. cbn. lia. Qed.
Lemma splitter_transfer c k : c < 2 -> k < 2 -> transfer 2 splitter c k = optic_transfer (plate, (0, 1)) c k.
Proof.
  intros Hc Hk. cbn [transfer splitter seq]. rewrite !Csum_cons, Csum_nil. destruct c as [|[|c]]; [| |lia]; cbn [Nat.eqb]; ring.
Qed.
Example C48_two_photons : exists M, circuit_matrix (Dims 3 2 true) (optic_gates splitter) = Some M /\
  M (index_of_values (Dims 3 2 true) [1; 1]) (index_of_values (Dims 3 2 true) [1; 1]) = RtoC 0 /\
  M (index_of_values (Dims 3 2 true) [2; 0]) (index_of_values (Dims 3 2 true) [1; 1]) <> RtoC 0.
Proof.
  destruct (C48_elements_exist (Dims 3 2 true) splitter) as [[M EM] _]; [cbn; lia|discriminate|apply splitter_ok|]. exists M. split; [exact EM|].
  pose proof r2_sq as E2. rewrite !(C48_permanent (Dims 3 2 true) splitter M) by (try apply splitter_ok; try exact EM; cbn; lia). unfold permanent.
  cbn [NamesSpec.photons Nat.add seq permutations flat_map inserts map app channels_of length nth repeat dN]. rewrite !Csum_cons, !Csum_nil. cbn [combine Cprod fold_right fst snd nth].
  rewrite !splitter_transfer by lia. unfold optic_transfer, plate. cbn [fst snd Nat.eqb m00 m01 m10 m11 factorials fact Nat.mul Nat.add INR]. rewrite sqrt_1. split.
  - apply C_eq; cbn; field_simplify; try lra.
  - assert (P : (0 < sqrt (1 + 1))%R) by (apply sqrt_lt_R0; lra). intro X.
    assert (Y : (RtoC (r2 * r2 + r2 * r2) = RtoC 0)%C).
    { replace (RtoC (r2 * r2 + r2 * r2)) with ((RtoC r2 * (RtoC r2 * RtoC 1) + (RtoC r2 * (RtoC r2 * RtoC 1) + RtoC 0)) / RtoC (1 * sqrt (1 + 1))%R * RtoC (1 * sqrt (1 + 1))%R)%C.
      - rewrite X. ring.
      - rewrite RtoC_plus, !RtoC_mult. field. intro Z; apply RtoC_inj in Z; lra. }
    apply RtoC_inj in Y. lra.
Qed.
