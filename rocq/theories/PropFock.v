(** Property theorems C05-C10: Fock matrices of optical gates.
    Convention: evaluate_circuit computes  new_vector = matrix . old_vector  over the
    basis in index order, so entry [index to][index from] is the amplitude for going from
    component [from] to component [to]. *)
From Coq Require Import Reals List Arith Lia Bool Permutation Lra.
From Coquelicot Require Import Complex.
From Verif Require Import Prelude NamesModel NamesSpec NamesProofs FockModel FockSpec BosonProofs FockProofs GateProofs.
Import ListNotations.

Lemma gate_one_photon L A : 2 <= L ->
  gate_amp L A 1 0 1 0 = m00 A /\ gate_amp L A 1 0 0 1 = m10 A /\
  gate_amp L A 0 1 1 0 = m01 A /\ gate_amp L A 0 1 0 1 = m11 A.
Proof.
  intros HL. destruct L as [|[|L]]; try lia. unfold gate_amp. cbn -[sqrt INR Rdiv].
  replace (INR 1 / INR 1)%R with 1%R by (simpl; field). rewrite sqrt_1.
  repeat split; ring.
Qed.

(** ** C05 *)
(** For every pair of distinct channels except (h,0) with h >= 2. *)
Theorem C05_gate_acts_on_its_channels_partial : forall D A h v,
  1 <= dL D -> h < dN D -> v < dN D -> h <> v -> (v = 0 -> h = 1) ->
  exists M, circuit_matrix D [(A, [h; v])] = Some M /\
    forall from to, valid D from -> valid D to ->
      (same_elsewhere h v from to ->
         M (index_of_values D to) (index_of_values D from)
         = gate_amp (dL D) (mat2_tr A) (nth h from 0) (nth v from 0) (nth h to 0) (nth v to 0)) /\
      (~ same_elsewhere h v from to ->
         M (index_of_values D to) (index_of_values D from) = RtoC 0).
Proof.
  intros D A h v HL Hh Hv Hne Hbad.
  destruct (tensor_list_good (dN D) h v) as (rest & Et & HP); auto; [lia|].
  exists (full_matrix D A (h :: v :: rest)). split; [now apply circuit_matrix_one|].
  intros from to Hf Ht. rewrite full_matrix_tuples by (auto; lia).
  pose proof (spectators D h v rest to from HP Ht Hf) as S.
  assert (Sy : same_elsewhere h v to from <-> same_elsewhere h v from to)
    by (unfold same_elsewhere; split; intros Hx c H1 H2; symmetry; now apply Hx).
  split; intros H.
  - replace (leqb (pick rest to) (pick rest from)) with true.
    + now rewrite gate_amp_tr.
    + symmetry. apply S. now apply Sy.
  - destruct (leqb _ _) eqn:E; auto. exfalso. apply H, Sy, S, eq_refl.
Qed.

Example C05_case : 1 <= dL (Dims 3 4 true) /\ 3 < 4 /\ 1 < 4 /\ 3 <> 1 /\ (1 = 0 -> 3 = 1) /\
  valid (Dims 3 4 true) [0;1;2;1] /\ valid (Dims 3 4 true) [0;2;2;0] /\
  same_elsewhere 3 1 [0;1;2;1] [0;2;2;0].
Proof.
  repeat split; try (repeat constructor; fail); try lia.
  intros c H1 H3. destruct c as [|[|[|[|c]]]]; try lia; reflexivity.
Qed.

(** The remaining pairs: a gate put on channels (h,0) with h >= 2 is the gate on (1,h). *)
Theorem C05_last_pairs_misplaced : forall D A h,
  1 <= dL D -> 2 <= h -> h < dN D ->
  exists M, circuit_matrix D [(A, [h; 0])] = Some M /\
    forall from to, valid D from -> valid D to ->
      (same_elsewhere 1 h from to ->
         M (index_of_values D to) (index_of_values D from)
         = gate_amp (dL D) (mat2_tr A) (nth 1 from 0) (nth h from 0) (nth 1 to 0) (nth h to 0)) /\
      (~ same_elsewhere 1 h from to ->
         M (index_of_values D to) (index_of_values D from) = RtoC 0).
Proof.
  intros D A h HL Hh Hn.
  destruct (tensor_list_bad (dN D) h Hh Hn) as (rest & Et & HP).
  exists (full_matrix D A (1 :: h :: rest)). split; [now apply circuit_matrix_one|].
  intros from to Hf Ht. rewrite full_matrix_tuples by (auto; lia).
  pose proof (spectators D 1 h rest to from HP Ht Hf) as S.
  assert (Sy : same_elsewhere 1 h to from <-> same_elsewhere 1 h from to)
    by (unfold same_elsewhere; split; intros Hx c H1 H2; symmetry; now apply Hx).
  split; intros H.
  - replace (leqb (pick rest to) (pick rest from)) with true.
    + now rewrite gate_amp_tr.
    + symmetry. apply S. now apply Sy.
  - destruct (leqb _ _) eqn:E; auto. exfalso. apply H, Sy, S, eq_refl.
Qed.

(** Hence C05 as stated is false: a unitary exchange gate on channels (2,0) of a
    three-channel circuit moves a photon from channel 2 to channel 1. *)
Theorem C05_refuted : exists D A h v M from to,
  1 <= dL D /\ h < dN D /\ v < dN D /\ h <> v /\ unitary2 A /\
  circuit_matrix D [(A, [h; v])] = Some M /\ valid D from /\ valid D to /\
  ~ same_elsewhere h v from to /\ M (index_of_values D to) (index_of_values D from) = RtoC 1.
Proof.
  set (D := Dims 2 3 true).
  set (A := Mat2 (RtoC 0) (RtoC 1) (RtoC 1) (RtoC 0)).
  destruct (C05_last_pairs_misplaced D A 2) as (M & EM & HM); [simpl; lia|lia|simpl; lia|].
  exists D, A, 2, 0, M, [0;0;1], [0;1;0].
  assert (V1 : valid D [0;0;1]) by (split; [reflexivity|repeat constructor]).
  assert (V2 : valid D [0;1;0]) by (split; [reflexivity|repeat constructor]).
  split; [simpl; lia|]. split; [simpl; lia|]. split; [simpl; lia|]. split; [lia|].
  split; [split; unfold mat2_mul, mat2_adj, mat2_id, A; cbn [m00 m01 m10 m11]; rewrite !Cconj_RtoC; f_equal; ring|].
  split; [exact EM|]. split; [exact V1|]. split; [exact V2|].
  split.
  - intros H. specialize (H 1). simpl in H. assert (0 = 1) by (apply H; lia). lia.
  - destruct (HM [0;0;1] [0;1;0] V1 V2) as [E _]. rewrite E.
    + change (gate_amp 2 (mat2_tr A) 0 1 1 0 = RtoC 1).
      destruct (gate_one_photon 2 (mat2_tr A)) as (_ & _ & -> & _); [lia|]. reflexivity.
    + intros c H1 H2. destruct c as [|[|[|c]]]; try lia; reflexivity.
Qed.

(** A second way in which C05 fails: after the look-ups of C04_order_refuted the matrix
    of a gate on (0,1) is built with channels exchanged for the basis order. *)
Theorem C05_history_refuted : exists D A tl hist i j,
  dims_ok D = true /\ Forall (well_formed_lookup D) hist /\
  tensor_list_of (dN D) [0; 1] = Some tl /\ i < dL D ^ dN D /\ j < dL D ^ dN D /\
  let keys := fst (ov_keys D (name_run D hist (cache_init D))) in
  fst (single_node_matrix D keys A tl SelAll) i j <> fst (single_node_matrix D (fresh_keys D) A tl SelAll) i j.
Proof.
  set (D := Dims 2 2 true).
  set (A := Mat2 (RtoC 1) (RtoC 0) (RtoC 0) (RtoC (-1))).
  exists D, A, [0;1], [OpName [0;1]; OpName [1;0]; OpName [1;1]], 1, 1.
  split; [reflexivity|]. split.
  { repeat constructor; simpl.
    + exists [0;1]. repeat constructor.
    + exists [1;0]. repeat constructor.
    + exists [1;1]. repeat constructor. }
  split; [reflexivity|]. split; [simpl; lia|]. split; [simpl; lia|].
  cbv zeta. unfold single_node_matrix; cbn [fst].
  destruct (scaled_spec 2 2 (fock2 2 A)) as (M & EM & HM); [lia|lia|].
  change (dL D) with 2. change (dN D) with 2. rewrite EM.
  set (p := nth 1 _ 0). set (q := nth 1 (map _ (keep_indices D (fresh_keys D) SelAll)) 0).
  assert (Ep : p = 2) by reflexivity. assert (Eq : q = 1) by reflexivity. rewrite Ep, Eq.
  rewrite !HM by (simpl; lia). unfold blockdiag. cbn [Nat.mul Nat.add].
  change (2 / 4) with 0. change (1 / 4) with 0. change (2 mod 4) with (1 * 2 + 0). change (1 mod 4) with (0 * 2 + 1).
  rewrite !fock2_amp by lia. destruct (gate_one_photon 2 A) as (-> & _ & _ & ->); [lia|].
  intros E. apply (f_equal fst) in E. simpl in E. lra.
Qed.

(** ** C06 *)
Theorem C06_photon_conservation : forall D gates M from to,
  1 <= dL D -> 2 <= dN D -> circuit_matrix D gates = Some M ->
  valid D from -> valid D to -> photons from <> photons to ->
  M (index_of_values D to) (index_of_values D from) = RtoC 0.
Proof. intros. eapply circuit_conserves; eauto. Qed.

Example C06_case : exists M,
  circuit_matrix (Dims 3 3 true) [(mat2_id, [2;0]); (mat2_id, [0;1]); (mat2_id, [2])] = Some M /\
  photons [1;0;2] <> photons [1;1;2].
Proof. eexists. split; [reflexivity|simpl; lia]. Qed.

(** ** C07 *)
Theorem C07_unitary_gates : forall D gates M,
  1 <= dL D -> 2 <= dN D -> Forall (fun g => unitary2 (fst g)) gates -> circuit_matrix D gates = Some M ->
  unitary_mat (dL D ^ dN D) M /\
  forall v, norm2 (dL D ^ dN D) (mat_vec (dL D ^ dN D) M v) = norm2 (dL D ^ dN D) v.
Proof.
  intros D gates M HL HN HU E.
  assert (H : unitary_mat (dL D ^ dN D) M) by (eapply circuit_unitary; eauto).
  split; auto. intros v. now apply unitary_norm2.
Qed.

(** A unitary matrix that is neither real nor symmetric. *)
Example C07_case : exists M,
  let A := Mat2 (RtoC (3/5)) (RtoC (4/5) * Ci)%C (RtoC (- 4/5)) (RtoC (3/5) * Ci)%C in
  unitary2 A /\ circuit_matrix (Dims 3 3 true) [(A, [2;1]); (A, [0;1])] = Some M.
Proof.
  eexists. split; [|reflexivity].
  split; unfold mat2_mul, mat2_adj, mat2_id; cbn [m00 m01 m10 m11]; f_equal; apply C_eq; simpl; field.
Qed.

(** ** C08 *)
(** Two gates after each other on the same channels are one gate with the product matrix
    (in the order fixed by C09: photons see the transposed matrix, so A then B is A.B);
    no photon-number restriction is needed. The identity matrix gives the identity. *)
Theorem C08_gates_compose : forall D A B chs tl,
  1 <= dL D -> 2 <= dN D -> tensor_list_of (dN D) chs = Some tl ->
  exists M M',
    circuit_matrix D [(A, chs); (B, chs)] = Some M /\ circuit_matrix D [(mat2_mul A B, chs)] = Some M' /\
    forall i j, i < dL D ^ dN D -> j < dL D ^ dN D -> M i j = M' i j.
Proof.
  intros D A B chs tl HL HN Et. eexists; eexists.
  split; [apply (circuit_matrix_two D A B chs tl); auto|]. split; [apply (circuit_matrix_one D _ chs tl); auto|].
  intros i j Hi Hj. apply full_matrix_compose; auto. eapply tensor_list_perm; eauto.
Qed.

Theorem C08_identity_gate : forall D chs tl,
  1 <= dL D -> 2 <= dN D -> tensor_list_of (dN D) chs = Some tl ->
  exists M, circuit_matrix D [(mat2_id, chs)] = Some M /\
    forall i j, i < dL D ^ dN D -> j < dL D ^ dN D -> M i j = if i =? j then RtoC 1 else RtoC 0.
Proof.
  intros D chs tl HL HN Et. eexists. split; [apply (circuit_matrix_one D _ chs tl); auto|].
  intros i j Hi Hj. pose proof (tensor_list_perm _ _ _ HN Et) as HP.
  destruct (head2 tl (dN D) (nth 0 tl 0) (nth 1 tl 0)) as [rest Hr]; auto.
  { rewrite (Permutation_length HP). apply seq_length. }
  set (h := nth 0 tl 0) in *. set (v := nth 1 tl 0) in *. clearbody h v. subst tl.
  rewrite <- (index_values_roundtrip D i) at 1 by auto. rewrite <- (index_values_roundtrip D j) at 1 by auto.
  pose proof (values_from_index_valid D i HL) as Vi. pose proof (values_from_index_valid D j HL) as Vj.
  rewrite full_matrix_tuples by auto. rewrite gate_id.
  destruct (i =? j) eqn:E.
  - apply Nat.eqb_eq in E. subst j. rewrite !Nat.eqb_refl.
    replace (leqb _ _) with true; auto. symmetry. now apply leqb_spec.
  - destruct (leqb _ _) eqn:El; auto. destruct (nth h _ 0 =? _) eqn:E1; auto. destruct (nth v _ 0 =? _) eqn:E2; auto.
    cbn [andb]. exfalso. apply Nat.eqb_neq in E. apply E.
    apply leqb_spec in El. apply Nat.eqb_eq in E1, E2.
    apply (values_from_index_inj D); auto. apply (pick_inj (dN D) (h :: v :: rest)); auto; [apply Vi|apply Vj|].
    unfold pick in *. cbn [map]. now rewrite E1, E2, El.
Qed.

Example C08_case : tensor_list_of 4 [3;1] = Some [3;1;2;0].
Proof. reflexivity. Qed.

(** ** C09 *)
(** What holds for every 2x2 matrix: a photon in the first (second) gate channel leaves
    with the amplitudes of the first (second) ROW of the matrix, i.e. the field is
    multiplied by the transposed optical matrix. *)
Theorem C09_single_photon_row : forall D A h v,
  2 <= dL D -> h < dN D -> v < dN D -> h <> v -> (v = 0 -> h = 1) ->
  exists M, circuit_matrix D [(A, [h; v])] = Some M /\
    forall from to, valid D from -> valid D to -> same_elsewhere h v from to ->
      let amp := M (index_of_values D to) (index_of_values D from) in
      (nth h from 0 = 1 -> nth v from 0 = 0 -> nth h to 0 = 1 -> nth v to 0 = 0 -> amp = m00 A) /\
      (nth h from 0 = 1 -> nth v from 0 = 0 -> nth h to 0 = 0 -> nth v to 0 = 1 -> amp = m01 A) /\
      (nth h from 0 = 0 -> nth v from 0 = 1 -> nth h to 0 = 1 -> nth v to 0 = 0 -> amp = m10 A) /\
      (nth h from 0 = 0 -> nth v from 0 = 1 -> nth h to 0 = 0 -> nth v to 0 = 1 -> amp = m11 A).
Proof.
  intros D A h v HL Hh Hv Hne Hb.
  destruct (C05_gate_acts_on_its_channels_partial D A h v) as (M & EM & HM); auto; [lia|].
  exists M. split; [exact EM|]. intros from to Hf Ht Hs. cbv zeta.
  destruct (HM from to Hf Ht) as [-> _]; auto.
  destruct (gate_one_photon (dL D) (mat2_tr A) HL) as (G1 & G2 & G3 & G4). cbn [mat2_tr m00 m01 m10 m11] in *.
  repeat split; intros -> -> -> ->; auto.
Qed.

(** For symmetric matrices (all built-in optical nodes, see C11) this is the optical
    matrix itself: amplitude for i -> j is entry [j][i]. *)
Theorem C09_single_photon_partial : forall D A h v,
  mat2_symmetric A ->
  2 <= dL D -> h < dN D -> v < dN D -> h <> v -> (v = 0 -> h = 1) ->
  exists M, circuit_matrix D [(A, [h; v])] = Some M /\
    forall from to, valid D from -> valid D to -> same_elsewhere h v from to ->
      let amp := M (index_of_values D to) (index_of_values D from) in
      (nth h from 0 = 1 -> nth v from 0 = 0 -> nth h to 0 = 1 -> nth v to 0 = 0 -> amp = m00 A) /\
      (nth h from 0 = 1 -> nth v from 0 = 0 -> nth h to 0 = 0 -> nth v to 0 = 1 -> amp = m10 A) /\
      (nth h from 0 = 0 -> nth v from 0 = 1 -> nth h to 0 = 1 -> nth v to 0 = 0 -> amp = m01 A) /\
      (nth h from 0 = 0 -> nth v from 0 = 1 -> nth h to 0 = 0 -> nth v to 0 = 1 -> amp = m11 A).
Proof.
  intros D A h v HS HL Hh Hv Hne Hb.
  destruct (C09_single_photon_row D A h v) as (M & EM & HM); auto.
  exists M. split; [exact EM|]. intros from to Hf Ht Hs. cbv zeta.
  destruct (HM from to Hf Ht Hs) as (H1 & H2 & H3 & H4). unfold mat2_symmetric in HS.
  repeat split; auto; [now rewrite <- HS|now rewrite HS].
Qed.

(** For a custom non-symmetric matrix the entries are used transposed. *)
Theorem C09_refuted : exists D A M from to,
  2 <= dL D /\ unitary2 A /\ circuit_matrix D [(A, [0; 1])] = Some M /\
  valid D from /\ valid D to /\ from = [1;0] /\ to = [0;1] /\
  M (index_of_values D to) (index_of_values D from) <> m10 A.
Proof.
  set (D := Dims 2 2 true). set (A := Mat2 (RtoC 0) (RtoC 1) (RtoC (-1)) (RtoC 0)).
  destruct (C09_single_photon_row D A 0 1) as (M & EM & HM); try (simpl; lia); auto.
  assert (V1 : valid D [1;0]) by (split; [reflexivity|repeat constructor]).
  assert (V2 : valid D [0;1]) by (split; [reflexivity|repeat constructor]).
  exists D, A, M, [1;0], [0;1]. split; [simpl; lia|]. split.
  { split; unfold mat2_mul, mat2_adj, mat2_id, A; cbn [m00 m01 m10 m11]; rewrite !Cconj_RtoC; f_equal;
      apply C_eq; simpl; ring. }
  split; [exact EM|]. split; [exact V1|]. split; [exact V2|]. split; [reflexivity|]. split; [reflexivity|].
  destruct (HM [1;0] [0;1] V1 V2) as (_ & H & _).
  { intros c H1 H2. destruct c as [|[|c]]; try lia; simpl; destruct c; reflexivity. }
  rewrite H; auto. unfold A; cbn [m01 m10]. intros E. injection E. lra.
Qed.

(** ** C10 *)
Theorem C10_overfull_pairs_identity_partial : forall D A h v,
  1 <= dL D -> h < dN D -> v < dN D -> h <> v -> (v = 0 -> h = 1) ->
  exists M, circuit_matrix D [(A, [h; v])] = Some M /\
    forall from to, valid D from -> valid D to -> dL D <= nth h from 0 + nth v from 0 ->
      M (index_of_values D to) (index_of_values D from) = (if leqb from to then RtoC 1 else RtoC 0) /\
      M (index_of_values D from) (index_of_values D to) = (if leqb from to then RtoC 1 else RtoC 0).
Proof.
  intros D A h v HL Hh Hv Hne Hb.
  destruct (tensor_list_good (dN D) h v) as (rest & Et & HP); auto; [lia|].
  exists (full_matrix D A (h :: v :: rest)). split; [now apply circuit_matrix_one|].
  assert (G : forall from to, valid D from -> valid D to ->
    (if leqb (pick rest to) (pick rest from)
     then (if (nth h from 0 =? nth h to 0) && (nth v from 0 =? nth v to 0) then RtoC 1 else RtoC 0)
     else RtoC 0) = if leqb from to then RtoC 1 else RtoC 0).
  { intros from to Hf Ht. destruct (leqb from to) eqn:E.
    - apply leqb_spec in E; subst. rewrite !Nat.eqb_refl. replace (leqb _ _) with true; auto.
      symmetry. now apply leqb_spec.
    - destruct (leqb (pick rest to) (pick rest from)) eqn:El; auto.
      destruct (nth h from 0 =? nth h to 0) eqn:E1; auto. destruct (nth v from 0 =? nth v to 0) eqn:E2; auto.
      cbn [andb]. exfalso. apply leqb_spec in El. apply Nat.eqb_eq in E1, E2.
      assert (from = to).
      { apply (pick_inj (dN D) (h :: v :: rest)); auto; [apply Hf|apply Ht|].
        unfold pick in *. cbn [map]. now rewrite E1, E2, El. }
      subst. assert (leqb to to = true) by now apply leqb_spec. congruence. }
  assert (Sy : forall a b, leqb a b = leqb b a).
  { intros a b. destruct (leqb a b) eqn:E; [apply leqb_spec in E; subst; symmetry; now apply leqb_spec|].
    destruct (leqb b a) eqn:E'; auto. apply leqb_spec in E'; subst.
    assert (leqb a a = true) by now apply leqb_spec. congruence. }
  intros from to Hf Ht Hover. split.
  - rewrite full_matrix_tuples by (auto; lia). rewrite <- gate_amp_tr. rewrite gate_amp_high by auto. now apply G.
  - rewrite full_matrix_tuples by (auto; lia). rewrite gate_amp_high by auto.
    rewrite Sy. now apply G.
Qed.

Example C10_case : valid (Dims 3 3 true) [2;0;1] /\ 3 <= nth 0 [2;0;1] 0 + nth 2 [2;0;1] 0.
Proof. split; [split; [reflexivity|repeat constructor]|simpl; lia]. Qed.

Print Assumptions C05_gate_acts_on_its_channels_partial.
Print Assumptions C05_last_pairs_misplaced.
Print Assumptions C05_refuted.
Print Assumptions C05_history_refuted.
Print Assumptions C06_photon_conservation.
Print Assumptions C07_unitary_gates.
Print Assumptions C08_gates_compose.
Print Assumptions C08_identity_gate.
Print Assumptions C09_single_photon_row.
Print Assumptions C09_single_photon_partial.
Print Assumptions C09_refuted.
Print Assumptions C10_overfull_pairs_identity_partial.
