(** Property theorems C79: negative channel numbers. *)
From Coq Require Import Reals List Arith Lia Lra Bool Permutation ZArith.
From Coquelicot Require Import Complex.
From Verif Require Import Prelude NamesModel NamesSpec NamesProofs FockModel FockSpec FockProofs GateProofs PropFock OpticalModel OpticalProofs PropOptical
  NegativeModel NegativeSpec.
Import ListNotations.

Lemma python_index_names n z c : names_channel n z c -> python_index n z = Some c.
Proof.
  intros [Hc [-> | ->]]; unfold python_index.
  - replace ((0 <=? Z.of_nat c) && (Z.of_nat c <? Z.of_nat n))%Z with true by (symmetry; apply andb_true_intro; split; [apply Z.leb_le|apply Z.ltb_lt]; lia). now rewrite Nat2Z.id.
  - replace (0 <=? Z.of_nat c - Z.of_nat n)%Z with false by (symmetry; apply Z.leb_gt; lia). cbn [andb].
    replace ((- Z.of_nat n <=? Z.of_nat c - Z.of_nat n) && (Z.of_nat c - Z.of_nat n <? 0))%Z with true by (symmetry; apply andb_true_intro; split; [apply Z.leb_le|apply Z.ltb_lt]; lia).
    f_equal. rewrite <- (Nat2Z.id c) at 2. f_equal. lia.
Qed.
Lemma python_index_none n z : names_none n z -> python_index n z = None.
Proof.
  intros H. unfold python_index, names_none in *.
  destruct ((0 <=? z) && (z <? Z.of_nat n))%Z eqn:E; [apply andb_prop in E; rewrite Z.leb_le, Z.ltb_lt in E; lia|].
  destruct ((- Z.of_nat n <=? z) && (z <? 0))%Z eqn:E'; [apply andb_prop in E'; rewrite Z.leb_le, Z.ltb_lt in E'; lia|]. reflexivity.
Qed.

Lemma swap_same i l : swap_at i i l = l.
Proof.
  unfold swap_at. assert (G : forall (l : list nat) i x, x = nth i l 0 -> set_nth l i x = l).
  { clear. induction l as [|a l IH]; intros [|i] x E; cbn [set_nth nth] in *; try reflexivity; [now subst|]. f_equal. now apply IH. }
  rewrite !G; try reflexivity. now rewrite G.
Qed.

(** The list that the general case makes, whatever numbers stand for the channels. *)
Definition general (n h v : nat) : list nat := swap_at 1 v (swap_at 0 h (seq 0 n)).

Lemma tensor_z_pair n h v h' v' : 2 <= n -> names_channel n h h' -> names_channel n v v' -> h <> v -> ~ (h = 1%Z /\ v = 0%Z) ->
  tensor_list_z n [h; v] = Some (general n h' v').
Proof.
  intros Hn Hh Hv Hne Hb. unfold tensor_list_z. replace (h =? v)%Z with false by (symmetry; now apply Z.eqb_neq).
  destruct ((h =? 0) && (v =? 1))%Z eqn:E.
  - apply andb_prop in E. rewrite !Z.eqb_eq in E. destruct E as [-> ->].
    assert (h' = 0) as -> by (destruct Hh as [? [?|?]]; lia). assert (v' = 1) as -> by (destruct Hv as [? [?|?]]; lia). unfold general. now rewrite !swap_same.
  - destruct ((h =? 1) && (v =? 0))%Z eqn:E'; [apply andb_prop in E'; rewrite !Z.eqb_eq in E'; tauto|].
    now rewrite (python_index_names n h h' Hh), (python_index_names n v v' Hv).
Qed.
Lemma tensor_pair n h v : 2 <= n -> h < n -> v < n -> h <> v -> ~ (h = 1 /\ v = 0) -> tensor_list_of n [h; v] = Some (general n h v).
Proof.
  intros Hn Hh Hv Hne Hb. unfold tensor_list_of. replace (h =? v) with false by (symmetry; now apply Nat.eqb_neq).
  destruct ((h =? 0) && (v =? 1)) eqn:E.
  - apply andb_prop in E. rewrite !Nat.eqb_eq in E. destruct E as [-> ->]. unfold general. now rewrite !swap_same.
  - destruct ((h =? 1) && (v =? 0)) eqn:E'; [apply andb_prop in E'; rewrite !Nat.eqb_eq in E'; tauto|].
    now rewrite (proj2 (Nat.ltb_lt h n) Hh), (proj2 (Nat.ltb_lt v n) Hv).
Qed.
Lemma tensor_10 n : 2 <= n -> tensor_list_of n [1; 0] = Some (general n 1 1).
Proof. intros Hn. unfold general. rewrite swap_same. reflexivity. Qed.
Lemma tensor_01 n : 2 <= n -> tensor_list_of n [0; 1] = Some (general n 0 1).
Proof. intros Hn. unfold general. now rewrite !swap_same. Qed.

Lemma element_of D A chs chs' : 1 <= dL D -> tensor_list_z (dN D) chs = tensor_list_of (dN D) chs' -> element_matrix D A chs = circuit_matrix D [(A, chs')].
Proof. intros HL E. unfold element_matrix, circuit_matrix. cbn [place]. rewrite E. now destruct (tensor_list_of (dN D) chs'). Qed.

(** Numbers that are not negative: the element of the other theorems. *)
Theorem C79_not_negative : forall D A chs, 1 <= dL D -> 2 <= dN D -> element_matrix D A (map Z.of_nat chs) = circuit_matrix D [(A, chs)].
Proof.
  intros D A chs HL HN. apply element_of; [exact HL|]. set (n := dN D) in *.
  assert (G : forall c, python_index n (Z.of_nat c) = if c <? n then Some c else None).
  { intros c. destruct (c <? n) eqn:E; [apply Nat.ltb_lt in E; apply python_index_names; split; auto|]. apply Nat.ltb_ge in E. apply python_index_none. right. lia. }
  assert (Q : forall a b, (Z.of_nat a =? Z.of_nat b)%Z = (a =? b)) by (intros a b; destruct (Nat.eqb_spec a b) as [->|H]; [apply Z.eqb_refl|apply Z.eqb_neq; lia]).
  assert (Q0 : forall a, (Z.of_nat a =? 0)%Z = (a =? 0)) by (intros a; exact (Q a 0)).
  assert (Q1 : forall a, (Z.of_nat a =? 1)%Z = (a =? 1)) by (intros a; exact (Q a 1)).
  destruct chs as [|h [|v [|x r]]]; cbn [map tensor_list_z tensor_list_of]; auto.
  - rewrite Q0, G. destruct (h =? 0); [reflexivity|]. now destruct (h <? n).
  - rewrite (Q h v), !Q0, !Q1, !G. destruct (h =? v); [reflexivity|]. destruct ((h =? 0) && (v =? 1)); [reflexivity|]. destruct ((h =? 1) && (v =? 0)); [reflexivity|].
    destruct (h <? n), (v <? n); reflexivity.
Qed.
Print Assumptions C79_not_negative.

(** A number that names no channel, counted from either end: the call raises. *)
Theorem C79_no_channel : forall D A h v, 2 <= dN D ->
  (names_none (dN D) h -> element_matrix D A [h] = None) /\
  (names_none (dN D) h \/ names_none (dN D) v -> element_matrix D A [h; v] = None).
Proof.
  intros D A h v HN. unfold element_matrix, tensor_list_z. split.
  - intros H. replace (h =? 0)%Z with false; [now rewrite python_index_none|]. symmetry. apply Z.eqb_neq. intros ->. destruct H; lia.
  - intros H. destruct (h =? v)%Z; [reflexivity|].
    destruct ((h =? 0) && (v =? 1))%Z eqn:E. { apply andb_prop in E. rewrite !Z.eqb_eq in E. unfold names_none in H. lia. }
    destruct ((h =? 1) && (v =? 0))%Z eqn:E'. { apply andb_prop in E'. rewrite !Z.eqb_eq in E'. unfold names_none in H. lia. }
    destruct H as [H|H]; rewrite (python_index_none _ _ H); [reflexivity|]. now destruct (python_index (dN D) h).
Qed.
Print Assumptions C79_no_channel.

(** Negative numbers count from the end: the element is the one on the named channels, if these are
    different and the second one is not channel 0. *)
Theorem C79_from_the_end_partial : forall D A h v h' v', 1 <= dL D -> 2 <= dN D ->
  names_channel (dN D) h h' -> names_channel (dN D) v v' -> h' <> v' -> (v' = 0 -> h' = 1 -> h = 1%Z /\ v = 0%Z) ->
  element_matrix D A [h; v] = circuit_matrix D [(A, [h'; v'])].
Proof.
  intros D A h v h' v' HL HN Hh Hv Hne Hv0. apply element_of; [exact HL|].
  assert (h <> v) by (intros ->; destruct Hh as [? [?|?]], Hv as [? [?|?]]; lia).
  destruct (Nat.eq_dec v' 0) as [E|E].
  - destruct (Nat.eq_dec h' 1) as [E'|E'].
    + destruct (Hv0 E E') as [-> ->]. subst. reflexivity.
    + rewrite (tensor_z_pair (dN D) h v h' v') by (auto; intros [-> ->]; destruct Hh as [? [?|?]], Hv as [? [?|?]]; lia).
      rewrite tensor_pair; auto; [apply Hh|apply Hv|lia].
  - rewrite (tensor_z_pair (dN D) h v h' v') by (auto; intros [-> ->]; destruct Hh as [? [?|?]], Hv as [? [?|?]]; lia).
    rewrite tensor_pair; auto; [apply Hh|apply Hv|lia].
Qed.
Print Assumptions C79_from_the_end_partial.

Theorem C79_one_channel : forall D A z c, 1 <= dL D -> names_channel (dN D) z c -> element_matrix D A [z] = circuit_matrix D [(A, [c])].
Proof.
  intros D A z c HL H. apply element_of; [exact HL|]. cbn [tensor_list_z tensor_list_of]. rewrite (python_index_names _ _ _ H).
  destruct H as [Hc H]. rewrite (proj2 (Nat.ltb_lt c (dN D)) Hc). destruct (z =? 0)%Z eqn:E.
  - apply Z.eqb_eq in E. replace c with 0 by lia. reflexivity.
  - destruct (c =? 0) eqn:E'; [|reflexivity]. apply Nat.eqb_eq in E'. subst c. now rewrite swap_same.
Qed.
Print Assumptions C79_one_channel.

(** Phase shifts are right for every channel, counted from either end. *)
Theorem C79_phase_shift : forall D phi z c, 1 <= dL D -> 2 <= dN D -> names_channel (dN D) z c ->
  element_matrix D (generic_matrix 0 phi) (phase_channels z) = calls_matrix D [Phase_shift c phi].
Proof.
  intros D phi z c HL HN H. unfold calls_matrix. cbn [gates_of_calls gates_of app]. apply element_of; [exact HL|].
  unfold phase_channels. assert (N0 : names_channel (dN D) 0 0) by (split; [lia|left; reflexivity]).
  destruct (z =? 0)%Z eqn:E.
  - apply Z.eqb_eq in E. subst z. assert (c = 0) as -> by (destruct H as [? [?|?]]; lia). reflexivity.
  - apply Z.eqb_neq in E. rewrite (tensor_z_pair (dN D) 0 z 0 c) by (auto; lia). destruct (c =? 0) eqn:E'.
    + apply Nat.eqb_eq in E'. subst c. rewrite tensor_10 by auto. unfold general. rewrite !swap_same. f_equal. destruct (dN D) as [|[|n]]; try lia. reflexivity.
    + apply Nat.eqb_neq in E'. symmetry. apply tensor_pair; auto; [lia|apply H|lia].
Qed.
Print Assumptions C79_phase_shift.

(** The same channel named twice, by two numbers: not refused. For the first two channels it is the
    element on channels 1 and 0. *)
Lemma tensor_z_same n c : 2 <= n -> c < n -> tensor_list_z n [Z.of_nat c; (Z.of_nat c - Z.of_nat n)%Z] = Some (general n c c) /\
  tensor_list_z n [(Z.of_nat c - Z.of_nat n)%Z; Z.of_nat c] = Some (general n c c).
Proof.
  intros Hn Hc. assert (N1 : names_channel n (Z.of_nat c) c) by (split; auto). assert (N2 : names_channel n (Z.of_nat c - Z.of_nat n)%Z c) by (split; auto).
  split; apply tensor_z_pair; auto; lia.
Qed.
Lemma general_same n c : 2 <= n -> c < n -> exists rest, general n c c = (if c <=? 1 then 1 else c) :: 0 :: rest /\ Permutation (general n c c) (seq 0 n).
Proof.
  intros Hn Hc. pose proof (two_swaps_perm n c c Hn Hc Hc) as HP. fold (general n c c) in HP.
  destruct (head2 (general n c c) n (if c <=? 1 then 1 else c) 0) as [rest E]; [now rewrite (Permutation_length HP), seq_length|exact Hn| | |].
  - unfold general. rewrite two_swaps_table by lia. unfold transp. destruct c as [|[|c]]; reflexivity.
  - unfold general. rewrite two_swaps_table by lia. unfold transp. destruct c as [|[|c]]; cbn [Nat.eqb]; [reflexivity|reflexivity|]. now rewrite Nat.eqb_refl.
  - exists rest. split; [exact E|exact HP].
Qed.

Lemma fock_one D A tl : 1 <= dL D -> option_map fst (fock_state_matrix D (fresh_keys D) [ONode A tl] SelAll) = Some (full_matrix D A tl).
Proof. intros HL. unfold fock_state_matrix. cbn [fold_left option_map on_matrix on_tl]. rewrite fresh_keys_all by exact HL. reflexivity. Qed.

(** The same channel named twice is not refused: the element acts on that channel and channel 0,
    and for channel 0 on channels 1 and 0. *)
Theorem C79_same_channel_twice : forall D A c h v, 1 <= dL D -> 2 <= dN D -> h <> v -> names_channel (dN D) h c -> names_channel (dN D) v c ->
  let k := if c <=? 1 then 1 else c in
  exists M, element_matrix D A [h; v] = Some M /\
    forall from to, valid D from -> valid D to ->
      (same_elsewhere k 0 from to ->
         M (index_of_values D to) (index_of_values D from)
         = gate_amp (dL D) (mat2_tr A) (nth k from 0) (nth 0 from 0) (nth k to 0) (nth 0 to 0)) /\
      (~ same_elsewhere k 0 from to ->
         M (index_of_values D to) (index_of_values D from) = RtoC 0).
Proof.
  intros D A c h v HL HN Hne Hh Hv k. pose proof (proj1 Hh) as Hc.
  assert (E : tensor_list_z (dN D) [h; v] = Some (general (dN D) c c)).
  { destruct (tensor_z_same (dN D) c HN Hc) as [E1 E2]. destruct Hh as [_ [-> | ->]], Hv as [_ [-> | ->]]; auto; now elim Hne. }
  destruct (general_same (dN D) c HN Hc) as (rest & Er & HP). fold k in Er. unfold element_matrix. rewrite E, fock_one by exact HL.
  eexists. split; [reflexivity|]. rewrite Er in HP |- *. intros from to Hf Ht. rewrite full_matrix_tuples by (auto; lia).
  pose proof (spectators D k 0 rest to from HP Ht Hf) as S'.
  assert (Sy : same_elsewhere k 0 to from <-> same_elsewhere k 0 from to)
    by (unfold same_elsewhere; split; intros Hx x H1 H2; symmetry; now apply Hx).
  split; intros H.
  - replace (leqb (pick rest to) (pick rest from)) with true.
    + now rewrite gate_amp_tr.
    + symmetry. apply S'. now apply Sy.
  - destruct (leqb _ _) eqn:El; auto. exfalso. apply H, Sy, S', eq_refl.
Qed.
Print Assumptions C79_same_channel_twice.

(** A photon of channel 2 that goes to channel 0, which the call does not name: an exchange of
    channels 2 and -1 in a circuit of three channels. *)
Theorem C79_same_channel_refuted : exists D A h v M from to,
  1 <= dL D /\ names_channel (dN D) h 2 /\ names_channel (dN D) v 2 /\ unitary2 A /\
  element_matrix D A [h; v] = Some M /\ valid D from /\ valid D to /\
  nth 0 from 0 <> nth 0 to 0 /\ M (index_of_values D to) (index_of_values D from) = RtoC 1.
Proof.
  set (D := Dims 2 3 true). set (A := Mat2 (RtoC 0) (RtoC 1) (RtoC 1) (RtoC 0)).
  assert (N1 : names_channel (dN D) 2%Z 2) by (split; [cbn; lia|left; reflexivity]).
  assert (N2 : names_channel (dN D) (-1)%Z 2) by (split; [cbn; lia|right; reflexivity]).
  destruct (C79_same_channel_twice D A 2 2%Z (-1)%Z) as (M & EM & HM); [cbn; lia|cbn; lia|lia|exact N1|exact N2|].
  exists D, A, 2%Z, (-1)%Z, M, [0;0;1], [1;0;0].
  assert (V1 : valid D [0;0;1]) by (split; [reflexivity|repeat constructor]).
  assert (V2 : valid D [1;0;0]) by (split; [reflexivity|repeat constructor]).
  split; [cbn; lia|]. split; [exact N1|]. split; [exact N2|].
  split; [split; unfold mat2_mul, mat2_adj, mat2_id, A; cbn [m00 m01 m10 m11]; rewrite !Cconj_RtoC; f_equal; ring|].
  split; [exact EM|]. split; [exact V1|]. split; [exact V2|]. split; [discriminate|].
  destruct (HM [0;0;1] [1;0;0] V1 V2) as [E _]. rewrite E.
  - change (gate_amp 2 (mat2_tr A) 1 0 0 1 = RtoC 1).
    destruct (gate_one_photon 2 (mat2_tr A)) as (_ & -> & _ & _); [lia|]. reflexivity.
  - intros c H1 H2. destruct c as [|[|[|c]]]; try lia; cbn in *; congruence.
Qed.
Print Assumptions C79_same_channel_refuted.

(** Channels 1 and 0, at least one of them counted from the end: the element acts on channels 0 and 1,
    in the other order. *)
Theorem C79_first_two_misplaced : forall D A h v, 1 <= dL D -> 2 <= dN D ->
  names_channel (dN D) h 1 -> names_channel (dN D) v 0 -> ~ (h = 1%Z /\ v = 0%Z) ->
  element_matrix D A [h; v] = circuit_matrix D [(A, [0; 1])].
Proof.
  intros D A h v HL HN Hh Hv Hb. apply element_of; [exact HL|].
  assert (h <> v) by (intros ->; destruct Hh as [? [?|?]], Hv as [? [?|?]]; lia).
  rewrite (tensor_z_pair (dN D) h v 1 0), tensor_01 by auto. f_equal. unfold general. rewrite !swap_same.
  destruct (dN D) as [|[|n]]; try lia. reflexivity.
Qed.
Print Assumptions C79_first_two_misplaced.

(** swap(0, -1) in a circuit of three channels exchanges channels 1 and 2. *)
Theorem C79_swap_refuted : exists M, let D := Dims 2 3 true in
  element_matrix D (generic_matrix (PI / 4) PI) (swap_channels 0 (-1)) = Some M /\
  M (index_of_values D [0;1;0]) (index_of_values D [0;0;1]) = RtoC 1 /\
  M (index_of_values D [1;0;0]) (index_of_values D [0;0;1]) = RtoC 0.
Proof.
  set (D := Dims 2 3 true). change (swap_channels 0 (-1)) with [(-1)%Z; 0%Z].
  pose proof (C79_from_the_end_partial D (generic_matrix (PI / 4) PI) (-1) 0 2 0) as Q.
  assert (QE : element_matrix D (generic_matrix (PI / 4) PI) [(-1)%Z; 0%Z] = circuit_matrix D [(generic_matrix (PI / 4) PI, [2; 0])]); [apply Q; [cbn; lia|cbn; lia|split; [cbn; lia|right; reflexivity]|split; [cbn; lia|left; reflexivity]|lia|lia]|].
  destruct (C05_last_pairs_misplaced D (generic_matrix (PI / 4) PI) 2) as (M & EM & HM); [cbn; lia|lia|cbn; lia|].
  exists M. cbv zeta. split; [rewrite QE; exact EM|].
  assert (V0 : valid D [0;0;1]) by (split; [reflexivity|repeat constructor]).
  assert (V1 : valid D [0;1;0]) by (split; [reflexivity|repeat constructor]).
  assert (V2 : valid D [1;0;0]) by (split; [reflexivity|repeat constructor]). split.
  - destruct (HM [0;0;1] [0;1;0] V0 V1) as [E _]. rewrite E.
    + change (gate_amp 2 (mat2_tr (generic_matrix (PI / 4) PI)) 0 1 1 0 = RtoC 1).
      destruct (gate_one_photon 2 (mat2_tr (generic_matrix (PI / 4) PI))) as (_ & _ & -> & _); [lia|]. rewrite swap_matrix. reflexivity.
    + intros c H1 H2. destruct c as [|[|[|c]]]; try lia; cbn in *; congruence.
  - destruct (HM [0;0;1] [1;0;0] V0 V2) as [_ E]. apply E. intros H. specialize (H 0). cbn in H. assert (0 = 1) by (apply H; lia). lia.
Qed.
Print Assumptions C79_swap_refuted.

(** Channels 3 and 1 of five channels, as -2 and 1. *)
Example C79_case : let D := Dims 3 5 true in
  names_channel (dN D) (-2) 3 /\ names_channel (dN D) 1 1 /\ 3 <> 1 /\ names_none (dN D) (-6) /\ names_none (dN D) 5 /\
  (forall A, element_matrix D A [-2; 1]%Z = circuit_matrix D [(A, [3; 1])]) /\ (forall A, exists M, circuit_matrix D [(A, [3; 1])] = Some M).
Proof.
  intros D. assert (N1 : names_channel (dN D) (-2) 3) by (split; [cbn; lia|right; reflexivity]).
  assert (N2 : names_channel (dN D) 1 1) by (split; [cbn; lia|left; reflexivity]).
  split; [exact N1|]. split; [exact N2|]. split; [lia|]. split; [left; cbn; lia|]. split; [right; cbn; lia|]. split.
  - intros A. apply C79_from_the_end_partial; auto; cbn; lia.
  - intros A. now eexists.
Qed.
