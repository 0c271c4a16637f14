(** C67: measuring first and controlling by the result is controlling by the photons and measuring later. *)
From Coq Require Import Reals List Arith Lia Lra Bool Permutation.
From Coquelicot Require Import Complex.
From Verif Require Import Prelude NamesModel NamesSpec NamesProofs FockModel FockSpec FockProofs GateProofs
  OpticalModel OpticalProofs StateModel StateSpec StateProofs CollectionModel EvalModel EvalSpec EvalProofs MeasureSpec MeasureProofs
  InterferenceSpec ArrangementProofs PermanentProofs CircuitSpec CircuitProofs EnsembleProofs PropCircuit ProtocolSpec ProtocolProofs PropCleanup PropProtocol.
Import ListNotations.

Section Controlled.
Variables (D : dims) (B : R -> mat2) (a h v : nat) (rest : list nat).
Hypothesis (HL : 1 <= dL D) (HN : 2 <= dN D) (HP : Permutation (h :: v :: rest) (seq 0 (dN D))) (Ha : a < dN D) (Hah : a <> h) (Hav : a <> v) (HB : forall x, unitary2 (B x)).
Let val (i : nat) : R := INR (nth a (values_from_index D i) 0).
Let F (x : R) : mat := full_matrix D (B x) (h :: v :: rest).
Let M : mat := photon_controlled D B a h v.
Lemma controlled_entry i j : i < size_of_basis D -> j < size_of_basis D -> M i j = F (val j) i j.
Proof.
  intros Hi Hj. unfold M, photon_controlled, F, val. rewrite (pair_amp_matrix D _ h v rest) by (try assumption; now apply values_from_index_valid).
  rewrite !index_values_roundtrip by assumption. reflexivity.
Qed.
Lemma entry_zero x i j : i < size_of_basis D -> j < size_of_basis D -> val i <> val j -> F x i j = RtoC 0.
Proof.
  intros Hi Hj Hn. unfold F. rewrite <- (index_values_roundtrip D i), <- (index_values_roundtrip D j) by assumption.
  rewrite <- pair_amp_matrix by (try assumption; now apply values_from_index_valid).
  destruct (C_eq_dec (pair_amp D (mat2_tr (B x)) h v (values_from_index D j) (values_from_index D i)) (RtoC 0)) as [E|E]; [exact E|]. exfalso. apply Hn. unfold val. f_equal. symmetry. apply (pair_amp_elsewhere _ _ _ _ _ _ E); assumption.
Qed.
Lemma photon_controlled_unitary : unitary_mat (size_of_basis D) (photon_controlled D B a h v).
Proof.
  fold M. intros i j Hi Hj.
  assert (HU : forall x, unitary_mat (size_of_basis D) (F x)) by (intro x; unfold F; apply full_matrix_unitary; [lia|exact HN|exact HP|apply HB]).
  destruct (Req_EM_T (val i) (val j)) as [E|E].
  - split.
    + destruct (HU (val i) i j Hi Hj) as [<- _]. apply Csum_ext. intros k Hk. apply in_seq in Hk. rewrite !controlled_entry by lia.
      destruct (Req_EM_T (val i) (val k)) as [Ek|Ek]; [now rewrite <- Ek|]. rewrite !entry_zero by (try lia; congruence). reflexivity.
    + destruct (HU (val i) i j Hi Hj) as [_ <-]. apply Csum_ext. intros k Hk. apply in_seq in Hk. rewrite !controlled_entry by lia. now rewrite <- E.
  - assert (Hne : i <> j) by congruence. apply Nat.eqb_neq in Hne. rewrite Hne. split; apply Csum_zero; intros k Hk; apply in_seq in Hk; rewrite !controlled_entry by lia.
    + destruct (Req_EM_T (val i) (val k)) as [Ek|Ek].
      * rewrite (entry_zero _ j k) by (try lia; congruence). rewrite Cconj_RtoC. ring.
      * rewrite (entry_zero _ i k) by (try lia; congruence). ring.
    + destruct (Req_EM_T (val i) (val k)) as [Ek|Ek].
      * rewrite (entry_zero _ k j) by (try lia; congruence). ring.
      * rewrite (entry_zero _ k i) by (try lia; congruence). rewrite Cconj_RtoC. ring.
Qed.
End Controlled.

(** ** C67 *)
(** A measurement of optical channel [a] into classical channel [k], followed by an element in other
    channels controlled by channel [k], cannot be distinguished from the element controlled by the photons in
    channel [a] themselves, followed by the measurement. *)
Theorem C67_deferred : forall D ncl full pre post ops_pre ops_post nd A B a k h v its X rnd rnd2, 1 <= dL D -> 2 <= dN D ->
  Forall2 (means D ncl) pre ops_pre -> Forall2 (means D ncl) post ops_post -> proper_items D ncl its ->
  means D ncl nd (Element A h v) -> (forall r, length r = ncl -> A r = mat2_tr (B (nth k r 0%R))) -> (forall x, unitary2 (B x)) ->
  a < dN D -> a <> h -> a <> v -> k < ncl ->
  exists eps0, (0 < eps0)%R /\ forall eps, (0 < eps <= eps0)%R ->
    let c := Circuit D ncl eps full (fresh_keys D) (pre ++ [NMeasure [a] [k]; nd] ++ post) in
    let c2 := Circuit D ncl eps full (fresh_keys D) (pre ++ [NCustomFock (photon_controlled D B a h v); NMeasure [a] [k]] ++ post) in
    exists out out2, evaluate_circuit X rnd c (coll_of c its) = Ok (coll_of c out) /\ evaluate_circuit X rnd2 c2 (coll_of c2 its) = Ok (coll_of c2 out2) /\ indistinguishable D out out2.
Proof.
  intros D ncl full pre post ops_pre ops_post nd A B a k h v its X rnd rnd2 HL HN M1 M4 Hp Hm HA HB Ha Hah Hav Hk.
  assert (exists rest, Permutation (h :: v :: rest) (seq 0 (dN D))) as (rest & HP) by (inversion Hm; subst; eexists; eassumption).
  assert (Hd : means D ncl (NMeasure [a] [k]) (Detect [a] [k])).
  { constructor; [reflexivity|intros c [<-|[]]; exact Hk|]. constructor; [intros []|constructor]. }
  pose proof (means_custom D ncl _ _ (photon_controlled_unitary D B a h v rest HL HN HP Ha Hah Hav HB) (fun f g _ _ => eq_refl)) as Hc.
  apply (replace_part D ncl full pre _ _ post ops_pre _ _ ops_post) with (4 := Forall2_cons _ _ Hd (Forall2_cons _ _ Hm (Forall2_nil _))) (5 := Forall2_cons _ _ Hc (Forall2_cons _ _ Hd (Forall2_nil _))); try assumption.
  intros o l r f g Hr Vf Vg. cbn [before_all fold_right before].
  assert (ET : forall f f', valid D f -> valid D f' -> photon_controlled D B a h v (index_of_values D f') (index_of_values D f) = pair_amp D (mat2_tr (B (INR (nth a f 0)))) h v f f').
  { intros f0 f' V0 V'. unfold photon_controlled. now rewrite !values_index_roundtrip. }
  assert (Hro : forall C f f', valid D f -> valid D f' -> pair_amp D C h v f f' <> RtoC 0 -> readout [a] f' = readout [a] f).
  { intros C0 f0 f' V0 V' Hn. cbn. f_equal. symmetry. apply (pair_amp_elsewhere D C0 h v f0 f' Hn a); assumption. }
  assert (EA : A (noted [k] (readout [a] f) r) = mat2_tr (B (INR (nth a f 0)))).
  { rewrite HA by now rewrite noted_length. do 2 f_equal. rewrite noted_nth by lia. cbn. now rewrite Nat.eqb_refl. }
  rewrite EA. destruct (leqb (readout [a] f) (readout [a] g)) eqn:E.
  - apply leqb_spec in E. assert (E' : nth a f 0 = nth a g 0) by (cbn in E; congruence). apply Csum_ext. intros f' Hf'. apply Csum_ext. intros g' Hg'. apply basis_in in Hf', Hg'. rewrite !ET by assumption. rewrite <- E'.
    set (C0 := mat2_tr (B (INR (nth a f 0)))).
    destruct (C_eq_dec (pair_amp D C0 h v f f') (RtoC 0)) as [Z|Z]; [rewrite Z; ring|]. destruct (C_eq_dec (pair_amp D C0 h v g g') (RtoC 0)) as [Z'|Z']; [rewrite Z', Cconj_RtoC; ring|].
    rewrite (Hro C0 f f' Vf Hf' Z), (Hro C0 g g' Vg Hg' Z'), E, leqb_refl. reflexivity.
  - symmetry. apply Csum_zero. intros f' Hf'. apply Csum_zero. intros g' Hg'. apply basis_in in Hf', Hg'. rewrite !ET by assumption.
    set (C0 := mat2_tr (B (INR (nth a f 0)))). set (C1 := mat2_tr (B (INR (nth a g 0)))).
    destruct (C_eq_dec (pair_amp D C0 h v f f') (RtoC 0)) as [Z|Z]; [rewrite Z; ring|]. destruct (C_eq_dec (pair_amp D C1 h v g g') (RtoC 0)) as [Z'|Z']; [rewrite Z', Cconj_RtoC; ring|].
    rewrite (Hro C0 f f' Vf Hf' Z), (Hro C1 g g' Vg Hg' Z'), E. ring.
Qed.
Print Assumptions C67_deferred.
