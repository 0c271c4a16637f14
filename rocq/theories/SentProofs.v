(** Photons with time delays behind optical elements. *)
From Coq Require Import Reals List Arith Lia Lra Bool Permutation Sorted.
From Coquelicot Require Import Complex.
From Verif Require Import Prelude NamesModel NamesSpec NamesProofs FockModel FockSpec BosonProofs FockProofs GateProofs PropFock StateModel StateSpec StateProofs ApplyProofs
  CollectionModel EvalModel EvalSpec EvalProofs MeasureSpec MeasureProofs PropState PropMeasure PropEval PropCollection PropBridge PropPRMeasure PropPROptics OperatorModel ColumnModel ColumnSpec ColumnProofs PropColumn
  GroupProofs TemporalSpec TemporalProofs ResolvedProofs PropTemporal InterferenceSpec ArrangementProofs InterferenceProofs MeasuredProofs PropInterference ExperimentSpec ExperimentProofs PermanentProofs PropPermanent.
Import ListNotations.

(** A tuple with one photon. *)
Lemma one_photon_tuple vs : NamesSpec.photons vs = 1 -> exists c, c < length vs /\ vs = one_photon (length vs) c.
Proof.
  intro H. pose proof (channels_length vs) as L. rewrite H in L. destruct (channels_of vs) as [|c [|]] eqn:E; try discriminate. exists c.
  split; [apply channels_bound; rewrite E; now left|]. rewrite one_unit, <- E, <- channels_of_spec. symmetry. now apply occupation_channels.
Qed.

Section Optics.
Variables (D : dims) (eps : R) (es : list optic) (nds : list onode).
Hypothesis (HL : 2 <= dL D) (He : (0 < eps)%R) (Hne : es <> []) (Hes : Forall (optic_ok D) es) (Hpl : place D (optic_gates es) = Some nds).
Let U := transfer (dN D) es.
Hypothesis (Hthr : forall c k, c < dN D -> k < dN D -> U c k = RtoC 0 \/ (eps <= Cnorm2 (U c k))%R).

Lemma optics_two : 2 <= dN D.
Proof. destruct Hes as [|e l (_ & H1 & H2 & H3 & _) _]; [congruence|lia]. Qed.
Lemma optics_matrix : circuit_matrix D (optic_gates es) = Some (nodes_matrix D nds).
Proof.
  apply nodes_matrix_circuit'; [lia|exact Hpl|]. intro E. subst nds. destruct es as [|e l]; [congruence|]. cbn [optic_gates map place] in Hpl.
  destruct (tensor_list_of _ _); [|discriminate]. destruct (place D _); discriminate.
Qed.
Lemma optics_M_unitary : unitary_mat (size_of_basis D) (nodes_matrix D nds).
Proof.
  apply (circuit_unitary D (optic_gates es)); [lia|apply optics_two| |apply optics_matrix]. unfold optic_gates. apply Forall_map. revert Hes. apply Forall_impl. intros e H. exact (proj1 H).
Qed.

Section One.
Variables (x : state) (vs : values) (a : C) (p : R).
Hypothesis (Hv : valid D vs) (Hx : s_comps x = [(name_string D vs, (a, p))]) (Ha : Cnorm2 a = 1%R).
Let y := mat_vec (size_of_basis D) (nodes_matrix D nds) (state_vector D x).
Let x' := optical_step D eps nds x.

Lemma one_wf : wf_state D x.
Proof. split; rewrite Hx; cbn [map fst]; [constructor; [intros []|constructor]|]. intros nm [<-|[]]. now exists vs. Qed.
Lemma one_vector i : i < size_of_basis D -> state_vector D x i = if i =? index_of_values D vs then a else RtoC 0.
Proof.
  intro Hi. rewrite state_vector_spec by (try apply one_wf; try exact Hi; lia). unfold amplitude. rewrite Hx. cbn [dget].
  destruct (Nat.eqb_spec i (index_of_values D vs)) as [->|Hn].
  - unfold at_index. rewrite values_index_roundtrip by (try exact Hv; lia). now rewrite (proj2 (leqb_spec _ _) eq_refl).
  - destruct (leqb (at_index D i) (name_string D vs)) eqn:E; [|reflexivity]. exfalso. apply Hn. apply leqb_spec in E. unfold at_index in E.
    apply (name_inj D) in E; [|apply values_from_index_valid; lia|exact Hv]. rewrite <- E. symmetry. apply index_values_roundtrip; [lia|exact Hi].
Qed.
Lemma one_image i : i < size_of_basis D -> y i = (nodes_matrix D nds i (index_of_values D vs) * a)%C.
Proof.
  intro Hi. unfold y, mat_vec. rewrite (Csum_single _ (index_of_values D vs)).
  - rewrite one_vector by (now apply index_of_values_bound). now rewrite Nat.eqb_refl.
  - apply seq_NoDup.
  - apply in_seq. pose proof (index_of_values_bound D vs Hv). lia.
  - intros j Hj Hn. apply in_seq in Hj. rewrite one_vector by lia. rewrite (proj2 (Nat.eqb_neq _ _) Hn). ring.
Qed.
Lemma image_norm : norm2 (size_of_basis D) y = 1%R.
Proof.
  unfold y. rewrite unitary_norm2 by apply optics_M_unitary. rewrite <- state_norm2_vector by (try apply one_wf; lia). unfold state_norm2. rewrite Hx. unfold Rsum. cbn. lra.
Qed.
Lemma image_small i : i < size_of_basis D -> (Cnorm2 (y i) <= 1)%R.
Proof.
  intro Hi. rewrite <- image_norm. unfold norm2. apply (Rsum_le_term (seq 0 (size_of_basis D)) (fun i => Cnorm2 (y i)) i); [intros; apply Cnorm2_nonneg|apply in_seq; lia].
Qed.
(** Nothing is dropped by the threshold. *)
Hypothesis (Hy : forall i, i < size_of_basis D -> y i = RtoC 0 \/ (eps <= Cnorm2 (y i))%R).
Lemma kept_amplitude us : valid D us -> amplitude x' (name_string D us) = y (index_of_values D us).
Proof.
  intro Hu. replace (name_string D us) with (at_index D (index_of_values D us)) by (unfold at_index; now rewrite values_index_roundtrip by (try exact Hu; lia)).
  unfold x', optical_step. rewrite components_amplitude by (try lia; now apply index_of_values_bound). fold y. destruct (Rlt_dec _ _) as [Hlt|]; [|reflexivity].
  destruct (Hy (index_of_values D us) (index_of_values_bound D us Hu)) as [->|H]; [reflexivity|exfalso; lra].
Qed.
Lemma kept_norm : state_norm2 x' = 1%R.
Proof.
  rewrite (state_norm2_vector D) by (try (apply components_wf); lia). rewrite <- image_norm. unfold norm2. apply Rsum_ext. intros i Hi. apply in_seq in Hi. f_equal.
  rewrite state_vector_spec by (try (apply components_wf); lia). unfold at_index. rewrite kept_amplitude by (apply values_from_index_valid; lia). f_equal. apply index_values_roundtrip; lia.
Qed.
Lemma kept_in nm b q : In (nm, (b, q)) (s_comps x') -> exists us, valid D us /\ nm = name_string D us /\ b = y (index_of_values D us) /\ b <> RtoC 0 /\ q = Cnorm2 b.
Proof.
  intro H. apply (from_vec_in D eps y (seq 0 (size_of_basis D))) in H. destruct H as (i & Hi & En & Eb & Eq & Hge). apply in_seq in Hi. exists (values_from_index D i).
  split; [apply values_from_index_valid; lia|]. split; [exact En|]. split; [rewrite index_values_roundtrip by lia; exact Eb|]. split; [|exact Eq]. intro Z. rewrite Z, Cnorm2_zero in Hge. lra.
Qed.
Lemma kept_check ncl : check_state eps ncl x = true -> check_state eps ncl x' = true.
Proof.
  intro Hck. unfold check_state in *. apply andb_true_iff in Hck. destruct Hck as [Hck H4]. apply andb_true_iff in Hck. destruct Hck as [H12 _].
  change (s_cum x') with (s_cum x). change (s_classical x') with (s_classical x). rewrite H12, H4, andb_true_r, andb_true_l. apply forallb_forall. intros [nm [b q]] Hin.
  destruct (kept_in nm b q Hin) as (us & Vu & _ & Eb & _ & ->). cbn [snd].
  assert (Hb : (Cnorm2 b <= 1)%R) by (rewrite Eb; apply image_small; now apply index_of_values_bound).
  pose proof (Cnorm2_nonneg b). unfold Rltb. destruct (Rlt_dec (Cnorm2 b) (-1 * eps)); [exfalso; lra|]. destruct (Rlt_dec (1 + eps) (Cnorm2 b)); [exfalso; lra|]. reflexivity.
Qed.
Lemma kept_some : s_comps x' <> [].
Proof. intro E. pose proof kept_norm as H. unfold state_norm2 in H. rewrite E in H. unfold Rsum in H. cbn in H. lra. Qed.
End One.

Lemma transfer_column k : k < dN D -> Rsum (seq 0 (dN D)) (fun c => Cnorm2 (U c k)) = 1%R.
Proof.
  intro Hk. destruct (optics_transfer_unitary D es Hes k k Hk Hk) as [_ H]. rewrite Nat.eqb_refl in H. apply RtoC_inj. rewrite <- H, <- Csum_RtoC. apply Csum_ext. intros c _. symmetry. apply Cconj_mult_norm2.
Qed.
Lemma threshold_one : (eps <= 1)%R.
Proof.
  pose proof optics_two as HN. pose proof (transfer_column 0 ltac:(lia)) as H.
  destruct (Rle_dec eps 1) as [|Hn]; [assumption|]. exfalso. assert (Z : Rsum (seq 0 (dN D)) (fun c => Cnorm2 (U c 0)) = 0%R); [|lra].
  apply Rsum_zero. intros c Hc. apply in_seq in Hc. destruct (Hthr c 0 ltac:(lia) ltac:(lia)) as [->|Hge]; [apply Cnorm2_zero|]. exfalso.
  assert (Hle : (Cnorm2 (U c 0%nat) <= 1)%R) by (rewrite <- H; apply (Rsum_le_term (seq 0 (dN D)) (fun c => Cnorm2 (U c 0%nat)) c); [intros; apply Cnorm2_nonneg|apply in_seq; lia]). lra.
Qed.
Lemma photon_image k us : k < dN D -> valid D us ->
  (exists c, c < dN D /\ us = one_photon (dN D) c /\ nodes_matrix D nds (index_of_values D us) (index_of_values D (one_photon (dN D) k)) = U c k) \/
  ((forall c, c < dN D -> us <> one_photon (dN D) c) /\ nodes_matrix D nds (index_of_values D us) (index_of_values D (one_photon (dN D) k)) = RtoC 0).
Proof.
  intros Hk Hu. destruct (one_facts (dN D) k Hk) as [L1 [P1 _]]. destruct (Nat.eq_dec (NamesSpec.photons us) 1) as [E|E].
  - left. destruct (one_photon_tuple us E) as [c [Hc Ec]]. rewrite (proj1 Hu) in Hc, Ec. exists c. split; [exact Hc|]. split; [exact Ec|]. rewrite Ec. apply (C48_one_photon D es); [exact HL|exact Hes|apply optics_matrix|exact Hc|exact Hk].
  - right. split; [intros c Hc ->; apply E; now destruct (one_facts (dN D) c Hc) as [_ [P _]]|].
    apply (circuit_conserves D (optic_gates es)); [lia|apply optics_two|apply optics_matrix|exact Hu|apply valid_bound; [exact L1|lia]|]. rewrite P1. exact E.
Qed.
Lemma vacuum_image us : valid D us -> nodes_matrix D nds (index_of_values D us) (index_of_values D (repeat 0 (dN D))) = if leqb us (repeat 0 (dN D)) then RtoC 1 else RtoC 0.
Proof.
  intro Hu. assert (P0 : NamesSpec.photons (repeat 0 (dN D)) = 0) by (apply photons_zeros; now rewrite repeat_length). destruct (leqb us (repeat 0 (dN D))) eqn:E.
  - apply leqb_spec in E. subst us. rewrite (C48_permanent D es _ _ _ ltac:(lia) Hes optics_matrix) by (rewrite ?repeat_length, ?P0; try reflexivity; lia).
    unfold permanent. rewrite P0, factorials_zero. cbn [seq permutations]. rewrite Csum_cons, Csum_nil. cbn [combine Cprod fold_right INR]. rewrite sqrt_1, Rmult_1_l. field. intro X. apply RtoC_inj in X. lra.
  - apply (circuit_conserves D (optic_gates es)); [lia|apply optics_two|apply optics_matrix|exact Hu|apply valid_bound; [apply repeat_length|rewrite P0; lia]|]. rewrite P0. intro Z. apply photons_zeros in Z. rewrite (proj1 Hu) in Z. rewrite Z, (proj2 (leqb_spec _ _) eq_refl) in E. discriminate.
Qed.
Lemma weighted_amplitude st nm : NoDup (map fst (s_comps st)) -> 2 <= length (s_comps st) ->
  Csum (weighted_components st) (fun x => if leqb (fst x) nm then snd x else RtoC 0) = amplitude st nm.
Proof.
  intros ND Hl. unfold weighted_components, amplitude. destruct (s_comps st) as [|[n1 q1] [|c2 cs]]; try (cbn in Hl; lia). remember ((n1, q1) :: c2 :: cs) as l eqn:E. clear E Hl c2 cs n1 q1.
  induction l as [|[n [b q]] l IH]; [reflexivity|]. cbn [map fst snd]. rewrite Csum_cons. cbn [fst snd dget]. inversion ND as [|? ? Hn ND']; subst. cbn [fst] in Hn.
  destruct (leqb n nm) eqn:E.
  - apply leqb_spec in E. subst. rewrite (proj2 (leqb_spec _ _) eq_refl). cbn [fst]. rewrite Csum_map. rewrite Csum_zero; [ring|]. intros [n' q'] Hin. cbn [fst snd]. destruct (leqb n' nm) eqn:E; [|reflexivity].
    apply leqb_spec in E. subst. exfalso. apply Hn. exact (in_map fst _ _ Hin).
  - replace (leqb nm n) with false. 2:{ symmetry. destruct (leqb nm n) eqn:E'; [|reflexivity]. apply leqb_spec in E'. subst. now rewrite (proj2 (leqb_spec _ _) eq_refl) in E. }
    rewrite <- IH by exact ND'. ring.
Qed.

(** One photon behind the elements. *)
Lemma photon_sent x k a p ncl : k < dN D -> s_comps x = [(name_string D (one_photon (dN D) k), (a, p))] -> Cnorm2 a = 1%R -> check_state eps ncl x = true ->
  let x' := optical_step D eps nds x in
  lit D x' /\ check_state eps ncl x' = true /\ probs_ok x' /\
  ((exists c0, c0 < dN D /\ (forall c, c < dN D -> wave D x' c = if c =? c0 then RtoC 1 else RtoC 0) /\ (forall c, c < dN D -> c <> c0 -> U c k = RtoC 0)) \/
   ((forall c, c < dN D -> wave D x' c = (a * U c k)%C) /\ exists c1 c2, c1 < dN D /\ c2 < dN D /\ c1 <> c2 /\ U c1 k <> RtoC 0 /\ U c2 k <> RtoC 0)).
Proof.
  intros Hk Hx Ha Hck x'. set (y := mat_vec (size_of_basis D) (nodes_matrix D nds) (state_vector D x)). destruct (one_facts (dN D) k Hk) as [L1 [P1 _]].
  assert (Vk : forall c, c < dN D -> valid D (one_photon (dN D) c)) by (intros c Hc; destruct (one_facts (dN D) c Hc) as [L [P _]]; apply valid_bound; [exact L|lia]).
  assert (Y1 : forall c, c < dN D -> y (index_of_values D (one_photon (dN D) c)) = (a * U c k)%C).
  { intros c Hc. unfold y. rewrite (one_image x (one_photon (dN D) k) a p (Vk k Hk) Hx) by (apply index_of_values_bound; now apply Vk).
    rewrite (C48_one_photon D es) by (try assumption; apply optics_matrix). unfold U. ring. }
  assert (Y0 : forall us, valid D us -> (forall c, c < dN D -> us <> one_photon (dN D) c) -> y (index_of_values D us) = RtoC 0).
  { intros us Hu Hn. unfold y. rewrite (one_image x (one_photon (dN D) k) a p (Vk k Hk) Hx) by (now apply index_of_values_bound).
    destruct (photon_image k us Hk Hu) as [[c [Hc [E _]]]|[_ E]]; [exfalso; exact (Hn c Hc E)|]. rewrite E. ring. }
  assert (Hy : forall i, i < size_of_basis D -> y i = RtoC 0 \/ (eps <= Cnorm2 (y i))%R).
  { intros i Hi. pose proof (values_from_index_valid D i ltac:(lia)) as Vi. pose proof (index_values_roundtrip D i ltac:(lia) Hi) as Ei.
    destruct (photon_image k _ Hk Vi) as [[c [Hc [E _]]]|[Hn _]].
    - rewrite <- Ei, E, Y1 by exact Hc. rewrite Cnorm2_mult, Ha, Rmult_1_l. destruct (Hthr c k Hc Hk) as [->|]; [left; ring|now right].
    - left. rewrite <- Ei. now apply Y0. }
  assert (Hamp : forall c, c < dN D -> amplitude x' (name_string D (one_photon (dN D) c)) = (a * U c k)%C).
  { intros c Hc. unfold x'. rewrite (kept_amplitude x Hy _ (Vk c Hc)). now apply Y1. }
  assert (Hnames : forall nm, In nm (map fst (s_comps x')) -> exists c, c < dN D /\ nm = name_string D (one_photon (dN D) c) /\ U c k <> RtoC 0).
  { intros nm Hin. apply in_map_iff in Hin. destruct Hin as ([n [b q]] & En & Hin). cbn [fst] in En. subst n. destruct (kept_in x nm b q Hin) as (us & Vu & En & Eb & Hb & _).
    destruct (photon_image k us Hk Vu) as [[c [Hc [E _]]]|[Hn _]].
    - exists c. split; [exact Hc|]. split; [now rewrite En, E|]. intro Z. apply Hb. rewrite Eb, E. fold y. rewrite Y1 by exact Hc. rewrite Z. ring.
    - exfalso. apply Hb. rewrite Eb. fold y. now apply Y0. }
  assert (Hwf : wf_state D x') by (apply components_wf; lia). destruct Hwf as [ND _].
  assert (Hn1 : state_norm2 x' = 1%R) by exact (kept_norm x _ a p (Vk k Hk) Hx Ha Hy).
  assert (Ha0 : a <> RtoC 0) by (intros ->; rewrite Cnorm2_zero in Ha; lra).
  split.
  { split; [exact (kept_some x _ a p (Vk k Hk) Hx Ha Hy)|]. split; [exact ND|]. split.
    - intros nm Hin. destruct (Hnames nm Hin) as [c [Hc [E _]]]. now exists c.
    - intros _. split; [|exact Hn1]. apply Forall_forall. intros [nm [b q]] Hin. destruct (kept_in x nm b q Hin) as (us & _ & _ & _ & Hb & _). exact Hb. }
  split; [exact (kept_check x _ a p (Vk k Hk) Hx Ha ncl Hck)|]. split; [apply components_probs|].
  destruct (s_comps x') as [|[n1 [b1 q1]] [|[n2 [b2 q2]] l]] eqn:Ec.
  - exfalso. unfold state_norm2 in Hn1. rewrite Ec in Hn1. unfold Rsum in Hn1. cbn in Hn1. lra.
  - left. destruct (Hnames n1) as [c0 [Hc0 [E0 _]]]; [now left|]. exists c0. split; [exact Hc0|]. split.
    + intros c Hc. unfold wave, weighted_components. rewrite Ec, Csum_cons, Csum_nil. cbn [fst snd]. rewrite E0. destruct (Nat.eqb_spec c c0) as [->|Hn]; [rewrite (proj2 (leqb_spec _ _) eq_refl); ring|].
      destruct (leqb _ _) eqn:E; [|ring]. exfalso. apply leqb_spec in E. apply (name_inj D) in E; [|now apply Vk|now apply Vk]. apply Hn.
      apply (f_equal channels_of) in E. rewrite !one_channels in E by assumption. congruence.
    + intros c Hc Hn. specialize (Hamp c Hc). unfold amplitude in Hamp. rewrite Ec in Hamp. cbn [dget] in Hamp.
      destruct (leqb (name_string D (one_photon (dN D) c)) n1) eqn:E.
      * exfalso. apply leqb_spec in E. rewrite E0 in E. apply (name_inj D) in E; [|now apply Vk|now apply Vk]. apply Hn. apply (f_equal channels_of) in E. rewrite !one_channels in E by assumption. congruence.
      * destruct (Ceq_dec (U c k) (RtoC 0)) as [|Hz]; [assumption|]. exfalso. exact (Cmult_neq_0 _ _ Ha0 Hz (eq_sym Hamp)).
  - right. split.
    + intros c Hc. unfold wave. rewrite weighted_amplitude by (rewrite ?Ec; first [exact ND|cbn [length]; lia]). now apply Hamp.
    + destruct (Hnames n1) as [c1 [H1 [E1 Z1]]]; [now left|]. destruct (Hnames n2) as [c2 [H2 [E2 Z2]]]; [right; now left|]. exists c1, c2. repeat (split; [assumption|]). split; [|split; assumption].
      intros ->. inversion ND as [|? ? Hn _]; subst. apply Hn. left. reflexivity.
Qed.
(** The vacuum behind the elements. *)
Lemma vacuum_sent x a p ncl : s_comps x = [(name_string D (repeat 0 (dN D)), (a, p))] -> Cnorm2 a = 1%R -> check_state eps ncl x = true ->
  let x' := optical_step D eps nds x in dark D x' /\ check_state eps ncl x' = true /\ probs_ok x'.
Proof.
  intros Hx Ha Hck x'. set (y := mat_vec (size_of_basis D) (nodes_matrix D nds) (state_vector D x)).
  assert (V0 : valid D (repeat 0 (dN D))) by (apply valid_bound; [apply repeat_length|]; rewrite (proj2 (photons_zeros _)) by (now rewrite repeat_length); lia).
  assert (Y : forall us, valid D us -> y (index_of_values D us) = if leqb us (repeat 0 (dN D)) then a else RtoC 0).
  { intros us Hu. unfold y. rewrite (one_image x _ a p V0 Hx) by (now apply index_of_values_bound). rewrite vacuum_image by exact Hu. destruct (leqb _ _); ring. }
  assert (Hy : forall i, i < size_of_basis D -> y i = RtoC 0 \/ (eps <= Cnorm2 (y i))%R).
  { intros i Hi. pose proof (values_from_index_valid D i ltac:(lia)) as Vi. rewrite <- (index_values_roundtrip D i ltac:(lia) Hi), Y by exact Vi. destruct (leqb _ _); [right; rewrite Ha; apply threshold_one|now left]. }
  split; [|split; [exact (kept_check x _ a p V0 Hx Ha ncl Hck)|apply components_probs]].
  assert (Hn : forall nm, In nm (map fst (s_comps x')) -> nm = name_string D (repeat 0 (dN D))).
  { intros nm Hin. apply in_map_iff in Hin. destruct Hin as ([n [b q]] & En & Hin). cbn [fst] in En. subst n. destruct (kept_in x nm b q Hin) as (us & Vu & En & Eb & Hb & _). fold y in Eb. rewrite Y in Eb by exact Vu.
    destruct (leqb us (repeat 0 (dN D))) eqn:E; [apply leqb_spec in E; now rewrite En, E|congruence]. }
  pose proof (kept_some x _ a p V0 Hx Ha Hy) as Hs. fold x' in Hs. assert (Hwf : wf_state D x') by (apply components_wf; lia). destruct Hwf as [ND _].
  unfold dark. destruct (s_comps x') as [|[n1 q1] [|[n2 q2] l]] eqn:Ec; [congruence| |].
  - exists q1. rewrite (Hn n1) by now left. reflexivity.
  - exfalso. cbn [map fst] in ND. inversion ND as [|? ? Hni _]; subst. apply Hni. left. rewrite (Hn n1), (Hn n2); [reflexivity|right; now left|now left].
Qed.
End Optics.

(** ** Phases of the channels do not matter *)
Definition rephased (n : nat) (ph : nat -> C) (b b' : branch) : Prop :=
  br_amplitude b' = br_amplitude b /\ br_boson b' = br_boson b /\
  Forall2 (fun p p' => ph_timing p' = ph_timing p /\ forall c, c < n -> ph_wave p' c = (ph c * ph_wave p c)%C) (br_photons b) (br_photons b').
Lemma rephased_nth n ph b b' j : rephased n ph b b' ->
  ph_timing (nth_photon b' j) = ph_timing (nth_photon b j) /\ forall c, c < n -> ph_wave (nth_photon b' j) c = (ph c * ph_wave (nth_photon b j) c)%C.
Proof.
  intros (_ & _ & H). unfold nth_photon. revert j. induction H as [|p p' l l' Hp _ IH]; intro j.
  - destruct j; (split; [reflexivity|]); intros c _; cbn; ring.
  - destruct j as [|j]; cbn [nth]; [exact Hp|apply IH].
Qed.
Lemma rephased_length n ph b b' : rephased n ph b b' -> length (br_photons b') = length (br_photons b).
Proof. intros (_ & _ & H). symmetry. exact (forall2_len _ _ _ H). Qed.
Lemma rephased_path n ph b b' cs s : rephased n ph b b' -> Forall (fun c => c < n) cs -> length s = length cs ->
  path b' cs s = (Cprod cs ph * path b cs s)%C.
Proof.
  intros H Hc Hl. pose proof (rephased_nth n ph b b') as Hn. destruct H as (Ea & Eb & Hp). unfold path. rewrite Ea, Eb.
  assert (G : Cprod (combine s cs) (fun x => ph_wave (nth_photon b' (fst x)) (snd x)) = (Cprod cs ph * Cprod (combine s cs) (fun x => ph_wave (nth_photon b (fst x)) (snd x)))%C).
  { assert (H : rephased n ph b b') by now split. clear Hp Ea Eb. revert s Hl. induction Hc as [|c cs Hc _ IH]; intros [|j s] Hl; try discriminate; cbn [combine]; [cbn; apply C_eq; cbn; ring|].
    rewrite !Cprod_cons, IH by (cbn in Hl; lia). cbn [fst snd]. rewrite (proj2 (Hn j H) c Hc). ring. }
  rewrite G. ring.
Qed.
Lemma Csum_forall2 {A B} (Q : A -> B -> Prop) l l' f g : Forall2 Q l l' -> (forall x y, Q x y -> f x = g y) -> Csum l f = Csum l' g.
Proof. intros H E. induction H as [|x y l l' Hx _ IH]; [reflexivity|]. rewrite !Csum_cons, IH. f_equal. now apply E. Qed.
Lemma forall2_filter {A B} (Q : A -> B -> Prop) p q l l' : Forall2 Q l l' -> (forall x y, Q x y -> p x = q y) -> Forall2 (fun x y => Q x y /\ p x = true) (filter p l) (filter q l').
Proof. intros H E. induction H as [|x y l l' Hx _ IH]; [constructor|]. cbn [filter]. rewrite <- (E x y Hx). destruct (p x) eqn:Ep; [constructor; [now split|exact IH]|exact IH]. Qed.
Lemma Cprod_unit {A} (l : list A) f : (forall x, In x l -> Cnorm2 (f x) = 1%R) -> Cnorm2 (Cprod l f) = 1%R.
Proof.
  induction l as [|x l IH]; intro H; [cbn; unfold Cnorm2; cbn; ring|]. rewrite Cprod_cons, Cnorm2_mult, IH, H; [ring|now left|]. intros y Hy. apply H. now right.
Qed.
Lemma rephased_indistinct n ph b1 b1' b2 b2' s t : rephased n ph b1 b1' -> rephased n ph b2 b2' -> indistinct b1' b2' s t = indistinct b1 b2 s t.
Proof. intros H1 H2. unfold indistinct. apply Rprod_ext. intros x _. now rewrite (proj1 (rephased_nth n ph _ _ (fst x) H1)), (proj1 (rephased_nth n ph _ _ (snd x) H2)). Qed.
Lemma rephased_detection n ph bs bs' f : (forall c, c < n -> Cnorm2 (ph c) = 1%R) -> Forall2 (rephased n ph) bs bs' -> length f = n ->
  detection bs' f = detection bs f.
Proof.
  intros Hph H Hf. unfold detection. f_equal. f_equal. unfold interference.
  assert (HF : Forall2 (fun b b' => rephased n ph b b' /\ (length (br_photons b) =? NamesSpec.photons f) = true) (fitting bs f) (fitting bs' f)).
  { unfold fitting. apply forall2_filter; [exact H|]. intros b b' Hb. now rewrite (rephased_length _ _ _ _ Hb). }
  assert (Hc : Forall (fun c => c < n) (channels_of f)) by (apply Forall_forall; intros c Hc; rewrite <- Hf; now apply channels_bound).
  assert (HU : (Cprod (channels_of f) ph * Cconj (Cprod (channels_of f) ph))%C = RtoC 1).
  { rewrite Cmult_comm, Cconj_mult_norm2, Cprod_unit; [reflexivity|]. intros c Hin. apply Hph. exact (proj1 (Forall_forall _ _) Hc c Hin). }
  symmetry. apply (Csum_forall2 _ _ _ _ _ HF). intros b1 b1' [H1 _]. apply (Csum_forall2 _ _ _ _ _ HF). intros b2 b2' [H2 _].
  apply Csum_ext. intros s Hs. apply Csum_ext. intros t Ht.
  rewrite (rephased_path n ph b1 b1'), (rephased_path n ph b2 b2'), (rephased_indistinct n ph b1 b1' b2 b2'), Cconj_mult; try assumption;
    try (rewrite (orders_length _ _ Hs), channels_length; reflexivity); try (rewrite (orders_length _ _ Ht), channels_length; reflexivity).
  transitivity ((Cprod (channels_of f) ph * Cconj (Cprod (channels_of f) ph)) * (path b1 (channels_of f) s * Cconj (path b2 (channels_of f) t) * RtoC (indistinct b1 b2 s t)))%C; [rewrite HU; ring|ring].
Qed.
Lemma detection_perm bs bs' f : Permutation bs bs' -> detection bs f = detection bs' f.
Proof.
  intro H. unfold detection. f_equal. f_equal. unfold interference.
  assert (HF : Permutation (fitting bs f) (fitting bs' f)) by (unfold fitting; clear -H; induction H as [|x l l' _ IH|x y l|l l' l'' _ IH1 _ IH2]; cbn [filter]; [constructor|destruct (_ =? _); [now constructor|exact IH]|destruct (length (br_photons x) =? _), (length (br_photons y) =? _); try reflexivity; constructor|now transitivity (filter (fun b => length (br_photons b) =? NamesSpec.photons f) l')]).
  rewrite (Csum_perm _ _ _ HF). apply Csum_ext. intros b _. apply (Csum_perm _ _ _ HF).
Qed.

(** ** The phase of a row of one-photon amplitudes *)
Definition row_phase (n : nat) (U : nat -> nat -> C) (a : C) (c : nat) : C :=
  match List.find (fun k => if Req_EM_T (Cnorm2 (U c k)) 1 then true else false) (seq 0 n) with Some k => Cconj (U c k) | None => a end.
Lemma row_phase_unit n U a c : Cnorm2 a = 1%R -> Cnorm2 (row_phase n U a c) = 1%R.
Proof.
  intro Ha. unfold row_phase. destruct (List.find _ _) as [k|] eqn:E; [|exact Ha]. apply List.find_some in E. destruct E as [_ E]. destruct (Req_EM_T _ _) as [Hu|]; [|discriminate]. now rewrite Cnorm2_conj.
Qed.
Lemma unit_alone n (f : nat -> R) k j : (forall i, i < n -> (0 <= f i)%R) -> Rsum (seq 0 n) f = 1%R -> k < n -> j < n -> j <> k -> f k = 1%R -> f j = 0%R.
Proof.
  intros Hp Hs Hk Hj Hn E. assert (H2 : (f k + f j <= Rsum (seq 0 n) f)%R); [|specialize (Hp j Hj); lra].
  clear Hs E. assert (ND : NoDup (seq 0 n)) by apply seq_NoDup. assert (Ik : In k (seq 0 n)) by (apply in_seq; lia). assert (Ij : In j (seq 0 n)) by (apply in_seq; lia).
  assert (Hp' : forall i, In i (seq 0 n) -> (0 <= f i)%R) by (intros i Hi; apply in_seq in Hi; apply Hp; lia). clear Hp Hk Hj.
  induction (seq 0 n) as [|x l IH]; [destruct Ik|]. rewrite Rsum_cons. inversion ND as [|? ? Hx ND']; subst.
  assert (Hpl : forall i, In i l -> (0 <= f i)%R) by (intros i Hi; apply Hp'; now right).
  destruct Ik as [->|Ik], Ij as [->|Ij].
  - congruence.
  - pose proof (Rsum_le_term l f j Hpl Ij). lra.
  - pose proof (Rsum_le_term l f k Hpl Ik). lra.
  - pose proof (IH ND' Ik Ij Hpl). pose proof (Hp' x (or_introl eq_refl)). lra.
Qed.
Lemma norm_rows d M : unitary_mat d M -> forall c, c < d -> Rsum (seq 0 d) (fun k => Cnorm2 (M c k)) = 1%R.
Proof.
  intros H c Hc. destruct (H c c Hc Hc) as [E _]. rewrite Nat.eqb_refl in E. apply RtoC_inj. rewrite <- E, <- Csum_RtoC. apply Csum_ext. intros k _. rewrite Cmult_comm. symmetry. apply Cconj_mult_norm2.
Qed.
Lemma norm_columns d M : unitary_mat d M -> forall k, k < d -> Rsum (seq 0 d) (fun c => Cnorm2 (M c k)) = 1%R.
Proof.
  intros H c Hc. destruct (H c c Hc Hc) as [_ E]. rewrite Nat.eqb_refl in E. apply RtoC_inj. rewrite <- E, <- Csum_RtoC. apply Csum_ext. intros k _. symmetry. apply Cconj_mult_norm2.
Qed.
(** One photon sent from channel [k]: the wave behind the elements, up to the phases. *)
Lemma photon_phase n U a k (W : nat -> C) : unitary_mat n U -> k < n ->
  ((exists c0, c0 < n /\ (forall c, c < n -> W c = if c =? c0 then RtoC 1 else RtoC 0) /\ (forall c, c < n -> c <> c0 -> U c k = RtoC 0)) \/
   ((forall c, c < n -> W c = (a * U c k)%C) /\ exists c1 c2, c1 < n /\ c2 < n /\ c1 <> c2 /\ U c1 k <> RtoC 0 /\ U c2 k <> RtoC 0)) ->
  forall c, c < n -> W c = (row_phase n U a c * U c k)%C.
Proof.
  intros HU Hk H c Hc. unfold row_phase.
  destruct (List.find _ (seq 0 n)) as [k'|] eqn:E.
  - apply List.find_some in E. destruct E as [Hk' E]. apply in_seq in Hk'. destruct (Req_EM_T _ _) as [Hu|]; [|discriminate]. clear E.
    destruct (Nat.eq_dec k k') as [->|Hn].
    + rewrite Cconj_mult_norm2, Hu. destruct H as [(c0 & Hc0 & HW & Hz)|(_ & c1 & c2 & H1 & H2 & H12 & Z1 & Z2)].
      * rewrite HW by exact Hc. destruct (Nat.eqb_spec c c0) as [->|Hne]; [reflexivity|]. exfalso. rewrite (Hz c Hc Hne), Cnorm2_zero in Hu. lra.
      * exfalso. assert (G : forall j, j < n -> j <> c -> U j k' = RtoC 0).
        { intros j Hj Hjc. apply Cnorm2_eq0. apply (unit_alone n (fun c => Cnorm2 (U c k')) c j); try assumption; [intros; apply Cnorm2_nonneg|now apply norm_columns]. }
        destruct (Nat.eq_dec c1 c) as [->|]; [|now apply Z1, G]. apply Z2, G; [exact H2|congruence].
    + assert (Z : U c k = RtoC 0).
      { apply Cnorm2_eq0. apply (unit_alone n (fun j => Cnorm2 (U c j)) k' k); try assumption; [intros; apply Cnorm2_nonneg|now apply norm_rows|lia]. }
      rewrite Z. destruct H as [(c0 & Hc0 & HW & Hz)|(HW & _)]; [|rewrite HW, Z by exact Hc; ring].
      rewrite HW by exact Hc. destruct (Nat.eqb_spec c c0) as [->|]; [|ring]. exfalso.
      assert (Hs : Rsum (seq 0 n) (fun c => Cnorm2 (U c k)) = 0%R); [|rewrite (norm_columns n U HU k Hk) in Hs; lra].
      apply Rsum_zero. intros j Hj. apply in_seq in Hj. destruct (Nat.eq_dec j c0) as [->|Hj0]; [rewrite Z|rewrite Hz by (try exact Hj0; lia)]; apply Cnorm2_zero.
  - destruct H as [(c0 & Hc0 & HW & Hz)|(HW & _)]; [|now apply HW]. rewrite HW by exact Hc. destruct (Nat.eqb_spec c c0) as [->|Hn]; [|rewrite Hz by assumption; ring]. exfalso.
    assert (Hu : Cnorm2 (U c0 k) = 1%R).
    { rewrite <- (norm_columns n U HU k Hk). symmetry. apply (Rsum_single (seq 0 n) c0 (fun c => Cnorm2 (U c k))); [apply seq_NoDup|apply in_seq; lia|]. intros j Hj Hn. apply in_seq in Hj. rewrite Hz by (try exact Hn; lia). apply Cnorm2_zero. }
    assert (Ik : In k (seq 0 n)) by (apply in_seq; lia). pose proof (List.find_none _ _ E k Ik) as F. cbn beta in F. destruct (Req_EM_T _ _); [discriminate|contradiction].
Qed.

(** ** Groups of photons behind the elements *)
Definition sends (D : dims) (eps : R) (ncl : nat) (U : nat -> nat -> C) (ph : C -> nat -> C) (F : state -> state) : Prop :=
  (forall x, s_init (F x) = s_init x /\ s_aux (F x) = s_aux x) /\
  (forall a c, Cnorm2 a = 1%R -> Cnorm2 (ph a c) = 1%R) /\
  (forall x k a p, k < dN D -> s_comps x = [(name_string D (one_photon (dN D) k), (a, p))] -> Cnorm2 a = 1%R -> check_state eps ncl x = true -> probs_ok x ->
     lit D (F x) /\ check_state eps ncl (F x) = true /\ probs_ok (F x) /\ forall c, c < dN D -> wave D (F x) c = (ph a c * U c k)%C) /\
  (forall x a p, s_comps x = [(name_string D (repeat 0 (dN D)), (a, p))] -> Cnorm2 a = 1%R -> check_state eps ncl x = true -> probs_ok x ->
     dark D (F x) /\ check_state eps ncl (F x) = true /\ probs_ok (F x)).
Lemma sends_optics D eps ncl es nds : 2 <= dL D -> (0 < eps)%R -> es <> [] -> Forall (optic_ok D) es -> place D (optic_gates es) = Some nds ->
  (forall c k, c < dN D -> k < dN D -> transfer (dN D) es c k = RtoC 0 \/ (eps <= Cnorm2 (transfer (dN D) es c k))%R) ->
  sends D eps ncl (transfer (dN D) es) (row_phase (dN D) (transfer (dN D) es)) (optical_step D eps nds).
Proof.
  intros HL He Hne Hes Hpl Hthr. split; [intro x; split; reflexivity|]. split; [intros a c; apply row_phase_unit|]. split.
  - intros x k a p Hk Hx Ha Hck _. destruct (photon_sent D eps es nds HL He Hne Hes Hpl Hthr x k a p ncl Hk Hx Ha Hck) as (H1 & H2 & H3 & H4). split; [exact H1|]. split; [exact H2|]. split; [exact H3|].
    apply photon_phase; [now apply optics_transfer_unitary|exact Hk|exact H4].
  - intros x a p Hx Ha Hck _. exact (vacuum_sent D eps es nds HL He Hne Hes Hpl Hthr x a p ncl Hx Ha Hck).
Qed.
Lemma sends_nothing D eps ncl : 2 <= dL D -> sends D eps ncl (transfer (dN D) []) (fun _ _ => RtoC 1) (fun x => x).
Proof.
  intro HL. split; [intro x; split; reflexivity|]. split; [intros; unfold Cnorm2; cbn; ring|]. split.
  - intros x k a p Hk Hx Ha Hck Hp. split.
    { split; [rewrite Hx; discriminate|]. split; [rewrite Hx; apply NoDup_cons; [intros []|constructor]|]. split; [|rewrite Hx; cbn; lia]. intros nm Hnm. rewrite Hx in Hnm. destruct Hnm as [<-|[]]. now exists k. }
    split; [exact Hck|]. split; [exact Hp|]. intros c Hc. unfold wave, weighted_components. rewrite Hx, Csum_cons, Csum_nil. cbn [fst snd transfer].
    destruct (Nat.eqb_spec c k) as [->|Hn]; [rewrite (proj2 (leqb_spec _ _) eq_refl); ring|]. destruct (leqb _ _) eqn:E; [|ring]. exfalso. apply leqb_spec in E.
    apply (name_inj D) in E; [|apply one_photon_valid; assumption|apply one_photon_valid; assumption]. apply Hn. apply (f_equal channels_of) in E. rewrite !one_channels in E by assumption. congruence.
  - intros x a p Hx Ha Hck Hp. split; [eexists; exact Hx|]. now split.
Qed.

Definition sent_ray (F : state -> state) (r : ray) : ray :=
  Ray (ry_number r) (ry_amplitude r) (ry_boson r) (map (fun x => (fst (fst x), F (snd (fst x)), snd x)) (ry_states r)).
Definition sent_bundle (F : state -> state) (b : bundle) : bundle := Bundle (bd_label b) (bd_group b) (bd_weight b) (map (sent_ray F) (bd_rays b)).
Lemma map_flat {A B E} (f : B -> E) (g : A -> list B) l : map f (flat_map g l) = flat_map (fun x => map f (g x)) l.
Proof. induction l as [|x l IH]; [reflexivity|]. cbn [flat_map]. now rewrite map_app, IH. Qed.
Lemma sent_bundle_states F b : bundle_states (sent_bundle F b) = map F (bundle_states b).
Proof.
  unfold bundle_states. cbn [sent_bundle bd_rays]. rewrite flat_mapped, map_flat. apply flat_map_ext. intro r. cbn [sent_ray ry_states]. rewrite !map_map. reflexivity.
Qed.
(** One prepared photon. *)
Lemma prepared_sent D eps ncl U ph F sk c y chs t w : sends D eps ncl U ph F -> (0 <= eps)%R -> col_reads D eps ncl (fst sk) c -> Cnorm2 (first_amp (first_state c)) = 1%R ->
  col_group c = snd sk -> valid D (col_vals D c) -> In y (prepared_photons D chs t w (col_vals D c)) ->
  let x := F (prepared_state D c (column_boson D c) (s_cum (fst sk)) (first_state c) (first_amp (first_state c)) y) in
  check_state eps ncl x = true /\ probs_ok x /\ s_init x = s_init (fst sk) /\ (if fst (fst y) then lit D x else dark D x) /\
  dget aux_eqb AuxPhotonResolution (s_aux x) = Some (AuxResolution (Resolution (Some (col_id c)) (Some (col_amp c)) (Some (column_boson D c)) (Some (snd sk)) (Some (s_cum (fst sk))) (Some (snd y)))) /\
  forall k, k < dN D -> fst (fst y) = true -> snd (fst y) = one_photon (dN D) k -> forall ch, ch < dN D -> wave D x ch = (ph (first_amp (first_state c)) ch * U ch k)%C.
Proof.
  intros (S1 & S2 & S3 & S4) He Hr Hn Hgrp Hv Hy x.
  destruct (prepared_state_facts D eps ncl (fst sk) c (column_boson D c) y He Hr Hn) as (F1 & F2 & F3 & F4 & F5 & F6 & F7). rewrite Hgrp in F7.
  destruct (S1 (prepared_state D c (column_boson D c) (s_cum (fst sk)) (first_state c) (first_amp (first_state c)) y)) as [I1 I2].
  destruct (prepared_in D chs _ w (col_vals D c) y Hv Hy) as [(Eb & ch & Hch & HL & Ey)|[Eb Ey]]; rewrite Eb, Ey in *.
  - destruct (S3 _ ch _ _ Hch F6 Hn F1 F2) as (G1 & G2 & G3 & G4). split; [exact G2|]. split; [exact G3|]. split; [unfold x; rewrite I1; exact F3|]. split; [exact G1|]. split; [unfold x; rewrite I2; exact F7|].
    intros k Hk _ E c' Hc'. apply (f_equal channels_of) in E. rewrite !one_channels in E by assumption. replace k with ch by congruence. now apply G4.
  - destruct (S4 _ _ _ F6 Hn F1 F2) as (G1 & G2 & G3). split; [exact G2|]. split; [exact G3|]. split; [unfold x; rewrite I1; exact F3|]. split; [exact G1|]. split; [unfold x; rewrite I2; exact F7|]. discriminate.
Qed.
Lemma sent_bundle_ok D eps ncl U ph F chs d w sk g : sends D eps ncl U ph F -> 1 <= dN D -> (0 <= eps)%R -> good_state D eps ncl (fst sk) -> sendable D (fst sk) -> split_facts eps ncl sk g ->
  bundle_ok D eps ncl (sent_bundle F (delayed_bundle D chs d w (sk, g))).
Proof.
  intros HF HN He Hg Hsend Hs. destruct (delayed_bundle_ok D eps ncl chs d w sk g HN He Hg Hsend Hs) as (B1 & B2 & B3). split; [|split].
  - cbn [sent_bundle bd_rays]. intro Z. apply map_eq_nil in Z. exact (B1 Z).
  - cbn [sent_bundle bd_rays]. rewrite map_map. exact B2.
  - cbn [sent_bundle bd_rays]. apply Forall_map. cbn [delayed_bundle bd_rays fst snd] in B3 |- *. apply Forall_map. apply (proj1 (Forall_map _ _ _)) in B3. apply Forall_forall. intros c Hin.
    pose proof (proj1 (Forall_forall _ _) B3 c Hin) as (R1 & R2 & R3 & R4 & _). unfold ray_ok. cbn [sent_ray ry_amplitude ry_boson ry_number bd_label bd_group bd_weight].
    split; [exact R1|]. split; [exact R2|]. split; [cbn [sent_ray ry_states]; intro Z; apply map_eq_nil in Z; exact (R3 Z)|]. split.
    { rewrite ray_branch_length in R4 |- *. unfold lit_states in *. cbn [sent_ray ry_states]. rewrite filter_map, map_length. exact R4. }
    destruct (split_columns_read D eps ncl sk g c He Hg Hs Hin) as (Hr & Hgrp & _ & Hfa & _).
    assert (Hn : Cnorm2 (first_amp (first_state c)) = 1%R) by (rewrite Hfa; now apply (lone_unit D)).
    assert (Hv : valid D (col_vals D c)) by (destruct Hr as (s & vs & a & p & _ & K2 & _ & _ & _ & _ & _ & _ & _ & _ & _ & _ & ->); exact K2).
    cbn [sent_ray delayed_ray ry_states]. apply Forall_map. apply Forall_map. apply Forall_forall. intros y Hy. cbv zeta. cbn [fst snd].
    destruct (prepared_sent D eps ncl U ph F sk c y chs (delay_in d (fst sk)) w HF He Hr Hn Hgrp Hv Hy) as (P1 & P2 & P3 & P4 & P5 & _). repeat (split; [assumption|]). exact P5.
Qed.
(** What is detected: the phases drop out. *)
Lemma sent_detection D eps ncl es ph F chs d w sk g f : sends D eps ncl (transfer (dN D) es) ph F -> (0 <= eps)%R -> good_state D eps ncl (fst sk) -> sendable D (fst sk) -> split_facts eps ncl sk g ->
  length f = dN D ->
  detection (map (ray_branch D) (bd_rays (sent_bundle F (delayed_bundle D chs d w (sk, g))))) f = detection (sent_branches D es chs (delay_in d (fst sk)) w (fst sk)) f.
Proof.
  intros HF He Hg Hsend Hs Lf. set (t := delay_in d (fst sk)).
  set (B := fun va : values * C => Branch (snd va) (sqrt (INR (factorials (fst va)))) (sent_photons (dN D) es chs t w (fst va))).
  destruct (split_reads D eps ncl sk g He Hg Hs) as [_ HP]. apply (Permutation_map B) in HP. rewrite !map_map in HP. cbn [fst snd] in HP.
  change (map (fun x => B (values_of_name D (fst x), snd x)) (weighted_components (fst sk))) with (sent_branches D es chs t w (fst sk)) in HP.
  rewrite <- (detection_perm _ _ f HP). apply (rephased_detection (dN D) (ph (lone (fst sk)))).
  - intros c _. apply HF. now apply (lone_unit D).
  - cbn [sent_bundle delayed_bundle bd_rays fst snd]. rewrite !map_map.
    assert (G : forall c, In c (group_columns g) -> rephased (dN D) (ph (lone (fst sk))) (B (col_vals D c, col_amp c)) (ray_branch D (sent_ray F (delayed_ray D chs t w (fst sk) c)))).
    { intros c Hin. destruct (split_columns_read D eps ncl sk g c He Hg Hs Hin) as (Hr & Hgrp & _ & Hfa & _).
      assert (Hn : Cnorm2 (first_amp (first_state c)) = 1%R) by (rewrite Hfa; now apply (lone_unit D)).
      assert (Hv : valid D (col_vals D c)) by (destruct Hr as (s & vs & a & p & _ & K2 & _ & _ & _ & _ & _ & _ & _ & _ & _ & _ & ->); exact K2).
      split; [reflexivity|]. split; [reflexivity|]. unfold B, ray_branch. cbn [br_photons fst snd sent_ray delayed_ray ry_states]. unfold sent_photons. rewrite !filter_map, !map_map. cbn [fst snd].
      assert (Hq : forall y, In y (prepared_photons D chs t w (col_vals D c)) -> forall k, k < dN D -> fst (fst y) = true -> snd (fst y) = one_photon (dN D) k -> forall ch, ch < dN D ->
        wave D (F (prepared_state D c (column_boson D c) (s_cum (fst sk)) (first_state c) (first_amp (first_state c)) y)) ch = (ph (lone (fst sk)) ch * transfer (dN D) es ch k)%C).
      { intros y Hy k Hk E1 E2 ch Hch. rewrite <- Hfa. exact (proj2 (proj2 (proj2 (proj2 (proj2 (prepared_sent D eps ncl _ ph F sk c y chs t w HF He Hr Hn Hgrp Hv Hy))))) k Hk E1 E2 ch Hch). }
      assert (Hb : Forall (fun k => k < dN D) (channels_of (col_vals D c))) by (apply Forall_forall; intros k Hk; rewrite <- (proj1 Hv); now apply channels_bound).
      unfold prepared_photons in Hq |- *. destruct (channels_of (col_vals D c)) as [|c0 l0]; [constructor|]. rewrite filter_map. cbn [fst]. rewrite filter_id_all by reflexivity. rewrite map_map. cbn [fst snd].
      assert (Hq' : forall k, In k (c0 :: l0) -> forall ch, ch < dN D ->
        wave D (F (prepared_state D c (column_boson D c) (s_cum (fst sk)) (first_state c) (first_amp (first_state c)) (true, one_photon (dN D) k, ((if channel_in chs k then - t else 0)%R, w)))) ch = (ph (lone (fst sk)) ch * transfer (dN D) es ch k)%C).
      { intros k Hk. apply Hq; try reflexivity; [|exact (proj1 (Forall_forall _ _) Hb k Hk)]. exact (in_map (fun c1 => (true, one_photon (dN D) c1, ((if channel_in chs c1 then - t else 0)%R, w))) _ _ Hk). }
      clear Hq Hb. revert Hq'. induction (c0 :: l0) as [|k l IH]; intro Hq'; cbn [map]; constructor; [|apply IH; intros k' Hk'; apply Hq'; now right].
      cbn [ph_timing ph_wave]. split; [reflexivity|]. apply Hq'. now left. }
    clear HP. induction (group_columns g) as [|c l IH]; cbn [map]; constructor; [apply G; now left|apply IH; intros c' Hc'; apply G; now right].
  - exact Lf.
Qed.
