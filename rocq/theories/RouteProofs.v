(** Photons that meet several time delays, with optical elements between them. *)
From Coq Require Import Reals List Arith Lia Lra Bool Permutation Sorted.
From Coquelicot Require Import Complex.
From Verif Require Import Prelude NamesModel NamesSpec NamesProofs FockModel FockSpec BosonProofs FockProofs GateProofs PropFock StateModel StateSpec StateProofs ApplyProofs
  CollectionModel EvalModel EvalSpec EvalProofs MeasureSpec MeasureProofs PropState PropMeasure PropEval PropCollection PropBridge PropPRMeasure PropPROptics OperatorModel ColumnModel ColumnSpec ColumnProofs PropColumn
  GroupProofs TemporalSpec TemporalProofs ResolvedProofs PropTemporal PropWidth InterferenceSpec ArrangementProofs InterferenceProofs MeasuredProofs PropInterference ExperimentSpec ExperimentProofs PermanentProofs PropPermanent SentProofs RouteSpec.
Import ListNotations.

Definition nz (z : C) : bool := if Ceq_dec z (RtoC 0) then false else true.
Lemma nz_spec z : nz z = true <-> z <> RtoC 0.
Proof. unfold nz. destruct (Ceq_dec z (RtoC 0)); split; congruence. Qed.
Lemma nz_mult a b : nz (a * b)%C = nz a && nz b.
Proof.
  unfold nz. destruct (Ceq_dec a (RtoC 0)) as [->|Ha]; [destruct (Ceq_dec _ _) as [|H]; [reflexivity|exfalso; apply H; ring]|].
  destruct (Ceq_dec b (RtoC 0)) as [->|Hb]; [destruct (Ceq_dec _ _) as [|H]; [reflexivity|exfalso; apply H; ring]|].
  destruct (Ceq_dec (a * b)%C (RtoC 0)) as [H|]; [exfalso; exact (Cmult_neq_0 a b Ha Hb H)|reflexivity].
Qed.
Definition photon_name (D : dims) (c : nat) : name := name_string D (one_photon (dN D) c).
Definition vacuum_name (D : dims) : name := name_string D (repeat 0 (dN D)).
(** The components of a photon that comes from channel [k]. *)
Definition spread (D : dims) (U : nat -> nat -> C) (a : C) (k : nat) : list (name * (C * R)) :=
  map (fun c => (photon_name D c, ((a * U c k)%C, Cnorm2 (a * U c k)%C))) (filter (fun c => nz (U c k)) (seq 0 (dN D))).
(** [F] sends photons through elements with the one-photon amplitudes [U]. *)
Definition moves (D : dims) (eps : R) (ncl : nat) (U : nat -> nat -> C) (F : state -> state) : Prop :=
  (forall x, s_init (F x) = s_init x /\ s_aux (F x) = s_aux x /\ s_classical (F x) = s_classical x /\ s_results (F x) = s_results x /\ s_cum (F x) = s_cum x) /\
  (forall x k a p, k < dN D -> s_comps x = [(photon_name D k, (a, p))] -> Cnorm2 a = 1%R -> check_state eps ncl x = true -> probs_ok x ->
     check_state eps ncl (F x) = true /\ Permutation (s_comps (F x)) (spread D U a k)) /\
  (forall x a p, s_comps x = [(vacuum_name D, (a, p))] -> Cnorm2 a = 1%R -> check_state eps ncl x = true -> probs_ok x ->
     check_state eps ncl (F x) = true /\ exists a', Cnorm2 a' = 1%R /\ s_comps (F x) = [(vacuum_name D, (a', 1%R))]).

Lemma one_photon_inj n c c' : c < n -> c' < n -> one_photon n c = one_photon n c' -> c = c'.
Proof. intros Hc Hc' E. apply (f_equal channels_of) in E. rewrite !one_channels in E by assumption. congruence. Qed.
Lemma photon_name_inj D c c' : 2 <= dL D -> c < dN D -> c' < dN D -> photon_name D c = photon_name D c' -> c = c'.
Proof. intros HL Hc Hc' E. apply (name_inj D) in E; [|now apply one_photon_valid|now apply one_photon_valid]. now apply (one_photon_inj (dN D)). Qed.
Lemma spread_names D U a k : 2 <= dL D -> NoDup (map fst (spread D U a k)).
Proof.
  intro HL. unfold spread. rewrite map_map. cbn [fst]. assert (B : forall c, In c (filter (fun c => nz (U c k)) (seq 0 (dN D))) -> c < dN D) by (intros c H; apply filter_In in H; destruct H as [H _]; apply in_seq in H; lia).
  assert (N : NoDup (filter (fun c => nz (U c k)) (seq 0 (dN D)))) by (apply NoDup_filter, seq_NoDup).
  induction N as [|c l Hn _ IH]; [constructor|]. cbn [map]. constructor; [|apply IH; intros; apply B; now right].
  intro Z. apply in_map_iff in Z. destruct Z as (c' & E & Hc'). apply photon_name_inj in E; [subst; contradiction|exact HL|apply B; now right|apply B; now left].
Qed.
Lemma moves_optics D eps ncl es nds : 2 <= dL D -> (0 < eps)%R -> es <> [] -> Forall (optic_ok D) es -> place D (optic_gates es) = Some nds ->
  (forall c k, c < dN D -> k < dN D -> transfer (dN D) es c k = RtoC 0 \/ (eps <= Cnorm2 (transfer (dN D) es c k))%R) ->
  moves D eps ncl (transfer (dN D) es) (optical_step D eps nds).
Proof.
  intros HL He Hne Hes Hpl Hthr. split; [intro x; repeat split; reflexivity|]. split.
  - intros x k a p Hk Hx Ha Hck _. set (x' := optical_step D eps nds x). set (y := mat_vec (size_of_basis D) (nodes_matrix D nds) (state_vector D x)). set (U := transfer (dN D) es) in *.
    assert (Vk : forall c, c < dN D -> valid D (one_photon (dN D) c)) by (intros c Hc; now apply one_photon_valid).
    destruct (photon_sent D eps es nds HL He Hne Hes Hpl Hthr x k a p ncl Hk Hx Ha Hck) as (Hl & Hck' & Hpr & _). split; [exact Hck'|].
    assert (Y1 : forall c, c < dN D -> y (index_of_values D (one_photon (dN D) c)) = (a * U c k)%C).
    { intros c Hc. unfold y. rewrite (one_image D nds HL x (one_photon (dN D) k) a p (Vk k Hk) Hx) by (apply index_of_values_bound; now apply Vk).
      rewrite (C48_one_photon D es) by (try assumption; now apply (optics_matrix D eps es nds)). unfold U. ring. }
    assert (Y0 : forall us, valid D us -> (forall c, c < dN D -> us <> one_photon (dN D) c) -> y (index_of_values D us) = RtoC 0).
    { intros us Hu Hn. unfold y. rewrite (one_image D nds HL x (one_photon (dN D) k) a p (Vk k Hk) Hx) by (now apply index_of_values_bound).
      destruct (photon_image D eps es nds HL Hne Hes Hpl Hthr k us Hk Hu) as [[c [Hc [E _]]]|[_ E]]; [exfalso; exact (Hn c Hc E)|]. rewrite E. ring. }
    assert (Hy : forall i, i < size_of_basis D -> y i = RtoC 0 \/ (eps <= Cnorm2 (y i))%R).
    { intros i Hi. pose proof (values_from_index_valid D i ltac:(lia)) as Vi. pose proof (index_values_roundtrip D i ltac:(lia) Hi) as Ei.
      destruct (photon_image D eps es nds HL Hne Hes Hpl Hthr k _ Hk Vi) as [[c [Hc [E _]]]|[Hn _]].
      - rewrite <- Ei, E, Y1 by exact Hc. rewrite Cnorm2_mult, Ha, Rmult_1_l. destruct (Hthr c k Hc Hk) as [Z|]; [left; fold U in Z; rewrite Z; ring|now right].
      - left. rewrite <- Ei. now apply Y0. }
    assert (Ha0 : a <> RtoC 0) by (intros ->; rewrite Cnorm2_zero in Ha; lra).
    assert (Hn1 : NoDup (map fst (s_comps x'))) by apply Hl.
    apply NoDup_Permutation; [exact (NoDup_map_inv _ _ Hn1)|exact (NoDup_map_inv _ _ (spread_names D U a k HL))|]. intros [nm [b q]]. split.
    + intro Hin. destruct (kept_in D eps nds HL He x nm b q Hin) as (us & Vu & En & Eb & Hb & Eq). fold y in Eb.
      destruct (photon_image D eps es nds HL Hne Hes Hpl Hthr k us Hk Vu) as [[c [Hc [E _]]]|[Hn _]].
      * rewrite E, Y1 in Eb by exact Hc. unfold spread. apply in_map_iff. exists c. split; [rewrite Eq, Eb, En, E; reflexivity|].
        apply filter_In. split; [apply in_seq; lia|]. apply nz_spec. intro Z. apply Hb. rewrite Eb, Z. ring.
      * exfalso. apply Hb. rewrite Eb. now apply Y0.
    + intro Hin. unfold spread in Hin. apply in_map_iff in Hin. destruct Hin as (c & E & Hc). apply filter_In in Hc. destruct Hc as [Hc Hz]. apply in_seq in Hc. apply nz_spec in Hz.
      assert (Hamp : amplitude x' (photon_name D c) = (a * U c k)%C) by (unfold x', photon_name; rewrite (kept_amplitude D eps nds HL x Hy _ (Vk c ltac:(lia))); apply Y1; lia).
      unfold amplitude in Hamp. destruct (dget leqb (photon_name D c) (s_comps x')) as [[b' q']|] eqn:Ed.
      * apply (dget_some_in leqb leqb_spec) in Ed. cbn [fst] in Hamp. destruct (kept_in D eps nds HL He x _ b' q' Ed) as (_ & _ & _ & _ & _ & Eq'). rewrite Eq', Hamp in Ed. rewrite <- E. exact Ed.
      * exfalso. exact (Cmult_neq_0 _ _ Ha0 Hz (eq_sym Hamp)).
  - intros x a p Hx Ha Hck _. set (x' := optical_step D eps nds x).
    destruct (vacuum_sent D eps es nds HL He Hne Hes Hpl Hthr x a p ncl Hx Ha Hck) as (Hd & Hck' & Hpr). split; [exact Hck'|]. fold x' in Hd, Hpr, Hck'.
    destruct Hd as [[a' q'] Ec]. assert (Hn1 : state_norm2 x' = 1%R).
    { assert (V0 : valid D (repeat 0 (dN D))) by (apply zero_valid; lia). refine (kept_norm D eps es nds HL Hne Hes Hpl Hthr x _ a p V0 Hx Ha _). intros i Hi.
      pose proof (values_from_index_valid D i ltac:(lia)) as Vi. pose proof (index_values_roundtrip D i ltac:(lia) Hi) as Ei.
      rewrite <- Ei. rewrite (one_image D nds HL x _ a p V0 Hx) by (now apply index_of_values_bound). rewrite (vacuum_image D eps es nds HL Hne Hes Hpl Hthr) by exact Vi. destruct (leqb _ _); [right|left; ring].
      rewrite Cmult_1_l, Ha. exact (threshold_one D eps es nds HL Hne Hes Hpl Hthr). }
    unfold state_norm2 in Hn1. rewrite Ec in Hn1. unfold Rsum in Hn1. cbn in Hn1. exists a'. split; [lra|]. unfold vacuum_name. rewrite Ec.
    pose proof (Hpr (vacuum_name D) a' q' ltac:(unfold vacuum_name; rewrite Ec; now left)) as Hq. do 3 f_equal. lra.
Qed.
Lemma moves_nothing D eps ncl : 2 <= dL D -> moves D eps ncl (transfer (dN D) []) (fun x => x).
Proof.
  intro HL. split; [intro x; repeat split; reflexivity|]. split.
  - intros x k a p Hk Hx Ha Hck Hpr. split; [exact Hck|]. rewrite Hx. unfold spread. cbn [transfer].
    assert (E : filter (fun c => nz (if c =? k then RtoC 1 else RtoC 0)) (seq 0 (dN D)) = [k]).
    { assert (G : forall n s, filter (fun c => nz (if c =? k then RtoC 1 else RtoC 0)) (seq s n) = if (s <=? k) && (k <? s + n) then [k] else []).
      { induction n as [|n IH]; intro s; [cbn [seq filter]; destruct (Nat.leb_spec s k), (Nat.ltb_spec k (s + 0)); cbn; try reflexivity; lia|]. cbn [seq filter]. rewrite IH.
        assert (N1 : nz (RtoC 1) = true) by (apply nz_spec; intro X; apply RtoC_inj in X; lra). assert (N0 : nz (RtoC 0) = false) by (unfold nz; destruct (Ceq_dec _ _); congruence).
        destruct (Nat.eqb_spec s k) as [E|Hn]; [rewrite N1|rewrite N0]; destruct (Nat.leb_spec (S s) k), (Nat.ltb_spec k (S s + n)), (Nat.leb_spec s k), (Nat.ltb_spec k (s + S n)); cbn [andb]; try reflexivity; try lia; now rewrite E. }
      rewrite G. destruct (Nat.leb_spec 0 k), (Nat.ltb_spec k (0 + dN D)); cbn; try reflexivity; lia. }
    rewrite E. cbn [map]. rewrite Nat.eqb_refl, Cmult_1_r. rewrite (Hpr _ a p ltac:(rewrite Hx; now left)). reflexivity.
  - intros x a p Hx Ha Hck Hpr. split; [exact Hck|]. exists a. split; [exact Ha|]. rewrite Hx. do 3 f_equal. rewrite (Hpr _ a p ltac:(rewrite Hx; now left)). exact Ha.
Qed.

Section Step.
Variables (D : dims) (eps : R) (ncl : nat) (U : nat -> nat -> C) (F : state -> state) (mu : C) (sg : nat -> C).
Hypothesis (HL : 2 <= dL D) (HN : 1 <= dN D) (He : (0 <= eps)%R) (HF : moves D eps ncl U F) (HU : unitary_mat (dN D) U).
Hypothesis (Hsg : forall c, c < dN D -> Cnorm2 (sg c) = 1%R) (Hmu : Cnorm2 mu = 1%R).

(** The amplitudes of the states after the elements. *)
Definition next_phase (c : nat) : C :=
  match List.find (fun k => if Req_EM_T (Cnorm2 (U c k)) 1 then true else false) (seq 0 (dN D)) with Some k => (sg k * U c k)%C | None => RtoC 1 end.
Lemma next_phase_unit c : Cnorm2 (next_phase c) = 1%R.
Proof.
  unfold next_phase. destruct (List.find _ _) as [k|] eqn:E; [|rewrite Cnorm2_RtoC; ring]. apply find_some in E. destruct E as [Hk E]. apply in_seq in Hk.
  destruct (Req_EM_T _ 1) as [E1|]; [|discriminate]. rewrite Cnorm2_mult, E1, Hsg by lia. ring.
Qed.
Definition open (k : nat) : list nat := filter (fun c => nz (U c k)) (seq 0 (dN D)).
Lemma open_in k c : In c (open k) <-> c < dN D /\ U c k <> RtoC 0.
Proof. unfold open. rewrite filter_In, in_seq, nz_spec. split; intros [H1 H2]; split; try assumption; lia. Qed.
Lemma open_norm k : k < dN D -> Rsum (open k) (fun c => Cnorm2 (U c k)) = 1%R.
Proof.
  intro Hk. rewrite <- (norm_columns (dN D) U HU k Hk). unfold open. induction (seq 0 (dN D)) as [|c l IH]; [reflexivity|]. cbn [filter]. rewrite Rsum_cons. destruct (nz (U c k)) eqn:E.
  - rewrite Rsum_cons, IH. reflexivity.
  - rewrite IH. assert (Z : U c k = RtoC 0) by (destruct (Ceq_dec (U c k) (RtoC 0)) as [|H]; [assumption|apply nz_spec in H; congruence]). rewrite Z, Cnorm2_zero. ring.
Qed.
Lemma next_single k c : k < dN D -> open k = [c] -> next_phase c = (sg k * U c k)%C /\ Cnorm2 (U c k) = 1%R.
Proof.
  intros Hk E. assert (Hc : c < dN D) by (apply (open_in k c); rewrite E; now left). pose proof (open_norm k Hk) as N1. rewrite E in N1. unfold Rsum in N1. cbn in N1. rewrite Rplus_0_r in N1. split; [|exact N1].
  unfold next_phase. destruct (List.find _ _) as [j|] eqn:Ef.
  - apply find_some in Ef. destruct Ef as [Hj E1]. apply in_seq in Hj. destruct (Req_EM_T _ 1) as [E2|]; [|discriminate]. destruct (Nat.eq_dec j k) as [->|Hn]; [reflexivity|]. exfalso.
    pose proof (unit_alone (dN D) (fun i => Cnorm2 (U c i)) k j (fun i _ => Cnorm2_nonneg _) (norm_rows (dN D) U HU c Hc) Hk ltac:(lia) Hn N1) as Z. cbn beta in Z. lra.
  - exfalso. pose proof (find_none _ _ Ef k ltac:(apply in_seq; lia)) as Z. cbn beta in Z. destruct (Req_EM_T (Cnorm2 (U c k)) 1); [discriminate|contradiction].
Qed.
Lemma next_many k c c' : k < dN D -> In c (open k) -> In c' (open k) -> c <> c' -> next_phase c = RtoC 1.
Proof.
  intros Hk Hc Hc' Hn. apply open_in in Hc. apply open_in in Hc'. destruct Hc as [Hc Z], Hc' as [Hc' Z']. unfold next_phase. destruct (List.find _ _) as [j|] eqn:Ef; [|reflexivity]. exfalso.
  apply find_some in Ef. destruct Ef as [Hj E1]. apply in_seq in Hj. destruct (Req_EM_T _ 1) as [E2|]; [|discriminate]. destruct (Nat.eq_dec k j) as [->|Hkj].
  - pose proof (unit_alone (dN D) (fun i => Cnorm2 (U i j)) c c' (fun i _ => Cnorm2_nonneg _) (norm_columns (dN D) U HU j ltac:(lia)) Hc Hc' ltac:(congruence) E2) as Y. cbn beta in Y. pose proof (Cnorm2_pos _ Z'). lra.
  - pose proof (unit_alone (dN D) (fun i => Cnorm2 (U c i)) j k (fun i _ => Cnorm2_nonneg _) (norm_rows (dN D) U HU c Hc) ltac:(lia) Hk Hkj E2) as Y. cbn beta in Y. pose proof (Cnorm2_pos _ Z). lra.
Qed.
Definition lit_core (st : state) (c : nat) : core := core_with (core_of st) [(photon_name D c, (next_phase c, 1%R))].
(** The choices of a photon behind the elements. *)
Lemma choices_moved st k : k < dN D -> Permutation (s_comps st) (spread D U (sg k) k) ->
  Permutation (choices st) (map (fun c => ((sg k * U c k * Cconj (next_phase c))%C, lit_core st c)) (open k)).
Proof.
  intros Hk HP. unfold spread in HP. fold (open k) in HP. unfold choices. pose proof (Permutation_length HP) as HLen. rewrite map_length in HLen.
  destruct (open k) as [|c0 [|c1 l]] eqn:Eo.
  - exfalso. pose proof (open_norm k Hk) as N. rewrite Eo in N. unfold Rsum in N. cbn in N. lra.
  - cbn [map] in HP. apply Permutation_sym in HP. apply Permutation_length_1_inv in HP. rewrite HP. cbn [map]. destruct (next_single k c0 Hk Eo) as [E1 E2].
    assert (E3 : Cnorm2 (sg k * U c0 k)%C = 1%R) by (rewrite Cnorm2_mult, E2, Hsg by exact Hk; ring).
    replace (sg k * U c0 k * Cconj (next_phase c0))%C with (RtoC 1) by (rewrite E1; pose proof (Cconj_mult_norm2 (sg k * U c0 k)%C) as X; rewrite E3 in X; rewrite <- X; ring).
    unfold lit_core, core_with. rewrite E1. rewrite <- E3. cbn [core_of fst snd].
    replace (with_comps (drop_resolution st) [(photon_name D c0, ((sg k * U c0 k)%C, Cnorm2 (sg k * U c0 k)%C))]) with (drop_resolution st) by (symmetry; apply with_comps_same; exact HP). rewrite E3. reflexivity.
  - assert (Hm : forall c, In c (open k) -> next_phase c = RtoC 1).
    { intros c Hc. destruct (Nat.eq_dec c c0) as [->|Hn]; [|apply (next_many k c c0 Hk Hc); [rewrite Eo; now left|exact Hn]].
      assert (ND : NoDup (open k)) by (apply NoDup_filter, seq_NoDup). rewrite Eo in ND. inversion ND as [|? ? H1 _]; subst. apply (next_many k c0 c1 Hk Hc); [rewrite Eo; right; now left|]. intros ->. apply H1. now left. }
    rewrite Eo in Hm. destruct (s_comps st) as [|q1 [|q2 cs]] eqn:Ec; try (cbn in HLen; lia).
    apply (Permutation_map (fun c : name * (C * R) => (fst (snd c), core_with (core_of st) (unit_comp (fst c))))) in HP. etransitivity; [exact HP|]. clear HP HLen. revert Hm. generalize (c0 :: c1 :: l). intros l0 Hm. rewrite map_map.
    apply Permutation_refl'. apply map_ext_in. intros c Hc. cbn [fst snd]. rewrite (Hm c Hc). unfold lit_core, unit_comp. rewrite (Hm c Hc). f_equal. rewrite Cconj_RtoC. ring.
Qed.

(** The states before the elements. *)
Definition stood (s : nat -> C) (x : bool * state * (R * R)) : Prop :=
  photon_of (sp_state x) = Some (snd x) /\ check_state eps ncl (sp_state x) = true /\
  if fst (fst x) then exists c, c < dN D /\ s_comps (sp_state x) = [(photon_name D c, (s c, 1%R))]
  else exists a, Cnorm2 a = 1%R /\ s_comps (sp_state x) = [(vacuum_name D, (a, 1%R))].
Definition spot (st : state) : nat := hd 0 (channels_of (first_values D st)).
Definition photons_in (l : list (bool * state * (R * R))) : list (nat * (R * R)) := map (fun x => (spot (sp_state x), snd x)) (lit_states l).
Lemma spot_photon st c q : c < dN D -> s_comps st = [(photon_name D c, q)] -> spot st = c /\ first_values D st = one_photon (dN D) c.
Proof.
  intros Hc E. destruct q as [a p]. assert (E1 : first_values D st = one_photon (dN D) c) by (apply (first_values_one D st _ a p); [now apply one_photon_valid|exact E]).
  split; [|exact E1]. unfold spot. rewrite E1, one_channels by exact Hc. reflexivity.
Qed.
Lemma vacuum_values st q : s_comps st = [(vacuum_name D, q)] -> first_values D st = repeat 0 (dN D).
Proof. intro E. destruct q as [a p]. apply (first_values_one D st _ a p); [apply zero_valid; lia|exact E]. Qed.
Lemma moved_photon x : photon_of (F x) = photon_of x.
Proof. unfold photon_of, resolution_of. now rewrite (proj1 (proj2 (proj1 HF x))). Qed.
Lemma unit_probs st nm a : Cnorm2 a = 1%R -> s_comps st = [(nm, (a, 1%R))] -> probs_ok st.
Proof. intros Ha E n b q Hin. rewrite E in Hin. destruct Hin as [H|[]]. assert (b = a /\ q = 1%R) as [-> ->] by (split; congruence). now symmetry. Qed.
Lemma core_photons_cons ks k0 : core_photons D (k0 :: ks) = core_photons D [k0] ++ core_photons D ks.
Proof. apply (core_photons_app D [k0] ks). Qed.
Lemma lit_core_photons st c : c < dN D -> core_photons D [lit_core st c] = [(c, photon_of st)].
Proof.
  intro Hc. unfold core_photons. cbn [flat_map]. rewrite app_nil_r. unfold core_values, lit_core, core_with. cbn [fst snd core_of].
  rewrite (first_values_with D _ (one_photon (dN D) c)) by (now apply one_photon_valid). rewrite channels_of_spec, one_channels by exact Hc. reflexivity.
Qed.
Definition seen (t : C * list core) : C * list (nat * option (R * R)) :=
  ((fst t * Cprod (core_photons D (snd t)) (fun p => mu * next_phase (fst p)))%C, core_photons D (snd t)).
Definition sent_to (K : C) (y : C * list (nat * (R * R))) : C * list (nat * option (R * R)) :=
  ((K * fst y)%C, map (fun p => (fst p, Some (snd p))) (snd y)).
Definition start_phase (l : list (nat * (R * R))) : C := Cprod l (fun p => mu * sg (fst p))%C.
Lemma filter_none {A} (l : list A) : filter (fun _ => false) l = [].
Proof. induction l; [reflexivity|assumption]. Qed.
Lemma filter_reroutes x r :
  filter (fun y => nz (fst y)) (reroutes (dN D) U (x :: r))
  = flat_map (fun c => map (fun y => ((U c (fst x) * fst y)%C, (c, snd x) :: snd y)) (filter (fun y => nz (fst y)) (reroutes (dN D) U r))) (open (fst x)).
Proof.
  cbn [reroutes]. unfold open. induction (seq 0 (dN D)) as [|c l IH]; [reflexivity|]. cbn [flat_map filter]. rewrite filter_app, IH.
  assert (E : filter (fun y : C * list (nat * (R * R)) => nz (fst y)) (map (fun y => ((U c (fst x) * fst y)%C, (c, snd x) :: snd y)) (reroutes (dN D) U r))
     = if nz (U c (fst x)) then map (fun y => ((U c (fst x) * fst y)%C, (c, snd x) :: snd y)) (filter (fun y => nz (fst y)) (reroutes (dN D) U r)) else []).
  { rewrite filter_map. cbn [fst]. destruct (nz (U c (fst x))) eqn:Ez.
    - f_equal. apply filter_ext. intro y. rewrite nz_mult, Ez. reflexivity.
    - rewrite (filter_ext _ (fun _ => false)) by (intro y; now rewrite nz_mult, Ez). now rewrite filter_none. }
  rewrite E. destruct (nz (U c (fst x))); reflexivity.
Qed.
Lemma perm_flat_map {A B} (f g : A -> list B) l : (forall x, In x l -> Permutation (f x) (g x)) -> Permutation (flat_map f l) (flat_map g l).
Proof. induction l as [|x l IH]; intro H; [constructor|]. cbn [flat_map]. apply Permutation_app; [apply H; now left|apply IH; intros; apply H; now right]. Qed.
Lemma terms_moved l : Forall (stood sg) l ->
  Permutation (map seen (terms (map (fun x => F (sp_state x)) l)))
    (map (sent_to (start_phase (photons_in l))) (filter (fun y => nz (fst y)) (reroutes (dN D) U (photons_in l)))).
Proof.
  induction l as [|x l IH]; intro H.
  - cbn [map terms photons_in lit_states filter reroutes]. assert (N1 : nz (fst (RtoC 1, @nil (nat * (R * R)))) = true) by (apply nz_spec; intro X; apply RtoC_inj in X; lra). rewrite N1. cbn [map].
    unfold seen, sent_to, start_phase. cbn [fst snd core_photons flat_map Cprod fold_right map]. reflexivity.
  - specialize (IH (Forall_inv_tail H)). pose proof (Forall_inv H) as (Hph & Hck & Hx). cbn [map terms]. unfold photons_in, lit_states in *. cbn [filter]. destruct (fst (fst x)) eqn:Eb.
    + destruct Hx as (k & Hk & Ec). cbn [map]. destruct (spot_photon _ k _ Hk Ec) as [Es _]. rewrite Es.
      destruct (proj1 (proj2 HF) (sp_state x) k (sg k) 1%R Hk Ec (Hsg k Hk) Hck (unit_probs _ _ _ (Hsg k Hk) Ec)) as [_ HP].
      pose proof (choices_moved _ k Hk HP) as HCh. rewrite filter_reroutes. cbn [fst snd].
      etransitivity; [apply Permutation_map; apply flat_map_perm; exact HCh|]. rewrite flat_mapped, !map_flat. apply perm_flat_map. intros c Hc. apply open_in in Hc. destruct Hc as [Hc _].
      rewrite !map_map. cbn [fst snd].
      set (comb := fun u : C * list (nat * option (R * R)) => ((mu * sg k * U c k * fst u)%C, (c, Some (snd x)) :: snd u)).
      transitivity (map comb (map seen (terms (map (fun x => F (sp_state x)) l)))); [|etransitivity; [apply (Permutation_map comb); exact IH|]].
      * apply Permutation_refl'. symmetry. etransitivity; [apply map_map|]. symmetry. apply map_ext. intro y. unfold comb, seen. cbn [fst snd]. rewrite core_photons_cons, lit_core_photons by exact Hc. rewrite moved_photon, Hph.
        cbn [app]. rewrite Cprod_cons. cbn [fst]. f_equal.
        pose proof (Cconj_mult_norm2 (next_phase c)) as X. rewrite next_phase_unit in X.
        set (P := Cprod (core_photons D (snd y)) (fun p => mu * next_phase (fst p))%C). 
        transitivity (sg k * U c k * fst y * mu * P * (Cconj (next_phase c) * next_phase c))%C; [ring|]. rewrite X. ring.
      * apply Permutation_refl'. etransitivity; [apply map_map|]. apply map_ext. intro y. unfold comb, sent_to, start_phase. rewrite Cprod_cons. cbn [fst snd map]. f_equal. ring.
    + destruct Hx as (a & Ha & Ec). destruct (proj2 (proj2 HF) (sp_state x) a 1%R Ec Ha Hck (unit_probs _ _ _ Ha Ec)) as (_ & a' & Ha' & Ec').
      unfold choices. rewrite Ec'. cbn [flat_map]. rewrite app_nil_r. etransitivity; [|exact IH]. apply Permutation_refl'. etransitivity; [apply map_map|]. apply map_ext. intro y. unfold seen. cbn [fst snd].
      assert (E : core_photons D (core_of (F (sp_state x)) :: snd y) = core_photons D (snd y)).
      { rewrite core_photons_cons. unfold core_photons at 1. cbn [flat_map]. rewrite core_values_of, (vacuum_values _ _ Ec'), channels_zero. reflexivity. }
      rewrite E. f_equal. ring.
Qed.
(** The states behind the elements. *)
Definition moved_core (x : bool * state * (R * R)) (k : core) : Prop :=
  snd k = Some (snd x) /\ exists comps, fst k = with_comps (drop_resolution (F (sp_state x))) comps /\
  if fst (fst x) then exists c, c < dN D /\ comps = [(photon_name D c, (next_phase c, 1%R))]
  else exists a, Cnorm2 a = 1%R /\ comps = [(vacuum_name D, (a, 1%R))].
Lemma terms_cores l t : Forall (stood sg) l -> In t (terms (map (fun x => F (sp_state x)) l)) -> Forall2 moved_core l (snd t).
Proof.
  revert t. induction l as [|x l IH]; intros t H Ht.
  - destruct Ht as [<-|[]]. constructor.
  - cbn [map terms] in Ht. apply in_flat_map in Ht. destruct Ht as (a & Ha & Ht). apply in_map_iff in Ht. destruct Ht as (y & <- & Hy). cbn [snd]. constructor; [|apply IH; [exact (Forall_inv_tail H)|exact Hy]].
    pose proof (Forall_inv H) as (Hph & Hck & Hx). unfold moved_core. destruct (fst (fst x)).
    + destruct Hx as (k & Hk & Ec). destruct (proj1 (proj2 HF) (sp_state x) k (sg k) 1%R Hk Ec (Hsg k Hk) Hck (unit_probs _ _ _ (Hsg k Hk) Ec)) as [_ HP].
      apply (Permutation_in _ (choices_moved _ k Hk HP)) in Ha. apply in_map_iff in Ha. destruct Ha as (c & <- & Hc). apply open_in in Hc. cbn [snd lit_core core_with core_of fst].
      split; [rewrite moved_photon; exact Hph|]. eexists. split; [reflexivity|]. exists c. split; [apply Hc|reflexivity].
    + destruct Hx as (b & Hb & Ec). destruct (proj2 (proj2 HF) (sp_state x) b 1%R Ec Hb Hck (unit_probs _ _ _ Hb Ec)) as (_ & a' & Ha' & Ec').
      unfold choices in Ha. rewrite Ec' in Ha. destruct Ha as [<-|[]]. cbn [snd core_of fst]. split; [rewrite moved_photon; exact Hph|]. exists [(vacuum_name D, (a', 1%R))]. split; [symmetry; apply with_comps_same; exact Ec'|]. exists a'. now split.
Qed.

Lemma open_nonempty k : k < dN D -> open k <> [].
Proof. intros Hk E. pose proof (open_norm k Hk) as N. rewrite E in N. unfold Rsum in N. cbn in N. lra. Qed.
Lemma spread_lit st a k : k < dN D -> Cnorm2 a = 1%R -> Permutation (s_comps st) (spread D U a k) -> lit D st /\ probs_ok st.
Proof.
  intros Hk Ha HP. split; [split; [|split; [|split]]|].
  - intro E. rewrite E in HP. apply Permutation_nil in HP. unfold spread in HP. apply map_eq_nil in HP. exact (open_nonempty k Hk HP).
  - apply (Permutation_NoDup (l := map fst (spread D U a k))); [apply Permutation_map, Permutation_sym, HP|now apply spread_names].
  - intros nm Hnm. apply in_map_iff in Hnm. destruct Hnm as (q & <- & Hq). apply (Permutation_in _ HP) in Hq. unfold spread in Hq. apply in_map_iff in Hq. destruct Hq as (c & <- & Hc). cbn [fst]. exists c.
    split; [|reflexivity]. apply filter_In in Hc. destruct Hc as [Hc _]. apply in_seq in Hc. lia.
  - intros _. split.
    + apply Forall_forall. intros q Hq. apply (Permutation_in _ HP) in Hq. unfold spread in Hq. apply in_map_iff in Hq. destruct Hq as (c & <- & Hc). cbn [fst snd]. apply filter_In in Hc. destruct Hc as [_ Hc]. apply nz_spec in Hc.
      apply Cmult_nonzero; [|exact Hc]. intros ->. rewrite Cnorm2_zero in Ha. lra.
    + unfold state_norm2. rewrite (Rsum_perm _ _ _ HP). unfold spread. rewrite Rsum_map. rewrite <- (open_norm k Hk). unfold open. apply Rsum_ext. intros c _. cbn [fst snd]. rewrite Cnorm2_mult, Ha. ring.
  - intros nm b q Hin. apply (Permutation_in _ HP) in Hin. unfold spread in Hin. apply in_map_iff in Hin. destruct Hin as (c & E & _). assert (b = (a * U c k)%C /\ q = Cnorm2 (a * U c k)%C) as [-> ->] by (split; congruence). reflexivity.
Qed.
Definition sent_one (x : bool * state * (R * R)) : bool * state * (R * R) := (fst (fst x), F (snd (fst x)), snd x).
Lemma sent_kind x : stood sg x -> check_state eps ncl (F (sp_state x)) = true /\ probs_ok (F (sp_state x)) /\ (if fst (fst x) then lit D (F (sp_state x)) else dark D (F (sp_state x))).
Proof.
  intros (Hph & Hck & Hx). destruct (fst (fst x)).
  - destruct Hx as (k & Hk & Ec). destruct (proj1 (proj2 HF) (sp_state x) k (sg k) 1%R Hk Ec (Hsg k Hk) Hck (unit_probs _ _ _ (Hsg k Hk) Ec)) as [H1 HP].
    destruct (spread_lit _ _ k Hk (Hsg k Hk) HP) as [H2 H3]. split; [exact H1|]. split; [exact H3|exact H2].
  - destruct Hx as (a & Ha & Ec). destruct (proj2 (proj2 HF) (sp_state x) a 1%R Ec Ha Hck (unit_probs _ _ _ Ha Ec)) as (H1 & a' & Ha' & Ec').
    split; [exact H1|]. split; [exact (unit_probs _ _ _ Ha' Ec')|]. exists (a', 1%R). exact Ec'.
Qed.
Definition standing (s : nat -> C) (st : state) (x : bool * state * (R * R)) : Prop :=
  stood s x /\ s_cum (sp_state x) = s_cum st /\ s_classical (sp_state x) = s_classical st /\ s_results (sp_state x) = s_results st.
Lemma sent_ok st b : bundle_ok D eps ncl b -> Forall (fun r => Forall (standing sg st) (ry_states r)) (bd_rays b) -> bundle_ok D eps ncl (sent_bundle F b).
Proof.
  intros (H1 & H2 & H3) Hs. unfold sent_bundle, bundle_ok. cbn [bd_rays]. split; [intro E; apply map_eq_nil in E; exact (H1 E)|]. split; [rewrite map_map; exact H2|].
  apply Forall_map. apply Forall_forall. intros r Hr. pose proof (proj1 (Forall_forall _ _) H3 r Hr) as (R1 & R2 & R3 & R4 & R5). pose proof (proj1 (Forall_forall _ _) Hs r Hr) as Hst.
  unfold ray_ok, sent_ray. cbn [ry_amplitude ry_boson ry_states ry_number]. split; [exact R1|]. split; [exact R2|]. split; [intro E; apply map_eq_nil in E; exact (R3 E)|]. split.
  - unfold ray_branch in *. cbn [br_photons ry_states] in *. rewrite map_length in *. rewrite filter_map, map_length. exact R4.
  - apply Forall_map. apply Forall_forall. intros x Hx. cbn [fst snd]. pose proof (proj1 (Forall_forall _ _) R5 x Hx) as (X1 & X2 & X3 & X4 & X5). pose proof (proj1 (Forall_forall _ _) Hst x Hx) as (Y & _). cbv zeta in X5.
    destruct (sent_kind x Y) as (Z1 & Z2 & Z3). unfold sp_state in *. destruct (proj1 HF (snd (fst x))) as (F1 & F2 & _). split; [exact Z1|]. split; [exact Z2|]. split; [rewrite F1; exact X3|]. split; [exact Z3|]. rewrite F2. exact X5.
Qed.
(** A state behind the elements, as it is found in the split columns. *)
Definition as_lit (s : state) : bool * state * (R * R) := (NamesSpec.photons (first_values D s) =? 1, s, or_else (photon_of s) (0%R, 1%R)).
Lemma moved_state st x s : standing sg st x -> moved_core x (core_of s) ->
  standing next_phase st (as_lit s) /\ fst (fst (as_lit s)) = fst (fst x) /\ snd (as_lit s) = snd x /\ s_init s = s_init (sp_state x) /\ photon_of s = Some (snd x) /\ probs_ok s.
Proof.
  intros ((Hph & Hck & Hx) & Hcu & Hcl & Hre) (Hs & comps & Hc & Hk). cbn [core_of fst snd] in Hs, Hc.
  destruct (proj1 HF (sp_state x)) as (F1 & F2 & F3 & F4 & F5).
  assert (E1 : s_comps s = comps) by exact (f_equal s_comps Hc). assert (E2 : s_init s = s_init (sp_state x)) by (rewrite <- F1; exact (f_equal s_init Hc)).
  assert (E3 : s_cum s = s_cum (sp_state x)) by (rewrite <- F5; exact (f_equal s_cum Hc)). assert (E4 : s_classical s = s_classical (sp_state x)) by (rewrite <- F3; exact (f_equal s_classical Hc)).
  assert (E5 : s_results s = s_results (sp_state x)) by (rewrite <- F4; exact (f_equal s_results Hc)).
  assert (Hcks : forall p q, s_comps s = [(p, (q, 1%R))] -> check_state eps ncl s = true).
  { intros p q E. apply check_state_iff in Hck. apply check_state_iff. rewrite E3, E4. split; [apply Hck|]. split; [|apply Hck]. rewrite E. constructor; [cbn; lra|constructor]. }
  assert (Fl : fst (fst (as_lit s)) = fst (fst x) /\ stood next_phase (as_lit s) /\ probs_ok s).
  { unfold stood, as_lit. cbn [fst snd sp_state]. rewrite Hs. cbn [or_else]. destruct (fst (fst x)).
    - destruct Hk as (c & Hcn & Ec). rewrite <- E1 in Ec. destruct (spot_photon s c _ Hcn Ec) as [_ Ev]. rewrite Ev. assert (Ep : NamesSpec.photons (one_photon (dN D) c) = 1) by (rewrite <- channels_length, one_channels by exact Hcn; reflexivity).
      rewrite Ep. cbn [Nat.eqb]. split; [reflexivity|]. split; [split; [reflexivity|split; [exact (Hcks _ _ Ec)|exists c; now split]]|]. exact (unit_probs _ _ _ (next_phase_unit c) Ec).
    - destruct Hk as (a & Ha & Ec). rewrite <- E1 in Ec. rewrite (vacuum_values s _ Ec). assert (Ep : NamesSpec.photons (repeat 0 (dN D)) = 0) by (rewrite <- channels_length, <- channels_of_spec, channels_zero; reflexivity).
      rewrite Ep. cbn [Nat.eqb]. split; [reflexivity|]. split; [split; [reflexivity|split; [exact (Hcks _ _ Ec)|exists a; now split]]|]. exact (unit_probs _ _ _ Ha Ec). }
  destruct Fl as (G1 & G2 & G3). split; [split; [exact G2|]; unfold as_lit, sp_state in *; cbn [fst snd]; rewrite E3, E4, E5; now repeat split|]. split; [exact G1|]. unfold as_lit. cbn [fst snd]. rewrite Hs. now repeat split.
Qed.

(** ** A group before and behind the elements *)
Definition column_ray (c : column) : ray := Ray (col_id c) (col_amp c) (col_boson c) (map as_lit (col_states c)).
Definition group_bundle (i : ident) (g : group) : bundle := Bundle i (g_id g) (g_cum g) (map column_ray (group_columns g)).
Definition ray_track (s : nat -> C) (r : ray) : track :=
  Track (ry_amplitude r * Cprod (photons_in (ry_states r)) (fun p => mu * s (fst p)))%C (ry_boson r) (photons_in (ry_states r)).
Definition real_tracks (ts : list track) : list track := filter (fun t => nz (tk_amplitude t)) ts.
Record stands (s : nat -> C) (st : state) (b : bundle) (ts : list track) : Prop := {
  sd_label : bd_label b = s_init st;
  sd_weight : bd_weight b = s_cum st;
  sd_range : (0 <= s_cum st <= 1)%R;
  sd_ok : bundle_ok D eps ncl b;
  sd_states : Forall (fun r => Forall (standing s st) (ry_states r)) (bd_rays b);
  sd_tracks : Permutation (map (ray_track s) (bd_rays b)) (real_tracks ts) }.

Definition ess_track (e : ess) : track :=
  Track (fst (fst (fst e)) * Cprod (core_photons D (snd e)) (fun p => mu * next_phase (fst p)))%C (snd (fst (fst e)))
    (map (fun p => (fst p, or_else (snd p) (0%R, 1%R))) (core_photons D (snd e))).
Lemma lit_photons_in s l : Forall (fun x => stood s (as_lit x)) l ->
  photons_in (map as_lit l) = map (fun p => (fst p, or_else (snd p) (0%R, 1%R))) (core_photons D (map core_of l)).
Proof.
  induction 1 as [|x l Hx _ IH]; [reflexivity|]. cbn [map]. rewrite core_photons_cons, map_app, <- IH. destruct Hx as (_ & _ & Hk). unfold photons_in, lit_states. cbn [filter map]. unfold as_lit at 1 in Hk. cbn [fst snd sp_state] in Hk. unfold as_lit at 1. cbn [fst snd]. destruct (_ =? 1).
  - destruct Hk as (c & Hc & Ec). unfold as_lit in Ec. cbn [fst snd sp_state] in Ec. cbn [map]. unfold as_lit at 1. unfold sp_state at 1. cbn [fst snd]. destruct (spot_photon x c _ Hc Ec) as [Es Ev]. unfold core_photons. cbn [flat_map map core_of]. rewrite core_values_of, Ev, channels_of_spec, one_channels by exact Hc. cbn. unfold sp_state. cbn [fst snd]. rewrite Es. reflexivity.
  - destruct Hk as (a & Ha & Ec). unfold as_lit in Ec. cbn [fst snd sp_state] in Ec. unfold core_photons at 1. cbn [flat_map map core_of]. rewrite core_values_of, (vacuum_values x _ Ec), channels_zero. reflexivity.
Qed.
Lemma moved_real ts : real_tracks (moved_tracks (dN D) U ts)
  = flat_map (fun t => map (fun y => Track (tk_amplitude t * fst y)%C (tk_boson t) (snd y)) (filter (fun y => nz (fst y)) (reroutes (dN D) U (tk_photons t)))) (real_tracks ts).
Proof.
  unfold real_tracks, moved_tracks. induction ts as [|t ts IH]; [reflexivity|]. cbn [flat_map filter]. rewrite filter_app, IH, filter_map. cbn [tk_amplitude]. destruct (nz (tk_amplitude t)) eqn:Et.
  - cbn [flat_map]. f_equal. f_equal. apply filter_ext. intro y. rewrite nz_mult, Et. reflexivity.
  - rewrite (filter_ext _ (fun _ => false)) by (intro y; now rewrite nz_mult, Et). rewrite filter_none. reflexivity.
Qed.
Lemma moved_bundle st b ts : stands sg st b ts ->
  bundle_ok D eps ncl (sent_bundle F b) /\
  exists g, split_columns eps ncl (bundle_group (sent_bundle F b)) = Some g /\ photon_group D eps ncl (s_init st, g) /\
    g_id g = bd_group b /\ stands next_phase st (group_bundle (s_init st) g) (moved_tracks (dN D) U ts).
Proof.
  intros [S1 S2 S3 S4 S5 S6]. pose proof (sent_ok st b S4 S5) as Hok. split; [exact Hok|].
  destruct (bundle_readable D eps ncl _ Hok) as [[Hgo _] Hfine]. cbn [fst snd] in Hgo.
  destruct (split_columns_spec eps ncl _ He Hgo Hfine) as (g & E & E1 & E2 & E3 & E4 & E5 & E6). exists g. split; [exact E|].
  assert (Hcol : forall c, In c (group_columns g) -> exists r t, In r (bd_rays b) /\ In t (terms (map (fun x => F (sp_state x)) (ry_states r))) /\
     col_amp c = (ry_amplitude r * fst t)%C /\ col_boson c = ry_boson r /\ Forall2 (fun x s => moved_core x (core_of s)) (ry_states r) (col_states c) /\ map core_of (col_states c) = snd t).
  { intros c Hc. assert (Hin : In (column_ess c) (group_terms (bundle_group (sent_bundle F b)))) by (apply (Permutation_in _ E6), in_map, Hc).
    unfold group_terms, group_columns, bundle_group in Hin. cbn [g_cols sent_bundle bd_rays] in Hin. rewrite map_map in Hin. cbn [snd] in Hin. rewrite map_map in Hin. apply in_flat_map in Hin. destruct Hin as (cc & Hcc & Hin). apply in_map_iff in Hcc. destruct Hcc as (r & <- & Hr).
    unfold expand in Hin. apply in_map_iff in Hin. destruct Hin as (t & Et & Ht). cbn [ray_column sent_ray ry_states col_states col_amp col_boson col_cum ry_amplitude ry_boson] in Et, Ht. rewrite map_map in Ht.
    exists r, t. split; [exact Hr|]. split; [exact Ht|]. unfold column_ess in Et.
    pose proof (f_equal (fun e : ess => fst (fst (fst e))) Et) as T1. pose proof (f_equal (fun e : ess => snd (fst (fst e))) Et) as T2. pose proof (f_equal (fun e : ess => snd e) Et) as T3. cbn [fst snd] in T1, T2, T3.
    split; [now symmetry|]. split; [now symmetry|]. split; [|now symmetry].
    pose proof (terms_cores (ry_states r) t) as HT. assert (Hst : Forall (stood sg) (ry_states r)) by (pose proof (proj1 (Forall_forall _ _) S5 r Hr) as Z; revert Z; apply Forall_impl; intros x Hx; apply Hx).
    specialize (HT Hst Ht). rewrite T3 in HT. clear -HT. revert HT. generalize (ry_states r). induction (col_states c) as [|s l IH]; intros l0 HT; inversion HT; subst; constructor; auto. }
  assert (Hstate : forall c s, In c (group_columns g) -> In s (col_states c) -> standing next_phase st (as_lit s) /\ s_init s = s_init st /\ probs_ok s /\ exists t, photon_of s = Some t).
  { intros c s Hc Hs. destruct (Hcol c Hc) as (r & t & Hr & Ht & _ & _ & HF2 & _). destruct (Forall2_in_r_ex _ _ _ _ HF2 Hs) as (x & Hx & Hm).
    pose proof (proj1 (Forall_forall _ _) (proj1 (Forall_forall _ _) S5 r Hr) x Hx) as Hstd. destruct (moved_state st x s Hstd Hm) as (M1 & _ & _ & M4 & M5 & M6).
    split; [exact M1|]. split; [|split; [exact M6|now exists (snd x)]]. rewrite M4. destruct S4 as (_ & _ & HR). pose proof (proj1 (Forall_forall _ _) HR r Hr) as (_ & _ & _ & _ & R5). pose proof (proj1 (Forall_forall _ _) R5 x Hx) as (_ & _ & I & _). rewrite <- S1. exact I. }
  assert (Hne : forall c, In c (group_columns g) -> col_states c <> []).
  { intros c Hc Z. destruct (Hcol c Hc) as (r & t & Hr & _ & _ & _ & HF2 & _). rewrite Z in HF2. inversion HF2 as [E0|]. destruct S4 as (_ & _ & HR). pose proof (proj1 (Forall_forall _ _) HR r Hr) as (_ & _ & R3 & _). apply R3. now symmetry. }
  assert (Hcols : group_columns g <> []).
  { intro Z. rewrite Z in E6. cbn [map] in E6. apply Permutation_nil in E6. destruct S4 as (N1 & _ & HR). destruct (bd_rays b) as [|r rs] eqn:Er; [now apply N1|].
    unfold group_terms, group_columns, bundle_group in E6. cbn [g_cols sent_bundle bd_rays] in E6. rewrite Er in E6. cbn [map flat_map snd] in E6. apply app_eq_nil in E6. destruct E6 as [E6 _]. unfold expand in E6. apply map_eq_nil in E6.
    cbn [ray_column sent_ray ry_states col_states] in E6. rewrite map_map in E6. pose proof (Forall_inv S5) as Hrs. assert (Hst : Forall (stood sg) (ry_states r)) by (revert Hrs; apply Forall_impl; intros x Hx; apply Hx).
    pose proof (Permutation_length (terms_moved _ Hst)) as HLen. unfold sp_state in HLen. rewrite map_length in HLen. cbn [sp_state] in E6. unfold sp_state in E6. cbn [fst snd] in E6. rewrite E6 in HLen. cbn [length] in HLen. rewrite map_length in HLen.
    assert (Hpos : forall l, Forall (fun p => fst p < dN D) l -> filter (fun y : C * list (nat * (R * R)) => nz (fst y)) (reroutes (dN D) U l) <> []).
    { induction l as [|p l IH]; intro Hl; [cbn [reroutes filter]; assert (N : nz (fst (RtoC 1, @nil (nat * (R * R)))) = true) by (apply nz_spec; intro X; apply RtoC_inj in X; lra); rewrite N; discriminate|].
      rewrite filter_reroutes. pose proof (open_nonempty (fst p) (Forall_inv Hl)) as On. destruct (open (fst p)) as [|c cs]; [contradiction|]. cbn [flat_map]. intro Q. apply app_eq_nil in Q. destruct Q as [Q _]. apply map_eq_nil in Q. exact (IH (Forall_inv_tail Hl) Q). }
    apply (Hpos (photons_in (ry_states r))); [|destruct (filter _ _); [reflexivity|discriminate HLen]].
    apply Forall_forall. intros p Hp. unfold photons_in in Hp. apply in_map_iff in Hp. destruct Hp as (x & <- & Hx). apply filter_In in Hx. destruct Hx as [Hx Hb]. pose proof (proj1 (Forall_forall _ _) Hst x Hx) as (_ & _ & K). rewrite Hb in K. destruct K as (c & Hc & Ec). cbn [fst]. destruct (spot_photon _ c _ Hc Ec) as [-> _]. exact Hc. }
  split; [|split; [exact E1|]].
  - split; [split; [exact E3|split; [|split]]|]; cbn [fst snd].
    + intro Z. apply Hcols. unfold group_columns. now rewrite Z.
    + apply Forall_forall. intros kc Hkc. apply Hne. unfold group_columns. now apply in_map.
    + apply Forall_forall. intros kc Hkc. apply Forall_forall. intros s Hs. apply (Hstate (snd kc)); [unfold group_columns; now apply in_map|exact Hs].
    + apply Forall_forall. intros c Hc. apply Forall_forall. intros s Hs. destruct (Hstate c s Hc Hs) as (((_ & H2 & H3) & H4 & _) & _ & H6 & _). unfold as_lit, sp_state in H2, H3, H4. cbn [fst snd] in H2, H3, H4.
      split; [exact H2|]. split; [rewrite H4; exact S3|]. destruct (_ =? 1).
      * destruct H3 as (c' & Hc' & Ec). exists (one_photon (dN D) c'), (next_phase c'). split; [now apply one_photon_valid|]. split; [rewrite (proj1 (proj2 (one_facts _ _ Hc'))); lia|]. rewrite next_phase_unit. exact Ec.
      * destruct H3 as (a & Ha & Ec). exists (repeat 0 (dN D)), a. split; [apply zero_valid; lia|]. split; [rewrite <- channels_length, <- channels_of_spec, channels_zero; cbn; lia|]. rewrite Ha. exact Ec.
  - constructor.
    + reflexivity.
    + cbn [group_bundle bd_weight]. rewrite E2. exact S2.
    + exact S3.
    + split; [|split].
      * cbn [group_bundle bd_rays]. intro Z. apply map_eq_nil in Z. exact (Hcols Z).
      * cbn [group_bundle bd_rays]. rewrite map_map. change (NoDup (map col_id (group_columns g))). rewrite (group_keys g E3). apply E3.
      * cbn [group_bundle bd_rays]. apply Forall_map. apply Forall_forall. intros c Hc. destruct (Hcol c Hc) as (r & t & Hr & Ht & A1 & A2 & A3 & A4).
        destruct S4 as (_ & _ & HR). pose proof (proj1 (Forall_forall _ _) HR r Hr) as (R1 & R2 & R3 & R4 & _).
        unfold ray_ok, column_ray. cbn [ry_amplitude ry_boson ry_states ry_number]. split; [|split; [rewrite A2; exact R2|split; [intro Z; apply map_eq_nil in Z; exact (Hne c Hc Z)|split]]].
        -- rewrite A1. apply Cmult_nonzero; [exact R1|]. assert (Hst : Forall (stood sg) (ry_states r)) by (pose proof (proj1 (Forall_forall _ _) S5 r Hr) as Z; revert Z; apply Forall_impl; intros x Hx; apply Hx).
           pose proof (terms_moved _ Hst) as HP. assert (Hin : In (seen t) (map seen (terms (map (fun x => F (sp_state x)) (ry_states r))))) by now apply in_map.
           apply (Permutation_in _ HP) in Hin. apply in_map_iff in Hin. destruct Hin as (y & Ey & Hy). apply filter_In in Hy. destruct Hy as [_ Hy]. apply nz_spec in Hy. intro Z. unfold seen in Ey. rewrite Z in Ey. apply (f_equal fst) in Ey. cbn [sent_to fst] in Ey. 
           rewrite Cmult_0_l in Ey. revert Ey. apply Cmult_nonzero; [|exact Hy]. unfold start_phase. intro Z2. assert (Hn : Cnorm2 (Cprod (photons_in (ry_states r)) (fun p => mu * sg (fst p))%C) = 1%R).
           { apply Cprod_unit. intros p Hp. unfold photons_in in Hp. apply in_map_iff in Hp. destruct Hp as (x & <- & Hx). apply filter_In in Hx. destruct Hx as [Hx Hb]. pose proof (proj1 (Forall_forall _ _) Hst x Hx) as (_ & _ & K). rewrite Hb in K. destruct K as (k & Hk & Ec). cbn [fst]. destruct (spot_photon _ k _ Hk Ec) as [-> _]. rewrite Cnorm2_mult, Hmu, Hsg by exact Hk. ring. }
           rewrite Z2, Cnorm2_zero in Hn. lra.
        -- unfold ray_branch in *. cbn [br_photons ry_states] in *. rewrite map_length in *. assert (HLen : length (filter (fun x : bool * state * (R * R) => fst (fst x)) (map as_lit (col_states c))) = length (filter (fun x : bool * state * (R * R) => fst (fst x)) (ry_states r))); [|now rewrite HLen].
           pose proof (proj1 (Forall_forall _ _) S5 r Hr) as Hst. cbn beta in Hst. clear -A3 Hst HF HL Hsg HU HN He Hmu.
           assert (G : forall l1 l2, Forall2 (fun x s => moved_core x (core_of s)) l1 l2 -> Forall (standing sg st) l1 -> length (filter (fun x : bool * state * (R * R) => fst (fst x)) (map as_lit l2)) = length (filter (fun x : bool * state * (R * R) => fst (fst x)) l1)); [|exact (G _ _ A3 Hst)].
           clear A3 Hst. intros l1 l2 A3. induction A3 as [|x s l l' Hm _ IH]; intro Hst; [reflexivity|]. cbn [map filter].
           destruct (moved_state st x s (Forall_inv Hst) Hm) as (_ & -> & _). destruct (fst (fst x)); cbn [length]; now rewrite (IH (Forall_inv_tail Hst)).
        -- apply Forall_map. apply Forall_forall. intros s Hs. cbv zeta. destruct (Hstate c s Hc Hs) as (((H1 & H2 & H3) & H4 & _) & H5 & H6 & tm & H7). unfold sp_state in *. unfold as_lit in *. cbn [fst snd] in *. split; [exact H2|]. split; [exact H6|]. split; [exact H5|]. split.
           ++ destruct (_ =? 1); [|destruct H3 as (a & _ & Ec); exists (a, 1%R); exact Ec]. destruct H3 as (k & Hk & Ec). unfold lit. rewrite Ec. split; [discriminate|]. split; [cbn [map]; constructor; [exact (fun z => z)|constructor]|]. split; [|cbn; lia]. intros nm [<-|[]]. exists k. split; [exact Hk|reflexivity].
           ++ destruct E3 as [_ E3]. unfold group_columns in Hc. apply in_map_iff in Hc. destruct Hc as ([k0 c0] & Ec0 & Hkc). cbn [snd] in Ec0. subst c0. pose proof (proj1 (Forall_forall _ _) E3 _ Hkc) as (_ & G2 & G3 & G4). cbn [snd] in G2, G3, G4. unfold stamped in G4. pose proof (proj1 (Forall_forall _ _) G4 s Hs) as G5. cbn beta in G5.
              rewrite H7 in G5 |- *. cbn [or_else group_bundle bd_group bd_weight]. rewrite G2, G3 in G5. unfold resolution_of in G5. destruct (dget aux_eqb AuxPhotonResolution (s_aux s)) as [v|]; [|discriminate]. destruct v; congruence.
    + cbn [group_bundle bd_rays]. apply Forall_map. apply Forall_forall. intros c Hc. cbn [column_ray ry_states]. apply Forall_map. apply Forall_forall. intros s Hs. apply (Hstate c s Hc Hs).
    + cbn [group_bundle bd_rays]. rewrite map_map.
      transitivity (map ess_track (map column_ess (group_columns g))).
      { apply Permutation_refl'. etransitivity; [|symmetry; apply map_map]. apply map_ext_in. intros c Hc. unfold ray_track, ess_track, column_ess. cbn [column_ray ry_states ry_amplitude ry_boson fst snd].
        rewrite (lit_photons_in next_phase) by (apply Forall_forall; intros s Hs; apply (Hstate c s Hc Hs)). f_equal. f_equal. rewrite Cprod_map. reflexivity. }
      etransitivity; [apply Permutation_map; exact E6|]. rewrite moved_real.
      etransitivity; [|apply flat_map_perm; exact S6]. unfold group_terms, group_columns, bundle_group. cbn [g_cols sent_bundle bd_rays]. rewrite !map_map. cbn [snd]. rewrite !flat_mapped, map_flat. apply perm_flat_map. intros r Hr.
      cbn [ray_track tk_amplitude tk_boson tk_photons]. unfold expand. cbn [ray_column sent_ray ry_states col_states col_amp col_boson col_cum ry_amplitude ry_boson]. rewrite !map_map.
      assert (Hst : Forall (stood sg) (ry_states r)) by (pose proof (proj1 (Forall_forall _ _) S5 r Hr) as Z; revert Z; apply Forall_impl; intros x Hx; apply Hx).
      pose proof (Permutation_map (fun z : C * list (nat * option (R * R)) => Track (ry_amplitude r * fst z)%C (ry_boson r) (map (fun p => (fst p, or_else (snd p) (0%R, 1%R))) (snd z))) (terms_moved _ Hst)) as HP.
      rewrite !map_map in HP. etransitivity; [|etransitivity; [exact HP|]].
      * apply Permutation_refl'. apply map_ext. intro t. unfold ess_track, seen. cbn [fst snd]. f_equal. ring.
      * apply Permutation_refl'. apply map_ext. intro y. unfold sent_to, start_phase. cbn [fst snd]. rewrite map_map. cbn [fst snd or_else]. f_equal; [ring|]. rewrite <- (map_id (snd y)) at 2. apply map_ext. intros [a b']. reflexivity.
Qed.
End Step.
