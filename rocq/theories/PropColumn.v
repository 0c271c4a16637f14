(** C44: decomposition of states in columns of single photons.
    Read with ColumnModel.v (model) and ColumnSpec.v (factorials, occupation). *)
From Coq Require Import Reals List Arith Lia Lra Bool Permutation.
From Coquelicot Require Import Complex.
From Verif Require Import Prelude NamesModel NamesSpec NamesProofs FockModel FockProofs StateModel StateSpec StateProofs
  CollectionModel EvalModel PropMeasure PropCollection ColumnModel ColumnSpec ColumnProofs.
Import ListNotations.

(** The decomposition keeps the photons of a column (channels and photon information, in the same
    order), leaves at most one photon per state, multiplies the boson factor by the square roots
    of the factorials of the photon numbers and changes nothing else of the column. *)
Theorem C44_single_photon_states D eps ncl c : 1 <= dN D ->
  Forall (fun st => check_state eps ncl st = true) (col_states c) ->
  Forall (fun st => exists vs a p, valid D vs /\ s_comps st = [(name_string D vs, (a, p))]) (col_states c) ->
  exists c', single_photon_column D eps ncl c = Some c' /\
    list_of_photons D c' = list_of_photons D c /\
    Forall (fun st => exists vs a p, valid D vs /\ photons vs <= 1 /\ s_comps st = [(name_string D vs, (a, p))]) (col_states c') /\
    col_boson c' = (col_boson c * sqrt (INR (fold_right Nat.mul 1%nat (map (fun st => factorials (first_values D st)) (col_states c)))))%R /\
    col_id c' = col_id c /\ col_amp c' = col_amp c /\ col_group c' = col_group c /\ col_cum c' = col_cum c.
Proof.
  intros HN Hc Ho. exists (resolved_column D c). split; [apply single_photon_column_spec; assumption|].
  split; [apply resolved_photons; assumption|]. split; [|repeat split].
  unfold resolved_column, make_column; cbn [col_states]. apply Forall_map.
  assert (H : Forall (at_most_one D) (flat_map (parts_of D) (col_states c))).
  { induction Ho as [|st l H _ IH]; [constructor|]. cbn [flat_map]. apply Forall_app. split; [apply parts_small; assumption|].
    apply IH. exact (Forall_inv_tail Hc). }
  revert H. apply Forall_impl. intros st [vs [a [p [H1 [H2 H3]]]]]. exists vs, a, p. split; [exact H1|]. split; [exact H2|exact H3].
Qed.

Lemma factorials_product D (l : list state) : Forall (at_most_one D) l ->
  product (map (fun st => factorials (first_values D st)) l) = 1.
Proof.
  induction 1 as [|st l [vs [a [p [H1 [H2 H3]]]]] _ IH]; [reflexivity|]. cbn [map product fold_right]. unfold product in IH. rewrite IH.
  rewrite (first_values_one D st vs a p H1 H3), Nat.mul_1_r. apply factorials_small.
  clear -H2. induction vs as [|v vs IH]; constructor; cbn in H2; [lia|apply IH; lia].
Qed.

(** One state with one component: single photons and back. *)
Theorem C44_condense_restores D eps ncl c st vs a : 1 <= dN D ->
  col_states c = [st] -> check_state eps ncl st = true -> valid D vs -> s_comps st = [(name_string D vs, (a, Cnorm2 a))] ->
  (0 <= col_cum c * Cnorm2 (col_amp c) <= 1)%R ->
  exists c' c'' st', single_photon_column D eps ncl c = Some c' /\ condense D eps ncl true c' = Some c'' /\
    length (col_states c') = Nat.max 1 (photons vs) /\
    col_boson c' = (col_boson c * sqrt (INR (factorials vs)))%R /\
    col_states c'' = [st'] /\ s_comps st' = [(name_string D vs, (RtoC 1, 1%R))] /\
    s_cum st' = (col_cum c * Cnorm2 (col_amp c))%R /\
    col_boson c'' = col_boson c /\ col_amp c'' = col_amp c /\ col_cum c'' = col_cum c.
Proof.
  intros HN Hst Hck Hv Hs Hu.
  assert (Ho : Forall (one_component D) (col_states c)) by (rewrite Hst; apply Forall_cons; [exists vs, a, (Cnorm2 a); split; assumption|constructor]).
  assert (Hc : Forall (fun st => check_state eps ncl st = true) (col_states c)) by (rewrite Hst; apply Forall_cons; [exact Hck|constructor]).
  set (c' := resolved_column D c).
  assert (Hsm : Forall (at_most_one D) (flat_map (parts_of D) (col_states c))).
  { rewrite Hst. cbn [flat_map]. rewrite app_nil_r. apply parts_small; [exact HN|exact (Forall_inv ltac:(rewrite Hst in Ho; exact Ho))]. }
  assert (Hocc : column_occ D c' = vs).
  { unfold column_occ, c'. rewrite (resolved_photons D c HN Ho). unfold list_of_photons. rewrite Hst. cbn [flat_map]. rewrite app_nil_r, map_map. cbn [fst]. rewrite map_id.
    rewrite (first_values_one D st vs a (Cnorm2 a) Hv Hs). apply occupation_channels. exact (proj1 Hv). }
  assert (Hparts : parts_of D st = parts D st vs a).
  { unfold parts_of. rewrite (first_values_one D st vs a (Cnorm2 a) Hv Hs). unfold first_amp. rewrite Hs. reflexivity. }
  assert (Hne : rev (col_states c') <> []).
  { unfold c', resolved_column, make_column; cbn [col_states]. rewrite Hst. cbn [flat_map]. rewrite app_nil_r. intro Z.
    apply (f_equal (@rev _)) in Z. rewrite rev_involutive in Z. apply map_eq_nil in Z. revert Z. apply parts_nonempty; [exact HN|]. exists vs, a, (Cnorm2 a). split; assumption. }
  destruct (rev (col_states c')) as [|s0 sts] eqn:Hrev; [congruence|].
  assert (Hck' : Forall (fun st => check_state eps ncl st = true) (col_states c') -> exists c'', condense D eps ncl true c' = Some c'' /\ exists st', col_states c'' = [st'] /\ s_comps st' = [(name_string D vs, (RtoC 1, 1%R))] /\
    s_cum st' = (col_cum c * Cnorm2 (col_amp c))%R /\ col_boson c'' = col_boson c /\ col_amp c'' = col_amp c /\ col_cum c'' = col_cum c).
  { intro Hck'. rewrite (condense_spec D eps ncl true c' s0 sts Hrev Hck').
    - rewrite Hocc. eexists. split; [reflexivity|]. eexists. split; [reflexivity|]. split; [reflexivity|]. split; [reflexivity|].
      split; [|split; reflexivity]. unfold c', resolved_column, make_column; cbn [col_boson col_states].
      rewrite (factorials_product D (map _ (flat_map (parts_of D) (col_states c)))) by (apply Forall_map; exact Hsm). rewrite Hst. cbn [map product fold_right]. rewrite (first_values_one D st vs a (Cnorm2 a) Hv Hs), Nat.mul_1_r.
      cbn [INR]. rewrite sqrt_1, Rmult_1_r. field. pose proof (factorials_pos vs). apply lt_INR in H. cbn in H. pose proof (sqrt_lt_R0 _ H). lra.
    - unfold c', resolved_column, make_column; cbn [col_states]. apply Forall_map. revert Hsm. apply Forall_impl. intros s Hs'. apply (one_component_core D s); [symmetry; apply core_stamp|]. apply at_most_one_component. exact Hs'.
    - rewrite Hocc. exact Hv.
    - intros _. exact Hu. }
  destruct Hck' as [c'' [H1 [st' [H2 [H3 [H4 H5]]]]]].
  2:{ exists c', c'', st'. split; [apply single_photon_column_spec; assumption|]. split; [exact H1|]. split; [|split; [|split; [exact H2|split; [exact H3|split; [exact H4|exact H5]]]]].
      - unfold c', resolved_column, make_column; cbn [col_states]. rewrite map_length, Hst. cbn [flat_map]. rewrite app_nil_r, Hparts. unfold parts.
        destruct (0 <? sum_values vs) eqn:E; [apply Nat.ltb_lt in E|apply Nat.ltb_ge in E]; rewrite sum_values_photons in E.
        + rewrite map_length, photon_channels_pc, pc_length. lia.
        + cbn [length]. lia.
      - unfold c', resolved_column, make_column; cbn [col_boson]. rewrite Hst. cbn [map product fold_right]. rewrite (first_values_one D st vs a (Cnorm2 a) Hv Hs), Nat.mul_1_r. reflexivity. }
  unfold c', resolved_column, make_column; cbn [col_states]. rewrite Hst. cbn [flat_map]. rewrite app_nil_r, Hparts. apply Forall_map.
  apply check_state_iff in Hck. destruct Hck as [K1 [K2 K3]]. rewrite Hs in K2. pose proof (Forall_inv K2) as K4. cbn in K4.
  assert (G : forall nm, check_state eps ncl (with_comps st [(nm, (a, Cnorm2 a))]) = true).
  { intro nm. apply check_state_iff. cbn. split; [exact K1|]. split; [|exact K3]. apply Forall_cons; [exact K4|constructor]. }
  unfold parts. destruct (0 <? sum_values vs).
  - apply Forall_map. apply Forall_forall. intros x _. rewrite stamp_check. apply G.
  - apply Forall_cons; [rewrite stamp_check; apply G|constructor].
Qed.

(** *** A state, its columns, its photons and back *)
Lemma ddel_absent k (d : list (auxkey * auxval)) : (forall x, ~ In (k, x) d) -> ddel aux_eqb k d = d.
Proof.
  unfold ddel. induction d as [|[k' v] d IH]; intro H; [reflexivity|]. cbn [filter fst].
  destruct (aux_eqb k k') eqn:E.
  - apply aux_eqb_spec in E. subst k'. exfalso. apply (H v). left. reflexivity.
  - cbn [negb]. rewrite IH; [reflexivity|]. intros x Hx. apply (H x). right. exact Hx.
Qed.
Lemma absent_resolution st : (forall x, ~ In (AuxPhotonResolution, x) (s_aux st)) -> resolution_of st = None.
Proof.
  intro H. unfold resolution_of. destruct (dget aux_eqb AuxPhotonResolution (s_aux st)) as [v|] eqn:E; [|reflexivity].
  apply (dget_some_in aux_eqb aux_eqb_spec) in E. exfalso. exact (H v E).
Qed.
Lemma absent_drop st : (forall x, ~ In (AuxPhotonResolution, x) (s_aux st)) -> drop_resolution st = st.
Proof. intro H. unfold drop_resolution. rewrite ddel_absent by exact H. destruct st. reflexivity. Qed.

(** The conditions on a state: a state of the circuit without photon information, accepted by the
    checks of State, with a probability between 0 and 1. *)
Definition plain_state (D : dims) (eps : R) (ncl : nat) (st : state) : Prop :=
  wf_state D st /\ (forall x, ~ In (AuxPhotonResolution, x) (s_aux st)) /\ check_state eps ncl st = true /\ (0 <= s_cum st <= 1)%R.

(** The columns of the state after the split: one per component. *)
Lemma split_of_state D eps ncl st id : (0 <= eps)%R -> plain_state D eps ncl st -> 2 <= length (s_comps st) ->
  Forall (fun c => fst (snd c) <> RtoC 0) (s_comps st) -> state_norm2 st = 1%R ->
  exists g, split_columns eps ncl (group_of_state st id) = Some g /\ g_id g = id /\ g_cum g = s_cum st /\ group_ok g /\ group_fine eps ncl g /\
    Permutation (map column_ess (group_columns g))
      (map (fun c => (fst (snd c), 1%R, s_cum st, [core_with (core_of st) (unit_comp (fst c))])) (s_comps st)).
Proof.
  intros He [Hwf [Hno [Hck Hcum]]] H2 Hnz Hnorm. pose proof (absent_resolution st Hno) as Hr.
  assert (Hsp : splittable eps ncl st) by (split; [exact Hck|split; [intro Z; rewrite Z in H2; cbn in H2; lia|intros _; split; assumption]]).
  destruct (split_columns_spec eps ncl (group_of_state st id) He (group_of_state_ok st id Hr) (group_of_state_fine eps ncl st id Hr Hsp))
    as [g [E [E1 [E2 [E3 [E4 [E5 E6]]]]]]].
  exists g. split; [exact E|]. destruct (group_of_state_plain st id Hr) as [c [Eg _]]. rewrite Eg in E1, E2.
  split; [exact E1|]. split; [exact E2|]. split; [exact E3|]. split; [exact E4|].
  rewrite group_of_state_terms in E6 by exact Hr.
  assert (Q : map (fun x => (fst x, 1%R, s_cum st, [snd x])) (choices st)
              = map (fun c => (fst (snd c), 1%R, s_cum st, [core_with (core_of st) (unit_comp (fst c))])) (s_comps st)).
  { unfold choices. destruct (s_comps st) as [|c1 [|c2 cs]]; [cbn in H2; lia|cbn in H2; lia|]. rewrite map_map. reflexivity. }
  rewrite Q in E6. exact E6.
Qed.

Lemma comps_amplitude (l : list (name * (C * R))) st' : NoDup (map fst l) -> Permutation (s_comps st') (map (fun c => (fst c, (fst (snd c), Cnorm2 (fst (snd c))))) l) ->
  forall nm, amplitude st' nm = match dget leqb nm l with Some ap => fst ap | None => RtoC 0 end.
Proof.
  intros Hnd Hp nm. unfold amplitude.
  assert (Hnd' : NoDup (dkeys (s_comps st'))).
  { unfold dkeys. apply (Permutation_map fst) in Hp. rewrite map_map in Hp. cbn [fst] in Hp. apply (Permutation_NoDup (Permutation_sym Hp)). exact Hnd. }
  destruct (dget leqb nm l) as [[a p]|] eqn:E.
  - apply (dget_some_in leqb leqb_spec) in E. rewrite (dget_in leqb leqb_spec nm (a, Cnorm2 a)); [reflexivity|exact Hnd'|].
    apply (Permutation_in _ (Permutation_sym Hp)). apply in_map_iff. exists (nm, (a, p)). split; [reflexivity|exact E].
  - apply (dget_none_iff leqb leqb_spec) in E. destruct (dget leqb nm (s_comps st')) as [v|] eqn:E2; [|reflexivity]. exfalso. apply E.
    apply (dget_some_in leqb leqb_spec) in E2. apply (Permutation_in _ Hp) in E2. apply in_map_iff in E2. destruct E2 as [c [Hc Hin]].
    apply (f_equal fst) in Hc. cbn in Hc. subst nm. unfold dkeys. apply in_map. exact Hin.
Qed.

Section Roundtrip.
Variables (D : dims) (eps : R) (ncl : nat) (st : state) (id : nat).
Hypothesis (HN : 1 <= dN D) (He : (0 <= eps)%R) (Hst : plain_state D eps ncl st) (H2 : 2 <= length (s_comps st)).
Hypothesis (Hnz : Forall (fun c => fst (snd c) <> RtoC 0) (s_comps st)) (Hnorm : state_norm2 st = 1%R).

Definition restores (st' : state) : Prop :=
  (forall nm, amplitude st' nm = amplitude st nm) /\ same_but_components st st'.

Lemma amp_le_1 c : In c (s_comps st) -> (Cnorm2 (fst (snd c)) <= 1)%R.
Proof.
  intro Hc. rewrite <- Hnorm. unfold state_norm2. apply in_split in Hc. destruct Hc as [l1 [l2 ->]]. rewrite Rsum_app, Rsum_cons.
  pose proof (Rsum_nonneg l1 (fun c => Cnorm2 (fst (snd c))) ltac:(intros; apply Cnorm2_nonneg)).
  pose proof (Rsum_nonneg l2 (fun c => Cnorm2 (fst (snd c))) ltac:(intros; apply Cnorm2_nonneg)). lra.
Qed.
Lemma comp_valid c : In c (s_comps st) -> exists vs, valid D vs /\ fst c = name_string D vs.
Proof. intro Hc. destruct Hst as [[_ H] _]. apply H. apply in_map. exact Hc. Qed.

(** Any group with one column per component, whose columns have the photons of the components. *)
Lemma group_restores g : group_ok g -> group_fine eps ncl g -> g_cum g = s_cum st ->
  Permutation (map (fun c => (name_string D (column_occ D c), col_amp c)) (group_columns g)) (map (fun c => (fst c, fst (snd c))) (s_comps st)) ->
  Forall (fun c => col_states c <> [] /\ Forall (one_component D) (col_states c) /\ Forall (fun s => frame s = frame st) (col_states c) /\ valid D (column_occ D c)) (group_columns g) ->
  exists st', group_state D eps ncl g = Some st' /\ restores st'.
Proof.
  intros Hok Hf Hc Hp Hall. pose proof Hst as [Hwf [Hno [Hck Hcum]]].
  destruct (group_state_spec D eps ncl g (frame st) He Hok Hf) as [comps [E Hpc]].
  - intro Z. unfold group_columns in Hp. rewrite Z in Hp. cbn in Hp. apply Permutation_nil in Hp. apply map_eq_nil in Hp. rewrite Hp in H2. cbn in H2. lia.
  - apply Forall_forall. intros c Hcol. destruct (proj1 (Forall_forall _ _) Hall c Hcol) as [K1 [K2 [K3 K4]]].
    split; [exact K1|]. split; [exact K2|]. split; [exact K3|]. split; [exact K4|].
    assert (Hin : In (name_string D (column_occ D c), col_amp c) (map (fun c => (fst c, fst (snd c))) (s_comps st))).
    { apply (Permutation_in _ Hp). apply in_map_iff. exists c. split; [reflexivity|exact Hcol]. }
    apply in_map_iff in Hin. destruct Hin as [d [Hd1 Hd2]]. rewrite <- (f_equal snd Hd1 : fst (snd d) = col_amp c). apply amp_le_1. exact Hd2.
  - apply (Permutation_map fst) in Hp. rewrite !map_map in Hp. cbn [fst] in Hp.
    apply NoDup_map_inv with (f := name_string D). rewrite map_map. apply (Permutation_NoDup (Permutation_sym Hp)). exact (proj1 Hwf).
  - rewrite Hc. exact Hcum.
  - eexists. split; [exact E|]. split.
    + intro nm. rewrite (comps_amplitude (s_comps st)).
      * reflexivity.
      * exact (proj1 Hwf).
      * cbn [s_comps with_comps]. etransitivity; [exact Hpc|].
        apply (Permutation_map (fun x => (fst x, (snd x, Cnorm2 (snd x))))) in Hp. rewrite !map_map in Hp. exact Hp.
    + unfold same_but_components. cbn [s_init s_cum s_classical s_results s_aux with_comps with_cum frame].
      rewrite Hc. unfold frame. rewrite (absent_drop st Hno). repeat split.
Qed.

Lemma split_column_facts g : Permutation (map column_ess (group_columns g))
      (map (fun c => (fst (snd c), 1%R, s_cum st, [core_with (core_of st) (unit_comp (fst c))])) (s_comps st)) ->
  Forall (fun c => exists s vs, col_states c = [s] /\ valid D vs /\ core_of s = core_with (core_of st) (unit_comp (name_string D vs)) /\ column_occ D c = vs) (group_columns g).
Proof.
  intro Hp. apply Forall_forall. intros c Hc.
  assert (Hin := in_map column_ess _ _ Hc). apply (Permutation_in _ Hp) in Hin. apply in_map_iff in Hin. destruct Hin as [d [Hd1 Hd2]].
  destruct (comp_valid d Hd2) as [vs [Hv Hn]]. pose proof (f_equal snd Hd1) as Hs. unfold column_ess in Hs; cbn [snd] in Hs.
  destruct (col_states c) as [|s [|? ?]] eqn:E; try discriminate. cbn [map] in Hs.
  assert (Hs' : core_of s = core_with (core_of st) (unit_comp (name_string D vs))) by (rewrite <- Hn; congruence).
  exists s, vs. split; [reflexivity|]. split; [exact Hv|]. split; [exact Hs'|].
  unfold column_occ, list_of_photons. rewrite E. cbn [flat_map]. rewrite app_nil_r, map_map. cbn [fst]. rewrite map_id.
  assert (Hcs : s_comps s = [(name_string D vs, (RtoC 1, 1%R))]) by exact (f_equal (fun k => s_comps (fst k)) Hs').
  rewrite (first_values_one D s vs _ _ Hv Hcs). apply occupation_channels. exact (proj1 Hv).
Qed.
Lemma core_unit_facts s vs : valid D vs -> core_of s = core_with (core_of st) (unit_comp (name_string D vs)) ->
  one_component D s /\ frame s = frame st /\ probs_ok s /\ check_state eps ncl s = true.
Proof.
  intros Hv H. assert (Hcs : s_comps s = [(name_string D vs, (RtoC 1, 1%R))]) by exact (f_equal (fun k => s_comps (fst k)) H).
  split; [exists vs, (RtoC 1), 1%R; split; assumption|]. split; [|split].
  - unfold frame. rewrite (f_equal fst H : drop_resolution s = _). cbn [fst core_with core_of].
    change (drop_resolution (with_comps (drop_resolution st) (unit_comp (name_string D vs)))) with (with_comps (drop_resolution (drop_resolution st)) (unit_comp (name_string D vs))).
    reflexivity.
  - intros nm a p Hin. rewrite Hcs in Hin. destruct Hin as [Z|[]]. assert (a = RtoC 1 /\ p = 1%R) as [-> ->] by (split; congruence). rewrite Cnorm2_RtoC. ring.
  - transitivity (check_state eps ncl (with_comps st (unit_comp (name_string D vs)))); [exact (f_equal (fun k => check_state eps ncl (fst k)) H)|].
    apply check_unit; [exact He|]. destruct Hst as [_ [_ [Hck _]]]. exact Hck.
Qed.
Lemma amp_perm g : Permutation (map column_ess (group_columns g))
      (map (fun c => (fst (snd c), 1%R, s_cum st, [core_with (core_of st) (unit_comp (fst c))])) (s_comps st)) ->
  Permutation (map (fun c => (name_string D (column_occ D c), col_amp c)) (group_columns g)) (map (fun c => (fst c, fst (snd c))) (s_comps st)).
Proof.
  intro Hp. apply (Permutation_map (fun e => (name_string D (ess_occ_of D e), ess_amp e))) in Hp. rewrite !map_map in Hp.
  rewrite (map_ext (fun c => (name_string D (column_occ D c), col_amp c)) (fun x => (name_string D (ess_occ_of D (column_ess x)), ess_amp (column_ess x)))) by (intro; rewrite column_occ_ess; reflexivity).
  etransitivity; [exact Hp|]. apply Permutation_refl'. apply map_ext_in. intros d Hd. destruct (comp_valid d Hd) as [vs [Hv Hn]].
  unfold ess_amp; cbn [fst]. f_equal. unfold ess_occ_of; cbn [snd]. unfold core_photons. cbn [flat_map]. rewrite app_nil_r, map_map. cbn [fst]. rewrite map_id.
  rewrite Hn. f_equal. unfold core_values, core_with; cbn [fst]. unfold unit_comp. rewrite (first_values_with D _ vs _ _ Hv). apply occupation_channels. exact (proj1 Hv).
Qed.

Lemma roundtrip_columns : exists st', group_state D eps ncl (group_of_state st id) = Some st' /\ restores st'.
Proof.
  pose proof (absent_resolution st (proj1 (proj2 Hst))) as Hr.
  destruct (split_of_state D eps ncl st id He Hst H2 Hnz Hnorm) as [g [E [Hid [Hc [Hok [Hf Hp]]]]]].
  pose proof (split_column_facts g Hp) as Hfacts.
  destruct (group_restores g Hok Hf Hc (amp_perm g Hp)) as [st' [Es Hres]].
  - revert Hfacts. apply Forall_impl. intros c [s [vs [K1 [K2 [K3 K4]]]]]. destruct (core_unit_facts s vs K2 K3) as [L1 [L2 [L3 L4]]]. rewrite K1, K4.
    split; [discriminate|]. split; [apply Forall_cons; [exact L1|constructor]|]. split; [apply Forall_cons; [exact L2|constructor]|exact K2].
  - exists st'. split; [|exact Hres]. unfold group_state in *. rewrite E.
    assert (Hid2 : split_columns eps ncl g = Some g).
    { unfold split_columns. destruct (split_one_spec eps ncl (g_id g) (g_cum g) (g_cols g) He Hf (proj2 Hok)) as [[E1 _]|[cols' [new [E1 [E2 [E3 [E4 [E5 _]]]]]]]].
      - destruct (fold_right Nat.add 0 _); cbn [split_loop]; rewrite E1; reflexivity.
      - exfalso. assert (Hs : forall cols, Forall (fun c => Forall single (col_states c)) (map snd cols) -> forall x y, split_one eps ncl cols <> Some (Some (x, y))).
        { clear. induction cols as [|[k c] r IH]; intros H x y; [discriminate|]. cbn [split_one].
          assert (Hn : split_first (col_states c) = Some None).
          { pose proof (Forall_inv H) as H1. cbn [snd] in H1. induction H1 as [|s l [d Hd] _ IHl]; [reflexivity|]. cbn [split_first]. rewrite Hd, IHl. reflexivity. }
          unfold split_column. rewrite Hn. specialize (IH (Forall_inv_tail H)).
          destruct (split_one eps ncl r) as [[[r' new]|]|]; [exfalso; exact (IH r' new eq_refl)|discriminate|discriminate]. }
        apply (Hs (g_cols g)) in E1; [exact E1|]. revert Hfacts. apply Forall_impl. intros c [s [vs [K1 [K2 [K3 K4]]]]].
        destruct (core_unit_facts s vs K2 K3) as [L1 _]. rewrite K1. apply Forall_cons; [exact (one_component_single D s L1)|constructor]. }
    rewrite Hid2 in Es. exact Es.
Qed.

Lemma roundtrip_photons : exists g g' st', split_columns eps ncl (group_of_state st id) = Some g /\
  single_photon_group D eps ncl g = Some g' /\ group_state D eps ncl g' = Some st' /\ restores st'.
Proof.
  destruct (split_of_state D eps ncl st id He Hst H2 Hnz Hnorm) as [g [E [Hid [Hc [Hok [Hf Hp]]]]]].
  pose proof (split_column_facts g Hp) as Hfacts.
  set (g' := Group (g_id g) (g_cum g) (map (fun kc => (fst kc, resolved_column D (snd kc))) (g_cols g))).
  assert (Hcols : group_columns g' = map (resolved_column D) (group_columns g)) by (unfold g', group_columns; cbn [g_cols]; rewrite !map_map; reflexivity).
  assert (Hfull : Forall (fun c => Forall (fun st => check_state eps ncl st = true) (col_states c) /\ Forall (one_component D) (col_states c) /\ Forall probs_ok (col_states c) /\ Forall (fun s => frame s = frame st) (col_states c) /\ col_states c <> []) (group_columns g)).
  { revert Hfacts. apply Forall_impl. intros c [s [vs [K1 [K2 [K3 K4]]]]]. destruct (core_unit_facts s vs K2 K3) as [L1 [L2 [L3 L4]]]. rewrite K1.
    split; [|split; [|split; [|split]]]; [| | | |discriminate]; (apply Forall_cons; [assumption|constructor]). }
  exists g, g'. destruct (group_restores g') as [st' [Es Hres]].
  - apply resolved_group_ok. exact Hok.
  - unfold group_fine. rewrite Hcols. apply Forall_map. revert Hfull. apply Forall_impl. intros c [L1 [L2 [L3 _]]]. apply resolved_fine; assumption.
  - exact Hc.
  - rewrite Hcols, map_map. etransitivity; [|exact (amp_perm g Hp)]. apply Permutation_refl'. apply map_ext_in. intros c Hin.
    destruct (proj1 (Forall_forall _ _) Hfull c Hin) as [_ [L2 _]]. unfold column_occ. rewrite (resolved_photons D c HN L2). reflexivity.
  - rewrite Hcols. apply Forall_map. apply Forall_forall. intros c Hin. destruct (proj1 (Forall_forall _ _) Hfull c Hin) as [L1 [L2 [L3 [L4 L5]]]].
    unfold column_occ. rewrite (resolved_photons D c HN L2). fold (column_occ D c).
    unfold resolved_column, make_column; cbn [col_states]. split; [|split; [|split]].
    + intro Z. apply map_eq_nil in Z. destruct (col_states c) as [|s l]; [congruence|]. cbn [flat_map] in Z. apply app_eq_nil in Z.
      exact (parts_nonempty D s HN (Forall_inv L2) (proj1 Z)).
    + apply Forall_map. apply Forall_forall. intros s Hs. apply in_flat_map in Hs. destruct Hs as [s0 [Hs0 Hs]].
      apply (one_component_core D s); [symmetry; apply core_stamp|]. apply at_most_one_component. exact (proj1 (Forall_forall _ _) (parts_small D s0 HN (proj1 (Forall_forall _ _) L2 s0 Hs0)) s Hs).
    + apply Forall_map. apply Forall_forall. intros s Hs. apply in_flat_map in Hs. destruct Hs as [s0 [Hs0 Hs]].
      rewrite (frame_core _ s) by apply core_stamp. rewrite (proj1 (Forall_forall _ _) (parts_frame D s0) s Hs). exact (proj1 (Forall_forall _ _) L4 s0 Hs0).
    + destruct (proj1 (Forall_forall _ _) Hfacts c Hin) as [s [vs [_ [K2 [_ K4]]]]]. rewrite K4. exact K2.
  - exists st'. split; [exact E|]. split; [|split; [exact Es|exact Hres]].
    apply single_photon_group_spec; [exact HN|]. revert Hfull. apply Forall_impl. intros c [L1 [L2 _]]. split; assumption.
Qed.
End Roundtrip.

(** A state with at least two components, all nonzero and normalised: the group made from it,
    split into columns and then into single photons, gives the same state again. *)
Theorem C44_group_roundtrip_partial D eps ncl st id : 1 <= dN D -> (0 <= eps)%R -> plain_state D eps ncl st ->
  2 <= length (s_comps st) -> Forall (fun c => fst (snd c) <> RtoC 0) (s_comps st) -> state_norm2 st = 1%R ->
  exists g g' st', split_columns eps ncl (group_of_state st id) = Some g /\
    single_photon_group D eps ncl g = Some g' /\ group_state D eps ncl g' = Some st' /\
    (forall nm, amplitude st' nm = amplitude st nm) /\ same_but_components st st'.
Proof. intros. apply roundtrip_photons; assumption. Qed.
(** The same without the step to single photons. *)
Theorem C44_columns_roundtrip_partial D eps ncl st id : 1 <= dN D -> (0 <= eps)%R -> plain_state D eps ncl st ->
  2 <= length (s_comps st) -> Forall (fun c => fst (snd c) <> RtoC 0) (s_comps st) -> state_norm2 st = 1%R ->
  exists st', group_state D eps ncl (group_of_state st id) = Some st' /\
    (forall nm, amplitude st' nm = amplitude st nm) /\ same_but_components st st'.
Proof. intros. apply roundtrip_columns; assumption. Qed.

(** A state with a single component loses its amplitude: the component comes back with
    amplitude 1, whatever it was. Everything else is restored. *)
Theorem C44_single_component D eps ncl st id vs a : (0 <= eps)%R -> plain_state D eps ncl st -> valid D vs ->
  s_comps st = [(name_string D vs, (a, Cnorm2 a))] ->
  exists st', group_state D eps ncl (group_of_state st id) = Some st' /\
    amplitude st' (name_string D vs) = RtoC 1 /\ (forall nm, nm <> name_string D vs -> amplitude st' nm = RtoC 0) /\
    same_but_components st st'.
Proof.
  intros He Hst Hv Hs. pose proof Hst as [Hwf [Hno [Hck Hcum]]]. pose proof (absent_resolution st Hno) as Hr.
  destruct (group_of_state_plain st id Hr) as [c [Eg [K1 [K2 [K3 K4]]]]].
  assert (Hocc : column_occ D c = vs).
  { rewrite column_occ_ess, K4. unfold ess_occ_of; cbn [snd]. unfold core_photons. cbn [flat_map]. rewrite app_nil_r, map_map. cbn [fst]. rewrite map_id.
    rewrite core_values_of, (first_values_one D st vs a _ Hv Hs). apply occupation_channels. exact (proj1 Hv). }
  assert (Hamp : col_amp c = RtoC 1) by exact (f_equal ess_amp K4).
  destruct (group_state_spec D eps ncl (group_of_state st id) (frame st) He) as [comps [E Hp]].
  - apply group_of_state_ok. exact Hr.
  - apply group_of_state_fine; [exact Hr|]. split; [exact Hck|]. rewrite Hs. split; [discriminate|]. cbn. lia.
  - rewrite Eg. discriminate.
  - rewrite Eg. unfold group_columns; cbn [g_cols map snd]. apply Forall_cons; [|constructor].
    assert (Hf : forall P : state -> Prop, (forall x y, core_of x = core_of y -> P x -> P y) -> P st -> Forall P (col_states c)).
    { intros P HP Hp. apply (ess_forall P (Column 0 (RtoC 1) 1 0 (s_cum st) [st])); [exact HP|rewrite K4; reflexivity|]. apply Forall_cons; [exact Hp|constructor]. }
    split; [intro Z; apply (f_equal snd) in K4; unfold column_ess in K4; cbn [snd] in K4; rewrite Z in K4; discriminate|].
    split; [apply Hf; [apply one_component_core|exists vs, a, (Cnorm2 a); split; assumption]|].
    split; [apply Hf; [intros x y Hxy Hx; rewrite <- Hx; symmetry; apply frame_core; exact Hxy|reflexivity]|].
    rewrite Hocc, Hamp, Cnorm2_RtoC. split; [exact Hv|lra].
  - rewrite Eg. cbn. constructor; [intros []|constructor].
  - rewrite Eg. exact Hcum.
  - rewrite Eg in *. unfold group_columns in Hp; cbn [g_cols map snd] in Hp. rewrite Hocc, Hamp in Hp. apply Permutation_sym, Permutation_length_1_inv in Hp. subst comps.
    eexists. split; [exact E|]. unfold amplitude. cbn [s_comps with_comps dget].
    split; [rewrite (proj2 (leqb_spec _ _) eq_refl); reflexivity|]. split.
    + intros nm Hn. destruct (leqb nm (name_string D vs)) eqn:El; [apply leqb_spec in El; contradiction|reflexivity].
    + unfold same_but_components, frame. cbn [s_init s_cum s_classical s_results s_aux with_comps with_cum g_cum]. rewrite (absent_drop st Hno). repeat split.
Qed.
(** So the round trip promised by the documentation fails for a state with one component and
    amplitude -1. *)
Definition D22 : dims := Dims 3 2 true.
Definition phase_state : state := State [49; 49] 1 [(name_string D22 [1; 1], (RtoC (-1), 1%R))] [] [] [].
Lemma phase_plain : plain_state D22 0 0 phase_state.
Proof.
  split; [|split; [|split]].
  - split; [constructor; [intros []|constructor]|]. intros nm [<-|[]]. exists [1; 1]. split; [split; [reflexivity|repeat constructor]|reflexivity].
  - intros x [].
  - apply check_state_iff. cbn. split; [lra|]. split; [|reflexivity]. apply Forall_cons; [cbn; lra|constructor].
  - cbn. lra.
Qed.
Theorem C44_phase_refuted : ~ (forall D eps ncl st id, 1 <= dN D -> (0 <= eps)%R -> plain_state D eps ncl st -> s_comps st <> [] -> probs_ok st ->
  Forall (fun c => fst (snd c) <> RtoC 0) (s_comps st) -> state_norm2 st = 1%R ->
  exists st', group_state D eps ncl (group_of_state st id) = Some st' /\ forall nm, amplitude st' nm = amplitude st nm).
Proof.
  intro H.
  assert (Hn : Cnorm2 (RtoC (-1)) = 1%R) by (rewrite Cnorm2_RtoC; ring).
  destruct (H D22 0%R 0 phase_state 0) as [st' [E Ha]]; cbn [dN D22]; try lia; try lra.
  - exact phase_plain.
  - discriminate.
  - intros nm a p [Z|[]]. assert (a = RtoC (-1) /\ p = 1%R) as [-> ->] by (split; congruence). symmetry. exact Hn.
  - apply Forall_cons; [|constructor]. cbn. intro Z. apply (f_equal fst) in Z. cbn in Z. lra.
  - unfold state_norm2. cbn [s_comps phase_state]. unfold Rsum. cbn [map fold_right fst snd]. rewrite Hn. ring.
  - destruct (C44_single_component D22 0 0 phase_state 0 [1; 1] (RtoC (-1)) (Rle_refl 0) phase_plain) as [st2 [E2 [H2 _]]].
    + split; [reflexivity|repeat constructor].
    + rewrite Hn. reflexivity.
    + rewrite E in E2. assert (st2 = st') by congruence. subst st2. rewrite Ha in H2. unfold amplitude in H2. cbn in H2. apply (f_equal fst) in H2. cbn in H2. lra.
Qed.

(** The check for several components cannot raise: a column with such a state is decomposed, and
    all components but the first are lost. *)
Theorem C44_other_components_dropped D eps ncl c st vs a p rest : 1 <= dN D ->
  col_states c = [st] -> check_state eps ncl st = true -> valid D vs -> s_comps st = (name_string D vs, (a, p)) :: rest ->
  exists c', single_photon_column D eps ncl c = Some c' /\
    map fst (list_of_photons D c') = photon_channels vs /\
    Forall (fun s => exists us q, s_comps s = [(name_string D us, (a, q))]) (col_states c').
Proof.
  intros HN Hc Hck Hv Hs. unfold single_photon_column. rewrite Hc. cbn [map option_list].
  assert (E : single_photons D eps ncl st = Some (parts D st vs a)).
  { transitivity (single_photons D eps ncl (with_comps st [(name_string D vs, (a, p))])).
    - unfold single_photons. rewrite Hs. cbn [s_comps with_comps]. unfold copy_state, make_state.
      assert (Hck' : check_state eps ncl (with_comps st [(name_string D vs, (a, p))]) = true).
      { apply check_state_iff. apply check_state_iff in Hck. destruct Hck as [L1 [L2 L3]]. cbn. split; [exact L1|]. split; [|exact L3].
        rewrite Hs in L2. apply Forall_cons; [exact (Forall_inv L2)|constructor]. }
      rewrite Hck, Hck'. reflexivity.
    - erewrite single_photons_spec; [| exact HN| exact Hv| |reflexivity].
      + reflexivity.
      + apply check_state_iff. apply check_state_iff in Hck. destruct Hck as [L1 [L2 L3]]. cbn. split; [exact L1|]. split; [|exact L3].
        rewrite Hs in L2. apply Forall_cons; [exact (Forall_inv L2)|constructor]. }
  rewrite E. eexists. split; [reflexivity|]. cbn [concat]. rewrite app_nil_r.
  set (st1 := with_comps st [(name_string D vs, (a, p))]).
  assert (Hp1 : parts D st vs a = parts_of D st1).
  { unfold parts_of, st1. rewrite (first_values_with D st vs a p Hv). reflexivity. }
  assert (H1 : one_component D st1) by (exists vs, a, p; split; [exact Hv|reflexivity]).
  split.
  - rewrite photons_core. unfold make_column; cbn [col_states]. rewrite map_core_stamp, Hp1, (parts_photons D st1 HN H1).
    unfold core_photons. cbn [flat_map]. rewrite app_nil_r, map_map. cbn [fst]. rewrite map_id, core_values_of. unfold st1. rewrite (first_values_with D st vs a p Hv). reflexivity.
  - unfold make_column; cbn [col_states]. apply Forall_map. unfold parts. destruct (0 <? sum_values vs).
    + apply Forall_map. apply Forall_forall. intros ch _. exists (unit_values (dN D) ch), (Cnorm2 a). reflexivity.
    + apply Forall_cons; [|constructor]. exists (repeat 0 (dN D)), (Cnorm2 a). reflexivity.
Qed.

(** Concrete cases: the hypotheses of the round trip are met by 0.6 |20> + 0.8i |02>. *)
Definition bell_like : state :=
  State [50; 48] 1 [(name_string D22 [2; 0], (RtoC (3/5), Cnorm2 (RtoC (3/5)))); (name_string D22 [0; 2], ((0%R, (4/5)%R) : C, Cnorm2 (0%R, (4/5)%R)))] [0%R] [] [].
Example C44_roundtrip_applies : plain_state D22 0 1 bell_like /\ 2 <= length (s_comps bell_like) /\
  Forall (fun c => fst (snd c) <> RtoC 0) (s_comps bell_like) /\ state_norm2 bell_like = 1%R.
Proof.
  split; [split; [|split; [|split]]|split; [cbn; lia|split]].
  - split.
    + cbn [s_comps bell_like map fst]. constructor; [intros [Z|[]]; vm_compute in Z; discriminate|constructor; [intros []|constructor]].
    + intros nm [<-|[<-|[]]]; eexists; (split; [|reflexivity]); (split; [reflexivity|repeat constructor]).
  - intros x [].
  - apply check_state_iff. cbn [s_cum s_comps s_classical bell_like length]. split; [lra|]. split; [|reflexivity].
    apply Forall_cons; [cbn; unfold Cnorm2; cbn; lra|]. apply Forall_cons; [cbn; unfold Cnorm2; cbn; lra|constructor].
  - cbn. lra.
  - apply Forall_cons; [intro Z; apply (f_equal fst) in Z; cbn in Z; lra|]. apply Forall_cons; [intro Z; apply (f_equal snd) in Z; cbn in Z; lra|constructor].
  - unfold state_norm2. cbn [s_comps bell_like]. unfold Rsum. cbn [map fold_right fst snd]. unfold Cnorm2; cbn. lra.
Qed.
(** |23> becomes five photons with boson factor sqrt 12. *)
Definition D24 : dims := Dims 4 2 true.
Example C44_single_photons_applies : exists c c', col_states c = [State [] 1 [(name_string D24 [2; 3], (RtoC 1, 1%R))] [] [] []] /\
  single_photon_column D24 0 0 c = Some c' /\ map fst (list_of_photons D24 c') = [0; 0; 1; 1; 1] /\ col_boson c' = sqrt 12.
Proof.
  set (st := State [] 1 [(name_string D24 [2; 3], (RtoC 1, 1%R))] [] [] []).
  assert (Hv : valid D24 [2; 3]) by (split; [reflexivity|repeat constructor]).
  destruct (C44_single_photon_states D24 0 0 (Column 0 (RtoC 1) 1 0 1 [st])) as [c' [E [H1 [_ [H2 _]]]]].
  - cbn. lia.
  - apply Forall_cons; [|constructor]. apply check_state_iff. cbn. split; [lra|]. split; [|reflexivity]. apply Forall_cons; [cbn; lra|constructor].
  - apply Forall_cons; [|constructor]. exists [2; 3], (RtoC 1), 1%R. split; [exact Hv|reflexivity].
  - exists (Column 0 (RtoC 1) 1 0 1 [st]), c'. split; [reflexivity|]. split; [exact E|]. split; [rewrite H1; vm_compute; reflexivity|].
    rewrite H2. cbn [col_boson col_states map fold_right]. rewrite (first_values_one D24 st [2; 3] (RtoC 1) 1%R Hv eq_refl). rewrite Rmult_1_l. f_equal. cbn. lra.
Qed.
