(** C47, continued: outcomes are told apart by their decimal strings. *)
From Coq Require Import Reals List Arith Lia Lra Bool Permutation.
From Coquelicot Require Import Complex.
From Verif Require Import Prelude NamesModel NamesSpec NamesProofs FockModel FockSpec FockProofs StateModel StateSpec StateProofs ApplyProofs
  CollectionModel EvalModel EvalSpec MeasureSpec MeasureProofs PropMeasure PropProducts PropEval PropPRMeasure PropPROptics ColumnModel ColumnSpec ColumnProofs PropColumn
  GroupProofs TemporalSpec TemporalProofs PropTemporal PropDelays InterferenceSpec ArrangementProofs InterferenceProofs MeasuredProofs PropInterference ExperimentSpec ExperimentProofs PermanentProofs PropPermanent SentProofs ConservationProofs PropExperiment PropCoherent.
Import ListNotations.

(** ** Which outcomes have the same string *)
Definition at_channels (n c c' c'' x y z : nat) : values := map (fun k => if k =? c then x else if k =? c' then y else if k =? c'' then z else 0) (seq 0 n).
Lemma at_channels_valid D c c' c'' x y z : 0 < dL D -> x < dL D -> y < dL D -> z < dL D -> valid D (at_channels (dN D) c c' c'' x y z).
Proof.
  intros. split; [unfold at_channels; now rewrite map_length, seq_length|]. apply Forall_map, Forall_forall. intros k _. destruct (k =? c); [assumption|]. destruct (k =? c'); [assumption|]. now destruct (k =? c'').
Qed.
Lemma at_channels_nth n c c' c'' x y z k : k < n -> nth k (at_channels n c c' c'' x y z) 0 = if k =? c then x else if k =? c' then y else if k =? c'' then z else 0.
Proof.
  intro H. unfold at_channels. rewrite (nth_indep _ 0 ((fun k => if k =? c then x else if k =? c' then y else if k =? c'' then z else 0) 0)) by (now rewrite map_length, seq_length).
  rewrite (map_nth (fun k => if k =? c then x else if k =? c' then y else if k =? c'' then z else 0)). now rewrite seq_nth.
Qed.
Lemma string_cons c opt v : outcome_string (c :: opt) v = pad (ndigits (nth c v 0)) (nth c v 0) ++ outcome_string opt v.
Proof. reflexivity. Qed.
Lemma string_rest opt v v' : (forall c, In c opt -> nth c v 0 = nth c v' 0) -> outcome_string opt v = outcome_string opt v'.
Proof. intro H. induction opt as [|c opt IH]; [reflexivity|]. rewrite !string_cons, (H c (or_introl eq_refl)), IH; [reflexivity|]. intros k Hk. apply H. now right. Qed.
(** The strings tell all outcomes apart exactly if there are at most ten photon numbers, or one
    measured channel, or eleven photon numbers and two channels. *)
Theorem C47_strings D opt : 1 <= dL D -> NoDup opt -> Forall (fun c => c < dN D) opt ->
  (forall v v', valid D v -> valid D v' -> outcome_string opt v = outcome_string opt v' -> readout opt v = readout opt v') <-> outcomes_clear (dL D) opt.
Proof.
  intros HL Hnd Hopt. split; [|intros H v v' Hv Hv'; now apply (outcome_strings D opt)].
  intro H. unfold outcomes_clear. destruct (Nat.le_gt_cases (dL D) 10) as [|G]; [now left|]. right. destruct (Nat.le_gt_cases (length opt) 1) as [|G1]; [now left|]. right.
  destruct opt as [|c [|c' opt]]; try (cbn in G1; lia). pose proof (Forall_inv Hopt) as Hc. pose proof (Forall_inv (Forall_inv_tail Hopt)) as Hc'. pose proof (Forall_inv_tail (Forall_inv_tail Hopt)) as Hr. cbn beta in Hc, Hc'.
  inversion Hnd as [|? ? N1 N2]; subst. inversion N2 as [|? ? N3 N4]; subst.
  assert (Hcc : c' <> c) by (intro Z; apply N1; now left). split.
  - destruct (Nat.le_gt_cases (dL D) 11) as [|G2]; [assumption|]. exfalso.
    pose proof (at_channels_valid D c c' c' 1 11 0 ltac:(lia) ltac:(lia) ltac:(lia) ltac:(lia)) as V1. pose proof (at_channels_valid D c c' c' 11 1 0 ltac:(lia) ltac:(lia) ltac:(lia) ltac:(lia)) as V2.
    specialize (H _ _ V1 V2). cbn [readout map] in H. rewrite !string_cons, !at_channels_nth in H by assumption. rewrite !Nat.eqb_refl in H. destruct (Nat.eqb_spec c' c) as [|_]; [congruence|].
    assert (X : [1; 11] = [11; 1] -> False) by discriminate. rewrite (string_rest opt _ (at_channels (dN D) c c' c' 11 1 0)) in H.
    + specialize (H eq_refl). injection H as Z _ _. lia.
    + intros k Hk. rewrite !at_channels_nth by (exact (proj1 (Forall_forall _ _) Hr k Hk)). destruct (Nat.eqb_spec k c) as [->|_]; [exfalso; apply N1; now right|]. destruct (Nat.eqb_spec k c') as [->|_]; [contradiction|reflexivity].
  - destruct opt as [|c'' opt]; [cbn; lia|]. exfalso. pose proof (Forall_inv Hr) as Hc''. cbn beta in Hc''. pose proof (Forall_inv_tail Hr) as Hr'. inversion N4 as [|? ? N5 N6]; subst.
    assert (c'' <> c /\ c'' <> c') as [D1 D2] by (split; intro Z; subst; [apply N1; right; now left|apply N3; now left]).
    pose proof (at_channels_valid D c c' c'' 1 0 10 ltac:(lia) ltac:(lia) ltac:(lia) ltac:(lia)) as V1. pose proof (at_channels_valid D c c' c'' 10 1 0 ltac:(lia) ltac:(lia) ltac:(lia) ltac:(lia)) as V2.
    specialize (H _ _ V1 V2). cbn [readout map] in H. rewrite !string_cons, !at_channels_nth in H by assumption. rewrite !Nat.eqb_refl in H. destruct (Nat.eqb_spec c' c) as [|_]; [congruence|]. destruct (Nat.eqb_spec c'' c) as [|_]; [congruence|]. destruct (Nat.eqb_spec c'' c') as [|_]; [congruence|].
    rewrite (string_rest opt _ (at_channels (dN D) c c' c'' 10 1 0)) in H.
    + specialize (H eq_refl). injection H as Z _ _ _. lia.
    + intros k Hk. rewrite !at_channels_nth by (exact (proj1 (Forall_forall _ _) Hr' k Hk)). destruct (Nat.eqb_spec k c) as [->|_]; [exfalso; apply N1; right; now right|]. destruct (Nat.eqb_spec k c') as [->|_]; [exfalso; apply N3; now right|]. destruct (Nat.eqb_spec k c'') as [->|_]; [contradiction|reflexivity].
Qed.

(** ** Outcomes with the same string are merged *)
Lemma group_by_const {V} (f : V -> list nat) k l : l <> [] -> (forall x, In x l -> f x = k) -> group_by leqb f l = [(k, l)].
Proof.
  intros Hne H. rewrite (group_by_ext f (fun _ => k)) by exact H. clear H f. unfold group_by. induction l as [|x l IH] using rev_ind; [congruence|]. rewrite fold_left_app. cbn [fold_left].
  destruct l as [|y l]; [reflexivity|]. rewrite IH by discriminate. unfold dappend. cbn [dget dset]. now rewrite leqb_same.
Qed.
Lemma measure_merged D opt cl g k : group_ok g -> Forall (measurable D) (group_columns g) -> group_columns g <> [] ->
  (forall c, In c (group_columns g) -> outcome_string opt (column_occ D c) = k) ->
  exists c0 g', In c0 (group_columns g) /\ measure_group D opt cl g = Some [g'] /\ group_states_of g' <> [] /\
    forall st, In st (group_states_of g') -> exists c s p, In c (group_columns g) /\ In s (col_states c) /\ s_classical st = s_classical (record_outcome cl (readout opt (column_occ D c0)) p s).
Proof.
  intros [Hnd Hok] Hm Hne Hk. destruct (group_columns g) as [|c0 rest] eqn:Eg; [congruence|]. rewrite <- Eg in *.
  assert (Hids : map col_id (group_columns g) = dkeys (g_cols g)).
  { unfold group_columns, dkeys. rewrite map_map. apply map_ext_in. intros kc Hkc. apply (proj1 (Forall_forall _ _) Hok kc Hkc). }
  assert (Hfix : Forall (fun c => col_group c = g_id g /\ col_cum c = g_cum g /\ measurable D c) (group_columns g)).
  { apply Forall_forall. intros c Hc. assert (Hkc : exists kc, In kc (g_cols g) /\ snd kc = c) by (unfold group_columns in Hc; apply in_map_iff in Hc; destruct Hc as [kc [E1 E2]]; exists kc; split; assumption).
    destruct Hkc as [kc [Hkc <-]]. destruct (proj1 (Forall_forall _ _) Hok kc Hkc) as [_ [K2 [K3 _]]]. split; [exact K2|]. split; [exact K3|]. exact (proj1 (Forall_forall _ _) Hm _ Hc). }
  exists c0. eexists. split; [rewrite Eg; now left|]. split.
  - unfold measure_group. rewrite (option_list_map_some _ (fun c => (column_occ D c, c))).
    2:{ intros c Hc. destruct (proj1 (Forall_forall _ _) Hm c Hc) as [_ [_ [Hne' [Hl Hv]]]]. rewrite (column_values_spec D c Hl Hne'). fold (column_occ D c). rewrite (proj2 (contains_values_spec D _) Hv). reflexivity. }
    rewrite (group_by_const _ k).
    2:{ rewrite Eg. discriminate. }
    2:{ intros x Hx. apply in_map_iff in Hx. destruct Hx as (c & <- & Hc). cbn [fst]. now apply Hk. }
    cbn [map snd option_list]. rewrite (outcome_group_spec D opt cl (readout opt (column_occ D c0)) (g_id g) (g_cum g) (group_columns g)); [reflexivity|rewrite Eg; discriminate|rewrite Hids; exact Hnd|exact Hfix|].
    intros c l E. rewrite Eg in E. injection E as -> _. reflexivity.
  - split.
    { unfold group_states_of, group_columns. cbn [g_cols]. rewrite map_map. cbn [snd]. fold (group_columns g). rewrite Eg. cbn [map flat_map]. intro Z. apply app_eq_nil in Z. destruct Z as [Z _]. unfold measured_column, make_column in Z. cbn [col_states] in Z. apply map_eq_nil in Z. apply map_eq_nil in Z.
      rewrite Eg in Hm. destruct (Forall_inv Hm) as [_ [_ [Hne' _]]]. contradiction. }
    intros st Hst. unfold group_states_of, group_columns in Hst. cbn [g_cols] in Hst. rewrite map_map in Hst. cbn [snd] in Hst. apply in_flat_map in Hst. destruct Hst as (c' & Hc' & Hst). apply in_map_iff in Hc'. destruct Hc' as (c & <- & Hc).
    unfold measured_column, make_column in Hst. cbn [col_states] in Hst. apply in_map_iff in Hst. destruct Hst as (s1 & <- & Hs1). apply in_map_iff in Hs1. destruct Hs1 as (s & <- & Hs). exists c, s, 0%R. split; [exact Hc|]. split; [exact Hs|]. reflexivity.
Qed.

(** ** A run in which two outcomes are merged *)
Lemma single_spectrum D st c a p : 2 <= dL D -> c < dN D -> s_comps st = [(name_string D (one_photon (dN D) c), (a, p))] -> spectrum D st = [(RtoC 1, c)].
Proof.
  intros HL Hc E. unfold spectrum, choices. rewrite E. cbn [map fst snd]. unfold core_channel. rewrite core_values_of.
  rewrite (first_values_one D st (one_photon (dN D) c) a p (one_photon_valid D c HL Hc) E). rewrite <- one_photon_spec by exact Hc. rewrite channels_of_unit by exact Hc. reflexivity.
Qed.
Lemma delayed_view D chs t w st c v : valid D (col_vals D c) -> 2 <= dL D -> In v (ray_views D (delayed_ray D chs t w st c)) -> v_occ D v = col_vals D c.
Proof.
  intros Hv HL Hin. unfold ray_views in Hin. apply in_map_iff in Hin. destruct Hin as (a & <- & Ha). unfold v_occ, v_channels, v_photons. cbn [snd].
  assert (E : lit_states (ry_states (delayed_ray D chs t w st c)) = map (fun k => (true, prepared_state D c (column_boson D c) (s_cum st) (first_state c) (first_amp (first_state c)) (true, one_photon (dN D) k, ((if channel_in chs k then - t else 0)%R, w)), ((if channel_in chs k then - t else 0)%R, w))) (channels_of (col_vals D c))).
  { unfold delayed_ray, prepared_photons, lit_states. cbn [ry_states]. destruct (channels_of (col_vals D c)) as [|k l]; [reflexivity|]. rewrite map_map. cbn [fst snd]. generalize (k :: l). clear. intro l. induction l as [|k l IH]; [reflexivity|]. cbn [map filter fst snd]. f_equal. exact IH. }
  rewrite E in Ha |- *. rewrite map_map in Ha.
  rewrite (map_ext_in _ (fun k => [(RtoC 1, k)])) in Ha.
  2:{ intros k Hk. unfold sp_state. cbn [fst snd]. eapply single_spectrum; [exact HL| |reflexivity]. rewrite <- (proj1 Hv). now apply channels_bound. }
  rewrite (assignments_single (fun k : nat => k)) in Ha. destruct Ha as [<-|[]]. cbn [snd]. rewrite map_id, map_fst_combine' by (now rewrite !map_length). apply channels_occ. apply Hv.
Qed.

Lemma assignments_nonnil ls : Forall (fun l => l <> []) ls -> assignments ls <> [].
Proof.
  intro H. induction H as [|l ls Hl _ IH]; [discriminate|]. cbn [assignments]. destruct l as [|x l]; [congruence|]. cbn [flat_map]. intro E. apply app_eq_nil in E. destruct E as [E _]. apply map_eq_nil in E. contradiction.
Qed.
Lemma lit_choices D st : lit D st -> choices st <> [].
Proof. intros [H _]. unfold choices. destruct (s_comps st) as [|? [|? ?]]; [congruence|discriminate|discriminate]. Qed.
Lemma ray_seen D eps ncl b r : ray_ok D eps ncl b r -> ray_views D r <> [].
Proof.
  intros Hr E. unfold ray_views in E. apply map_eq_nil in E. revert E. apply assignments_nonnil. apply Forall_map, Forall_forall. intros x Hx. unfold lit_states in Hx. apply filter_In in Hx. destruct Hx as [Hx Hl].
  destruct (ray_state_facts _ _ _ _ _ x Hr Hx) as (_ & _ & [Hk _] & _). rewrite Hl in Hk. unfold spectrum. intro E. apply map_eq_nil in E. exact (lit_choices _ _ Hk E).
Qed.
(** If the components of a state all have the same outcome string, then after a time delay a
    measurement of these channels reports one and the same outcome everywhere. *)
Theorem C47_strings_merged rnd chs d w opt cl cs i st k : 1 <= dN (co_D cs) -> 2 <= dL (co_D cs) -> delayable cs -> Forall (fun it => sendable (co_D cs) (snd it)) (co_items cs) ->
  delay_exists d (co_ncl cs) -> Forall (fun c => c < dN (co_D cs)) chs -> co_items cs = [(i, st)] -> NoDup cl -> Forall (fun c => c < co_ncl cs) cl ->
  (forall nm, In nm (map fst (s_comps st)) -> outcome_string opt (values_of_name (co_D cs) nm) = k) ->
  exists cs1 cs2 o, add_time_delay rnd chs d w cs = Some cs1 /\ measure_resolved rnd opt cl cs1 = Some cs2 /\
    co_items cs2 <> [] /\ forall it, In it (co_items cs2) -> written cl o (s_classical st) (s_classical (snd it)).
Proof.
  intros HN HL Hd Hs Hde Hch Ei Hcl Hclr Hk.
  destruct (delay_carries rnd chs d w cs HN Hd Hs Hde Hch) as (cs1 & sgs & E1 & Hnd1 & ED & Ee & En & Hp & Hsg & Hcar).
  rewrite Ei in Hp. cbn [map snd] in Hp.
  assert (exists sg, sgs = [sg] /\ fst (fst sg) = st) as (sg & -> & Est).
  { apply Permutation_sym in Hp. apply Permutation_length_1_inv in Hp. destruct sgs as [|sg [|x l]]; try discriminate Hp. exists sg. cbn in Hp. injection Hp as ->. split; reflexivity. }
  pose proof (Forall_inv Hsg) as (Hgood & Hsend & Hsplit). cbn beta in Hgood, Hsend, Hsplit. cbn [map] in Hcar. set (b := delayed_bundle (co_D cs) chs d w sg) in *.
  assert (He : (0 <= co_eps cs)%R) by apply Hd.
  destruct (carried_resolved cs1 [b] ltac:(rewrite ED; exact HN) ltac:(rewrite Ee; exact He) Hcar) as (bs2 & gs & Hp2 & Egs & HF & Hok2 & Hck).
  apply Permutation_length_1_inv in Hp2. subst bs2. inversion HF as [|? g ? gs' Hres HF' Eb Eg]. inversion HF'. subst gs' gs. clear HF HF'.
  rewrite ED, Ee, En in *. pose proof (Forall_inv Hok2) as Hb. cbn beta in Hb.
  pose proof (resolves_measurable _ _ _ _ _ Hb Hres) as Hm.
  destruct Hres as (Hgok & _ & _ & Hview & Hready).
  assert (Hocc : forall c, In c (group_columns g) -> outcome_string opt (column_occ (co_D cs) c) = k).
  { intros c Hc. assert (Hin : In (view_of (co_D cs) c) (flat_map (ray_views (co_D cs)) (bd_rays b))) by (apply (Permutation_in _ Hview); now apply in_map).
    apply in_flat_map in Hin. destruct Hin as (r & Hr & Hin). unfold b, delayed_bundle in Hr. cbn [bd_rays] in Hr. apply in_map_iff in Hr. destruct Hr as (c1 & <- & Hc1).
    destruct (split_columns_read _ _ _ (fst sg) (snd sg) c1 He Hgood Hsplit Hc1) as (Hread & _ & _ & _ & Hcomp).
    apply in_map_iff in Hcomp. destruct Hcomp as ([nm a] & Ec & Hw). cbn [fst snd] in Ec. injection Ec as Ev Ea.
    assert (Hv : valid (co_D cs) (col_vals (co_D cs) c1)).
    { destruct Hread as (s & vs & a' & p & Hs1 & Hvs & Hcs & _). unfold col_vals. rewrite Hs1. rewrite (first_values_one _ s vs a' p Hvs Hcs). exact Hvs. }
    pose proof (delayed_view _ _ _ _ _ _ _ Hv HL Hin) as Eo. change (column_occ (co_D cs) c) with (v_occ (co_D cs) (view_of (co_D cs) c)). rewrite Eo, <- Ev. apply Hk.
    rewrite Est in Hw. unfold weighted_components in Hw. destruct (s_comps st) as [|[n1 q1] [|y ys]]; [destruct Hw| |].
    - destruct Hw as [Hw|[]]. injection Hw as -> _. now left.
    - apply in_map_iff in Hw. destruct Hw as (z & Ex & Hx). injection Ex as <- _. now apply in_map. }
  assert (Hne : group_columns g <> []).
  { intro Z. rewrite Z in Hview. apply Permutation_nil in Hview. pose proof (proj1 Hb) as Hr. destruct (bd_rays b) as [|r rs] eqn:Er; [congruence|]. cbn [flat_map] in Hview. apply app_eq_nil in Hview. destruct Hview as [Hview _].
    pose proof (proj2 (proj2 Hb)) as Hrok. rewrite Er in Hrok. exact (ray_seen _ _ _ _ _ (Forall_inv Hrok) Hview). }
  destruct (measure_merged (co_D cs) opt cl g k Hgok ltac:(revert Hm; apply Forall_impl; intros c Hc; apply Hc) Hne Hocc) as (c0 & g' & Hc0 & Emg & Hg' & Hst).
  exists cs1. eexists. exists (readout opt (column_occ (co_D cs) c0)). split; [exact E1|]. split.
  - unfold measure_resolved. rewrite Egs. unfold measure_all_groups. rewrite ED. cbn [map option_list]. rewrite Emg. unfold collect, copy_collection. rewrite Ee, En. rewrite copy_items_ok by exact Hck. cbn [option_map]. reflexivity.
  - split.
    { cbn [with_items co_items]. intro Z. apply (f_equal (map snd)) in Z. rewrite states_random_map in Z. cbn [concat app length seq combine map flat_map fst snd] in Z. rewrite app_nil_r in Z. apply Hg'.
      unfold group_states_of, group_columns, group_with_id in Z |- *. cbn [g_cols] in Z. rewrite map_map in Z. cbn [snd] in Z. clear -Z. induction (g_cols g') as [|kc l IH]; [reflexivity|]. cbn [map flat_map] in Z |- *. apply app_eq_nil in Z. destruct Z as [Z1 Z2]. rewrite (IH Z2). unfold col_with_group, make_column in Z1. cbn [col_states] in Z1. apply map_eq_nil in Z1. now rewrite Z1. }
    intros it Hit. cbn [with_items co_items] in Hit. apply (in_map snd) in Hit. rewrite states_random_map in Hit. cbn [concat app length seq combine map flat_map fst snd] in Hit. rewrite app_nil_r in Hit.
    assert (Hcl' : forall c s, In c (group_columns g) -> In s (col_states c) -> s_classical s = s_classical st).
    { intros c s Hc Hsc. destruct (proj1 (Forall_forall _ _) Hready c Hc) as [_ Hr]. destruct (proj1 (Forall_forall _ _) Hr s Hsc) as (_ & _ & _ & _ & z & Hx & Ef). apply frame_fields in Ef. rewrite (proj1 (proj2 Ef)).
      unfold b, delayed_bundle, bundle_states in Hx. cbn [bd_rays] in Hx. apply in_flat_map in Hx. destruct Hx as (r & Hr1 & Hx). apply in_map_iff in Hr1. destruct Hr1 as (c1 & <- & Hc1). unfold delayed_ray in Hx. cbn [ry_states] in Hx. rewrite map_map in Hx. cbn [fst snd] in Hx. apply in_map_iff in Hx. destruct Hx as (y & <- & _).
      destruct (split_columns_read _ _ _ (fst sg) (snd sg) c1 He Hgood Hsplit Hc1) as (Hread & _ & _ & Ha & _). rewrite Est in *.
      apply (prepared_state_facts (co_D cs) (co_eps cs) (co_ncl cs) st c1 _ y He Hread). rewrite Ha. now apply (lone_unit (co_D cs)). }
    unfold group_states_of, group_columns, group_with_id in Hit. cbn [g_cols] in Hit. rewrite map_map in Hit. cbn [snd] in Hit. apply in_flat_map in Hit. destruct Hit as (c' & Hc' & Hit). apply in_map_iff in Hc'. destruct Hc' as (kc & <- & Hkc).
    unfold col_with_group, make_column in Hit. cbn [col_states] in Hit. apply in_map_iff in Hit. destruct Hit as (s' & Es' & Hs'). assert (Es2 : s_classical (snd it) = s_classical s') by (rewrite <- Es'; reflexivity). rewrite Es2.
    destruct (Hst s') as (c & s & p & Hc & Hsc & Ecl). { unfold group_states_of, group_columns. apply in_flat_map. exists (snd kc). split; [now apply in_map|exact Hs']. }
    rewrite Ecl. unfold record_outcome. cbn [s_classical]. rewrite (Hcl' c s Hc Hsc). apply write_classical_written; [exact Hcl|].
    intros c'' Hin. destruct Hgood as [[_ [_ [Hck' _]]] _]. rewrite Est in Hck'. pose proof (proj1 (Forall_forall _ _) Hclr c'' Hin) as B. cbn beta in B. apply check_state_iff in Hck'. rewrite (proj2 (proj2 Hck')). exact B.
Qed.

(** Twelve photons in two channels: half of the outcomes are (11, 1), half (1, 11), but every state
    after the measurement reports the same one. *)
Definition D13 : dims := Dims 13 2 true.
Definition twelve_state : state :=
  State [49; 49] 1 [(name_string D13 [11; 1], (RtoC r2, 1 / 2)%R); (name_string D13 [1; 11], (RtoC r2, 1 / 2)%R)] [0%R; 0%R] [] [].
Definition twelve_coll : coll := Coll D13 2 (1 / 4) [([49; 49], twelve_state)].
Lemma twelve_wf : wf_state D13 twelve_state.
Proof.
  split; [repeat constructor; cbn; intuition discriminate|]. intros nm [<-|[<-|[]]]; [exists [11; 1]|exists [1; 11]]; split; try reflexivity; split; try reflexivity; repeat constructor; lia.
Qed.
Lemma twelve_delayable : delayable twelve_coll.
Proof.
  pose proof r2_sq as Q. split; [cbn; lra|]. apply Forall_cons; [|constructor]. cbn [snd twelve_coll co_D co_eps co_ncl]. split; [|split; [discriminate|]].
  - split; [exact twelve_wf|]. split; [|split].
    + intros x [].
    + apply check_state_iff. cbn [twelve_state s_cum s_comps s_classical]. split; [lra|]. split; [|reflexivity]. repeat constructor; cbn [fst snd]; lra.
    + cbn; lra.
  - intros _. split.
    + repeat constructor; cbn [fst snd]; intro X; apply RtoC_inj in X; rewrite X in Q; lra.
    + unfold state_norm2, Rsum. cbn [twelve_state s_comps map fst snd fold_right]. rewrite !Cnorm2_RtoC. lra.
Qed.
Lemma twelve_sendable : Forall (fun it => sendable D13 (snd it)) (co_items twelve_coll).
Proof.
  pose proof r2_sq as Q. apply Forall_cons; [|constructor]. cbn [snd]. split; [|split].
  - intros nm a p [Z|[Z|[]]]; assert (a = RtoC r2 /\ p = (1 / 2)%R) as [-> ->] by (split; congruence); rewrite Cnorm2_RtoC; lra.
  - unfold state_norm2, Rsum. cbn [twelve_state s_comps map fst snd fold_right]. rewrite !Cnorm2_RtoC. lra.
  - cbn [twelve_state s_comps]. repeat constructor; cbn [fst]; rewrite values_of_name_string by (repeat constructor; cbn; lia); cbn; lia.
Qed.
Theorem C47_strings_refuted rnd t w :
  delayable twelve_coll /\ Forall (fun it => sendable D13 (snd it)) (co_items twelve_coll) /\
  let q o := outcome_detection 13 2 (sent_branches D13 [] [0] t w twelve_state) [0; 1] o in
  q [11; 1] = (1 / 2)%R /\ q [1; 11] = (1 / 2)%R /\
  exists cs1 cs2 o, add_time_delay rnd [0] (Delay t) w twelve_coll = Some cs1 /\ measure_resolved rnd [0; 1] [0; 1] cs1 = Some cs2 /\
    co_items cs2 <> [] /\ forall it, In it (co_items cs2) -> written [0; 1] o [0%R; 0%R] (s_classical (snd it)).
Proof.
  pose proof r2_sq as Q. split; [exact twelve_delayable|]. split; [exact twelve_sendable|]. cbv zeta.
  assert (HO : forall o, In o (tuples 13 2) -> outcome_detection 13 2 (sent_branches D13 [] [0] t w twelve_state) [0; 1] o = Cnorm2 (amplitude twelve_state (name_string D13 o))).
  { intros o Ho. unfold outcome_detection. rewrite Rsum_filter. rewrite (Rsum_single _ o); [|apply tuples_nodup|exact Ho|].
    - pose proof Ho as Ho'. apply tuples_in in Ho. destruct o as [|x [|y [|z o]]]; try (exfalso; destruct Ho as [Ho _]; discriminate Ho). cbn [readout map nth]. rewrite leqb_same.
      apply (C49_counting D13); [cbn; lia|cbn; lia|exact twelve_wf|exact (Forall_inv twelve_sendable)|exact Ho].
    - intros f Hf Hn. apply tuples_in in Hf. destruct f as [|x [|y [|z f]]]; try (exfalso; destruct Hf as [Hf _]; discriminate Hf). cbn [readout map nth]. destruct (leqb [x; y] o) eqn:El; [|reflexivity]. apply leqb_spec in El. congruence. }
  rewrite !HO by (apply tuples_in; split; [reflexivity|repeat constructor; lia]). clear HO.
  assert (E1 : amplitude twelve_state (name_string D13 [11; 1]) = RtoC r2) by reflexivity. assert (E2 : amplitude twelve_state (name_string D13 [1; 11]) = RtoC r2) by reflexivity.
  rewrite E1, E2, Cnorm2_RtoC. split; [lra|]. split; [lra|].
  apply (C47_strings_merged rnd [0] (Delay t) w [0; 1] [0; 1] twelve_coll [49; 49] twelve_state [1; 1; 1]); try (cbn; lia); try exact I; try exact twelve_delayable; try exact twelve_sendable; try reflexivity.
  - repeat constructor; cbn; lia.
  - repeat constructor; cbn; intuition lia.
  - repeat constructor; cbn; lia.
  - intros nm [<-|[<-|[]]]; cbn [fst twelve_coll co_D]; rewrite values_of_name_string by (repeat constructor; cbn; lia); reflexivity.
Qed.
