(** C80: measurement with a list of projections. Read with ProjectionModel.v (model) and
    ProjectionSpec.v (vocabulary). *)
From Coq Require Import Reals List Arith Lia Lra Bool Permutation.
From Coquelicot Require Import Complex.
From Verif Require Import Prelude NamesModel NamesSpec NamesProofs FockModel FockProofs StateModel StateSpec StateProofs ApplyProofs MeasureSpec MeasureProofs
  CollectionModel EvalModel EvalSpec PropMeasure PropCollection PropEval PropBridge PropPRMeasure OperatorModel ColumnModel ColumnSpec ColumnProofs PropColumn
  GroupProofs TemporalSpec TemporalProofs ResolvedProofs PropTemporal PropDelays InterferenceSpec ArrangementProofs InterferenceProofs MeasuredProofs PropInterference
  ProjectionModel ProjectionSpec.
Import ListNotations.

Lemma among_in ps f : among ps f = true <-> In f ps.
Proof.
  unfold among. rewrite existsb_exists. split; [intros (x & Hx & E); apply leqb_spec in E; now subst x|intro H; exists f; split; [exact H|apply (proj2 (leqb_spec _ _) eq_refl)]].
Qed.
Lemma among_names D ps f : Forall (valid D) ps -> valid D f -> existsb (leqb (name_string D f)) (map (name_string D) ps) = among ps f.
Proof.
  intros Hps Hf. apply Bool.eq_iff_eq_true. rewrite among_in, existsb_exists. split.
  - intros (x & Hx & E). apply leqb_spec in E. apply in_map_iff in Hx. destruct Hx as (p & <- & Hp).
    assert (f = p) as ->; [|exact Hp]. apply (name_string_inj D); [apply Hf|apply (proj1 (Forall_forall _ _) Hps p Hp)|exact E].
  - intro H. exists (name_string D f). split; [now apply in_map|apply (proj2 (leqb_spec _ _) eq_refl)].
Qed.
(** ** The groups that are left *)
Definition kept (D : dims) (ps : list values) (c : column) : bool := among ps (column_occ D c).
Lemma listed_group D ps g : Forall (valid D) ps -> Forall (measurable D) (group_columns g) ->
  listed_columns D (Some (map (name_string D) ps)) g = Group (g_id g) (g_cum g) (filter (fun kc => kept D ps (snd kc)) (g_cols g)).
Proof.
  intros Hps Hm. unfold listed_columns. f_equal. apply filter_ext_in. intros kc Hkc.
  assert (Hc : In (snd kc) (group_columns g)) by (unfold group_columns; now apply in_map).
  destruct (proj1 (Forall_forall _ _) Hm _ Hc) as (_ & _ & Hne & Hl & Hv). rewrite (column_values_spec D _ Hl Hne). fold (column_occ D (snd kc)).
  rewrite (proj2 (contains_values_spec D _) Hv). cbn [andb]. apply among_names; assumption.
Qed.
Lemma filtered_columns p g : group_columns (Group (g_id g) (g_cum g) (filter (fun kc => p (snd kc)) (g_cols g))) = filter p (group_columns g).
Proof.
  unfold group_columns; cbn [g_cols]. induction (g_cols g) as [|kc l IH]; [reflexivity|]. cbn [filter map]. destruct (p (snd kc)); [cbn [map]; now rewrite IH|exact IH].
Qed.
Definition column_ray (D : dims) (c : column) : ray :=
  Ray (col_id c) (col_amp c) (col_boson c) (map (fun s => (photon_state_of D s, s, timing_of s)) (col_states c)).
Definition sub_bundle (D : dims) (b : bundle) (g : group) : bundle :=
  Bundle (bd_label b) (bd_group b) (bd_weight b) (map (column_ray D) (group_columns g)).
Lemma column_ray_view D eps ncl b c : 1 <= dN D -> ready_column D eps ncl b c -> ray_views D (column_ray D c) = [view_of D c].
Proof.
  intros HN [_ Hst]. unfold ray_views, column_ray, lit_states; cbn [ry_amplitude ry_boson ry_states]. rewrite filter_map. rewrite (filter_ext _ (photon_state_of D)) by reflexivity. rewrite !map_map. cbn [snd].
  set (l := filter (photon_state_of D) (col_states c)).
  assert (Hl : forall s, In s l -> small_state D s /\ exists t, photon_of s = Some t).
  { intros s Hs. unfold l in Hs. apply filter_In in Hs. destruct (proj1 (Forall_forall _ _) Hst s (proj1 Hs)) as [H1 [_ [_ [H2 _]]]]. split; assumption. }
  assert (E1 : map (fun s => spectrum D (sp_state (photon_state_of D s, s, timing_of s))) l = map (fun s => [(RtoC 1, hd 0 (photon_channels (first_values D s)))]) l).
  { apply map_ext_in. intros s Hs. destruct (Hl s Hs) as [[vs [a [p [Hv [_ Es]]]]] _]. unfold spectrum, sp_state; cbn [fst snd]. unfold choices. rewrite Es. cbn [map fst snd]. unfold core_channel. rewrite core_values_of. reflexivity. }
  rewrite E1, assignments_single. cbn [map fst snd]. f_equal. unfold view_of. f_equal; [f_equal; apply C_eq; cbn; ring|].
  unfold list_of_photons. rewrite small_photons; [|exact HN|revert Hst; apply Forall_impl; intros s Hs; apply Hs]. fold l.
  clear -Hl. induction l as [|s l IH]; [reflexivity|]. cbn [map combine]. rewrite IH by (intros; apply Hl; right; assumption). f_equal. f_equal. destruct (Hl s (or_introl eq_refl)) as [_ [t Ht]]. unfold timing_of. rewrite Ht. reflexivity.
Qed.
Lemma column_ray_ok D eps ncl b g c i : 1 <= dN D -> bundle_ok D eps ncl b -> resolves D eps ncl b g -> In c (group_columns g) ->
  bd_label i = bd_label b -> bd_group i = bd_group b -> bd_weight i = bd_weight b -> ray_ok D eps ncl i (column_ray D c).
Proof.
  intros HN Hb Hres Hc I1 I2 I3. destruct (proj1 (Forall_forall _ _) (resolves_measurable D eps ncl b g Hb Hres) c Hc) as [[Ha [Hbo [_ [Hl Hv]]]] Hph].
  destruct Hres as [[_ Hok] [Hid [Hcum [_ Hr]]]]. destruct (proj1 (Forall_forall _ _) Hr c Hc) as [Hne Hst].
  unfold group_columns in Hc. apply in_map_iff in Hc. destruct Hc as (kc & <- & Hkc). destruct (proj1 (Forall_forall _ _) Hok kc Hkc) as (_ & K2 & K3 & K4).
  split; [exact Ha|]. split; [exact Hbo|]. split; [|split].
  - cbn [column_ray ry_states]. intro Z. apply map_eq_nil in Z. exact (Hne Z).
  - rewrite ray_branch_length. unfold lit_states, column_ray; cbn [ry_states]. rewrite filter_map, map_length. rewrite (filter_ext _ (photon_state_of D)) by reflexivity.
    rewrite (ready_lit_length D _) by (revert Hst; apply Forall_impl; intros s Hs; apply Hs).
    pose proof (column_occ_channels D _ Hl) as Hp. rewrite (Permutation_length Hp), photon_channels_pc, pc_length. exact Hph.
  - cbn [column_ray ry_states ry_number ry_amplitude ry_boson]. apply Forall_map. apply Forall_forall. intros s Hs. destruct (proj1 (Forall_forall _ _) Hst s Hs) as [S1 [S2 [S3 [[tm S4] [x [S5 S6]]]]]]. cbn [fst snd].
    split; [exact S2|]. split; [exact S3|]. split; [|split].
    + rewrite I1. destruct (frame_fields s x S6) as [E _]. destruct (bundle_label_states D eps ncl b x Hb S5) as [E' _]. congruence.
    + exact (small_kind D s HN S1).
    + pose proof (proj1 (Forall_forall _ _) K4 s Hs) as Hs4. cbn beta in Hs4. unfold resolution_of in Hs4.
      destruct (dget aux_eqb AuxPhotonResolution (s_aux s)) as [[| |]|]; try discriminate. injection Hs4 as Hs4. rewrite Hs4, I2, I3, K2, K3, Hid, Hcum. unfold timing_of. rewrite S4. reflexivity.
Qed.
Section Sub.
Context (D : dims) (eps : R) (ncl : nat) (b : bundle) (g : group) (ps : list values).
Context (HN : 1 <= dN D) (Hb : bundle_ok D eps ncl b) (Hres : resolves D eps ncl b g).
Let g' := Group (g_id g) (g_cum g) (filter (fun kc => kept D ps (snd kc)) (g_cols g)).
Lemma sub_ok : group_columns g' <> [] -> bundle_ok D eps ncl (sub_bundle D b g').
Proof.
  intro Hne. split; [|split].
  - unfold sub_bundle; cbn [bd_rays]. intro Z. apply map_eq_nil in Z. exact (Hne Z).
  - unfold sub_bundle; cbn [bd_rays]. rewrite map_map. cbn [column_ray ry_number]. unfold g'. rewrite filtered_columns.
    destruct Hres as [[Hnd Hok] _].
    assert (Hids : map col_id (group_columns g) = dkeys (g_cols g)).
    { unfold group_columns, dkeys. rewrite map_map. apply map_ext_in. intros kc Hkc. apply (proj1 (Forall_forall _ _) Hok kc Hkc). }
    rewrite <- Hids in Hnd. clear -Hnd. induction (group_columns g) as [|c l IH]; [constructor|]. cbn [map] in Hnd. inversion Hnd as [|? ? H1 H2]; subst. cbn [filter].
    destruct (kept D ps c); [|apply IH; exact H2]. cbn [map]. constructor; [|apply IH; exact H2]. intro Z. apply H1. apply in_map_iff in Z. destruct Z as [x [<- Hx]]. apply filter_In in Hx. apply in_map. apply Hx.
  - unfold sub_bundle at 2; cbn [bd_rays]. apply Forall_map. apply Forall_forall. intros c Hc. unfold g' in Hc. rewrite filtered_columns in Hc. apply filter_In in Hc.
    apply (column_ray_ok D eps ncl b g c _ HN Hb Hres (proj1 Hc)); reflexivity.
Qed.
Lemma sub_views : flat_map (ray_views D) (bd_rays (sub_bundle D b g')) = map (view_of D) (group_columns g').
Proof.
  unfold sub_bundle; cbn [bd_rays]. assert (Hr : Forall (ready_column D eps ncl b) (group_columns g')).
  { unfold g'. rewrite filtered_columns. apply Forall_forall. intros c Hc. apply filter_In in Hc. destruct Hres as (_ & _ & _ & _ & Hr). exact (proj1 (Forall_forall _ _) Hr c (proj1 Hc)). }
  induction Hr as [|c l Hc _ IH]; [reflexivity|]. cbn [map flat_map]. rewrite (column_ray_view D eps ncl b c HN Hc), IH. reflexivity.
Qed.
Lemma sub_resolves : resolves D eps ncl (sub_bundle D b g') g'.
Proof.
  destruct Hres as [[Hnd Hok] [Hid [Hcum [_ Hr]]]]. split; [|split; [exact Hid|split; [exact Hcum|split]]].
  - split.
    + unfold g'; cbn [g_cols]. unfold dkeys in *. clear -Hnd. induction (g_cols g) as [|kc l IH]; [constructor|]. cbn [map] in Hnd. inversion Hnd as [|? ? H1 H2]; subst. cbn [filter]. destruct (kept D ps (snd kc)); [|exact (IH H2)].
      cbn [map]. constructor; [|exact (IH H2)]. intro Z. apply H1. apply in_map_iff in Z. destruct Z as (x & E & Hx). apply filter_In in Hx. rewrite <- E. apply in_map. apply Hx.
    + unfold g'; cbn [g_cols g_id g_cum]. apply Forall_forall. intros kc Hkc. apply filter_In in Hkc. exact (proj1 (Forall_forall _ _) Hok kc (proj1 Hkc)).
  - rewrite sub_views. apply Permutation_refl.
  - apply Forall_forall. intros c Hc. assert (Hc' := Hc). unfold g' in Hc'. rewrite filtered_columns in Hc'. apply filter_In in Hc'. destruct (proj1 (Forall_forall _ _) Hr c (proj1 Hc')) as [Hne Hst].
    split; [exact Hne|]. apply Forall_forall. intros s Hs. destruct (proj1 (Forall_forall _ _) Hst s Hs) as [S1 [S2 [S3 [S4 _]]]].
    split; [exact S1|]. split; [exact S2|]. split; [exact S3|]. split; [exact S4|]. exists s. split; [|reflexivity].
    unfold bundle_states, sub_bundle; cbn [bd_rays]. apply in_flat_map. exists (column_ray D c). split; [now apply in_map|]. unfold column_ray; cbn [ry_states]. rewrite map_map. cbn [fst snd]. rewrite map_id. exact Hs.
Qed.
(** States of the smaller group: as in the group. *)
Lemma sub_states s : In s (bundle_states (sub_bundle D b g')) -> exists x, In x (bundle_states b) /\ s_classical x = s_classical s /\ s_results x = s_results s.
Proof.
  intro Hs. unfold bundle_states, sub_bundle in Hs; cbn [bd_rays] in Hs. apply in_flat_map in Hs. destruct Hs as (r & Hr & Hs). apply in_map_iff in Hr. destruct Hr as (c & <- & Hc).
  unfold column_ray in Hs; cbn [ry_states] in Hs. rewrite map_map in Hs. cbn [fst snd] in Hs. rewrite map_id in Hs.
  unfold g' in Hc. rewrite filtered_columns in Hc. apply filter_In in Hc. destruct Hres as (_ & _ & _ & _ & Hrd). destruct (proj1 (Forall_forall _ _) Hrd c (proj1 Hc)) as [_ Hst].
  destruct (proj1 (Forall_forall _ _) Hst s Hs) as [_ [_ [_ [_ [x [Hx Hf]]]]]]. exists x. split; [exact Hx|]. destruct (frame_fields s x Hf) as (_ & E1 & E2). now rewrite E1, E2.
Qed.
Lemma filter_views p q (cs : list column) : (forall c, In c cs -> q (view_of D c) = p c) -> filter q (map (view_of D) cs) = map (view_of D) (filter p cs).
Proof.
  intro H. induction cs as [|c cs IH]; [reflexivity|]. cbn [map filter]. rewrite (H c (or_introl eq_refl)), IH by (intros; apply H; now right). destruct (p c); reflexivity.
Qed.
Lemma same_interference l l' : Permutation l l' ->
  forall h : view -> view -> C, Csum l (fun v => Csum l (h v)) = Csum l' (fun v => Csum l' (h v)).
Proof. intros Hp h. rewrite (Csum_perm _ _ _ Hp). apply Csum_ext. intros v _. apply Csum_perm. exact Hp. Qed.
Lemma filter_permutation {A} (p : A -> bool) l l' : Permutation l l' -> Permutation (filter p l) (filter p l').
Proof.
  induction 1 as [|x l l' _ IH|x y l|l l' l'' _ IH1 _ IH2]; [constructor|cbn [filter]; destruct (p x); [now constructor|exact IH]|cbn [filter]; destruct (p x), (p y); try reflexivity; constructor|etransitivity; eassumption].
Qed.
Lemma interference_views b0 f (Hb0 : bundle_ok D eps ncl b0) (Hf : length f = dN D) cs : Permutation (map (view_of D) cs) (flat_map (ray_views D) (bd_rays b0)) ->
  detection (map (ray_branch D) (bd_rays b0)) f =
  Cmod (Csum (filter (fun v => leqb (v_occ D v) f) (map (view_of D) cs)) (fun v => Csum (filter (fun v => leqb (v_occ D v) f) (map (view_of D) cs)) (fun v' => pair_value (photon_channels f) (boson_fold 1 f) v v'))).
Proof.
  intro Hp. rewrite (same_interference _ _ (filter_permutation (fun v => leqb (v_occ D v) f) _ _ Hp) (fun v v' => pair_value (photon_channels f) (boson_fold 1 f) v v')). cbv beta. rewrite (views_detection D eps ncl b0 f Hb0 Hf). unfold detection.
  assert (Hfp : (0 < INR (factorials f))%R) by (apply lt_0_INR; apply factorials_pos).
  rewrite Cmod_div by (intro Z; apply RtoC_inj in Z; lra). rewrite Cmod_R, Rabs_pos_eq by lra. reflexivity.
Qed.
Lemma resolves_views b0 g0 : resolves D eps ncl b0 g0 -> Permutation (map (view_of D) (group_columns g0)) (flat_map (ray_views D) (bd_rays b0)).
Proof. intros (_ & _ & _ & H & _). exact H. Qed.
Lemma sub_filter f : filter (fun v => leqb (v_occ D v) f) (map (view_of D) (group_columns g'))
  = if among ps f then filter (fun v => leqb (v_occ D v) f) (map (view_of D) (group_columns g)) else [].
Proof.
  unfold g'. rewrite filtered_columns. rewrite !(filter_views (fun c => leqb (column_occ D c) f)) by reflexivity.
  induction (group_columns g) as [|c l IH]; [now destruct (among ps f)|]. cbn [filter]. unfold kept at 1. destruct (leqb (column_occ D c) f) eqn:E.
  - apply leqb_spec in E. rewrite E. destruct (among ps f) eqn:Ea.
    + cbn [filter map]. rewrite E, (proj2 (leqb_spec _ _) eq_refl). cbn [map]. now rewrite IH.
    + exact IH.
  - destruct (among ps (column_occ D c)); [|exact IH]. cbn [filter]. rewrite E. exact IH.
Qed.
Lemma sub_detection f : length f = dN D -> group_columns g' <> [] ->
  detection (map (ray_branch D) (bd_rays (sub_bundle D b g'))) f = if among ps f then detection (map (ray_branch D) (bd_rays b)) f else 0%R.
Proof.
  intros Hf Hne. rewrite (interference_views _ f (sub_ok Hne) Hf _ (resolves_views _ _ sub_resolves)), sub_filter.
  destruct (among ps f); [symmetry; apply (interference_views b f Hb Hf _ (resolves_views _ _ Hres))|]. rewrite Csum_nil, Cmod_0. reflexivity.
Qed.
Lemma gone_detection f : length f = dN D -> group_columns g' = [] -> among ps f = true -> detection (map (ray_branch D) (bd_rays b)) f = 0%R.
Proof.
  intros Hf Hnil Ha. rewrite (interference_views b f Hb Hf _ (resolves_views _ _ Hres)). pose proof (sub_filter f) as E. rewrite Ha, Hnil in E. cbn [map filter] in E. rewrite <- E. rewrite Csum_nil, Cmod_0. reflexivity.
Qed.
Lemma sub_outcome opt o : group_columns g' <> [] ->
  outcome_detection (dL D) (dN D) (map (ray_branch D) (bd_rays (sub_bundle D b g'))) opt o = listed_detection (dL D) (dN D) ps (map (ray_branch D) (bd_rays b)) opt o.
Proof.
  intro Hne. unfold outcome_detection, listed_detection. rewrite !Rsum_filter. apply Rsum_ext. intros f Hf. apply tuples_in in Hf. rewrite sub_detection by (tauto || exact Hne).
  destruct (leqb (readout opt f) o); [|reflexivity]. cbn [andb]. reflexivity.
Qed.
Lemma gone_outcome opt o : group_columns g' = [] -> listed_detection (dL D) (dN D) ps (map (ray_branch D) (bd_rays b)) opt o = 0%R.
Proof.
  intro Hnil. unfold listed_detection. rewrite Rsum_filter. apply Rsum_zero. intros f Hf. apply tuples_in in Hf. destruct (leqb (readout opt f) o); [|reflexivity]. cbn [andb].
  destruct (among ps f) eqn:E; [|reflexivity]. apply gone_detection; tauto.
Qed.
End Sub.
(** ** The measurement *)
Lemma option_list_drop {A B} (f : A -> option (list B)) (p : A -> bool) l : (forall x, In x l -> p x = false -> f x = Some []) ->
  option_map (@concat B) (option_list (map f l)) = option_map (@concat B) (option_list (map f (filter p l))).
Proof.
  induction l as [|x l IH]; intro H; [reflexivity|]. cbn [map filter]. specialize (IH (fun y Hy => H y (or_intror Hy))). destruct (p x) eqn:E.
  - cbn [map option_list]. destruct (f x); [|reflexivity]. destruct (option_list (map f l)), (option_list (map f (filter p l))); try discriminate; [|reflexivity]. cbn [option_map concat] in *. congruence.
  - cbn [option_list]. rewrite (H x (or_introl eq_refl) E). destruct (option_list (map f l)), (option_list (map f (filter p l))); try discriminate; [|reflexivity]. exact IH.
Qed.
Definition nonempty (g : group) : bool := match group_columns g with [] => false | _ => true end.
Lemma drop_empty rnd opt cl cs gs : measure_all_groups rnd opt cl cs gs = measure_all_groups rnd opt cl cs (filter nonempty gs).
Proof.
  pose proof (option_list_drop (measure_group (co_D cs) opt cl) nonempty gs) as H. unfold measure_all_groups.
  destruct (option_list (map (measure_group (co_D cs) opt cl) gs)), (option_list (map (measure_group (co_D cs) opt cl) (filter nonempty gs)));
    (try (cbn [option_map] in H; assert (E : forall x, In x gs -> nonempty x = false -> measure_group (co_D cs) opt cl x = Some []) by (intros x _ Hx; unfold nonempty in Hx; unfold measure_group; destruct (group_columns x); [reflexivity|discriminate]); specialize (H E))); try discriminate; [|reflexivity].
  injection H as ->. reflexivity.
Qed.
(** Measuring with a list of projections: new groups, each of which is one of the old groups after
    one of the listed outcomes. For every label and outcome, the weights of the new groups add up to
    the weights of the old groups times the probability of the listed photon numbers with this
    outcome: nothing is renormalised and nothing that is not listed is found. *)
Theorem C80_listed_measurement rnd opt cl cs bs ps : 1 <= dN (co_D cs) -> outcomes_clear (dL (co_D cs)) opt -> (0 <= co_eps cs)%R -> carries cs bs ->
  NoDup cl -> Forall (fun c => c < co_ncl cs) cl -> Forall (valid (co_D cs)) ps ->
  exists cs' bos, measure_listed rnd (Some (map (name_string (co_D cs)) ps)) opt cl cs = Some cs' /\ NoDup (map fst (co_items cs')) /\
    co_D cs' = co_D cs /\ co_eps cs' = co_eps cs /\ co_ncl cs' = co_ncl cs /\
    carries cs' (map fst bos) /\
    group_weights (co_items cs') (map (fun bo => (bd_label (fst bo), bd_group (fst bo), bd_weight (fst bo))) bos) /\
    (forall b' o, In (b', o) bos -> exists b, In b bs /\ after_listed (co_D cs) ps opt cl o b b') /\
    (forall i o, Rsum (filter (fun bo => leqb (bd_label (fst bo)) i && leqb (snd bo) o) bos) (fun bo => bd_weight (fst bo))
       = Rsum (filter (fun b => leqb (bd_label b) i) bs) (fun b => bd_weight b * listed_detection (dL (co_D cs)) (dN (co_D cs)) ps (map (ray_branch (co_D cs)) (bd_rays b)) opt o)%R).
Proof.
  intros HN HL He Hcar Hcl Hcl2 Hps. pose proof (carried_resolved cs bs HN He Hcar) as (bs2 & gs & Hp & E & HF & Hok2 & Hck).
  set (D := co_D cs) in *. set (eps := co_eps cs) in *. set (ncl := co_ncl cs) in *.
  set (red := fun g : group => Group (g_id g) (g_cum g) (filter (fun kc => kept D ps (snd kc)) (g_cols g))).
  assert (Hpair : forall bg, In bg (combine bs2 gs) -> bundle_ok D eps ncl (fst bg) /\ resolves D eps ncl (fst bg) (snd bg)).
  { intros bg Hbg. destruct (forall2_combine _ _ _ HF bg Hbg) as [H1 H2]. split; [exact (proj1 (Forall_forall _ _) Hok2 _ H2)|exact H1]. }
  assert (Hred : map (listed_columns D (Some (map (name_string D) ps))) gs = map red gs).
  { apply map_ext_in. intros g Hg. destruct (Forall2_in_r_ex _ _ _ _ HF Hg) as (b & Hb & Hres). apply listed_group; [exact Hps|].
    pose proof (resolves_measurable D eps ncl b g (proj1 (Forall_forall _ _) Hok2 b Hb) Hres) as Hm. revert Hm. apply Forall_impl. intros c Hc. apply Hc. }
  set (xs := filter (fun bg => nonempty (red (snd bg))) (combine bs2 gs)).
  set (bs' := map (fun bg => sub_bundle D (fst bg) (red (snd bg))) xs). set (gs' := map (fun bg => red (snd bg)) xs).
  assert (Egs' : filter nonempty (map red gs) = gs').
  { unfold gs', xs. pose proof (forall2_len _ _ _ HF) as Hlen. clear -Hlen. revert gs Hlen. induction bs2 as [|b l IH]; intros [|g gs] Hlen; try discriminate; [reflexivity|].
    cbn [combine map filter snd]. rewrite (IH gs) by (injection Hlen; auto). destruct (nonempty (red g)); reflexivity. }
  assert (Hxs : forall bg, In bg xs -> bundle_ok D eps ncl (fst bg) /\ resolves D eps ncl (fst bg) (snd bg) /\ group_columns (red (snd bg)) <> []).
  { intros bg Hbg. unfold xs in Hbg. apply filter_In in Hbg. destruct Hbg as [H1 H2]. destruct (Hpair bg H1) as [K1 K2]. split; [exact K1|]. split; [exact K2|]. unfold nonempty in H2. destruct (group_columns (red (snd bg))); discriminate. }
  assert (HF' : Forall2 (resolves D eps ncl) bs' gs').
  { unfold bs', gs'. clear -Hxs HN. induction xs as [|bg l IH]; [constructor|]. cbn [map]. constructor.
    - destruct (Hxs bg (or_introl eq_refl)) as (K1 & K2 & K3). exact (sub_resolves D eps ncl (fst bg) (snd bg) ps HN K2).
    - apply IH. intros x Hx. apply Hxs. now right. }
  assert (Hok' : Forall (bundle_ok D eps ncl) bs').
  { unfold bs'. apply Forall_map. apply Forall_forall. intros bg Hbg. destruct (Hxs bg Hbg) as (K1 & K2 & K3). exact (sub_ok D eps ncl (fst bg) (snd bg) ps HN K1 K2 K3). }
  destruct (groups_measured rnd opt cl cs bs' gs' HN HL HF' Hok' Hck Hcl Hcl2) as (cs' & bos & M1 & M2 & M3 & M4 & M5 & M6 & M7 & M8 & M9 & M10).
  exists cs', bos. split; [unfold measure_listed; rewrite E; fold D; rewrite Hred, drop_empty, Egs'; exact M1|]. split; [exact M2|]. split; [exact M3|]. split; [exact M4|]. split; [exact M5|]. split; [exact M6|]. split; [exact M7|]. split.
  - intros b' o H. destruct (M10 b' o H) as (b1 & g1 & k & Hbg & Eb'). fold D in Eb'. unfold bs', gs' in Hbg.
    assert (Hxb : exists bg, In bg xs /\ b1 = sub_bundle D (fst bg) (red (snd bg)) /\ g1 = red (snd bg)).
    { clear -Hbg. induction xs as [|bg l IH]; [destruct Hbg|]. cbn [map combine] in Hbg. destruct Hbg as [Hbg|Hbg]; [injection Hbg as <- <-; exists bg; repeat split; now left|]. destruct (IH Hbg) as (x & Hx & Ex). exists x. split; [now right|exact Ex]. }
    destruct Hxb as ([b g] & Hbgx & E1 & E2). cbn [fst snd] in E1, E2. destruct (Hxs (b, g) Hbgx) as (K1 & K2 & K3). cbn [fst snd] in K1, K2, K3.
    pose proof (sub_ok D eps ncl b g ps HN K1 K2 K3) as Ksub. pose proof (sub_resolves D eps ncl b g ps HN K2) as Kres. pose proof (sub_outcome D eps ncl b g ps HN K1 K2 opt o K3) as Kout. fold (red g) in Ksub, Kres, Kout.
    destruct (M8 b' o H) as (b0 & Hb0 & A0).
    assert (Ho : In o (outcome_keys D opt (group_columns (red g)))).
    { apply keys_selected. intro Z. unfold measured_bundle in Eb'. cbv zeta in Eb'. pose proof (ao_norm _ _ _ _ _ _ A0) as Hn. rewrite Eb' in Hn. cbn [bd_rays] in Hn. rewrite E2, Z in Hn. cbn in Hn. lra. }
    pose proof (measured_after D eps ncl (sub_bundle D b (red g)) (red g) opt cl k o HN Ksub Kres Hcl Hcl2 Ho) as A. rewrite E1, E2 in Eb'. rewrite <- Eb' in A. destruct A as [A1 A2 A3 A4 A5 A6].
    exists b. split; [apply (Permutation_in _ (Permutation_sym Hp)); unfold xs in Hbgx; apply filter_In in Hbgx; apply (in_combine_l _ _ _ _ (proj1 Hbgx))|]. split.
    + exact A1.
    + rewrite A2, Kout. reflexivity.
    + intros st Hst. destruct (A3 st Hst) as (x & Hx & W1 & W2). destruct (sub_states D eps ncl b g ps K2 x Hx) as (y & Hy & Y1 & Y2). exists y. split; [exact Hy|]. rewrite Y1, Y2. split; [exact W1|]. rewrite W2, Kout. reflexivity.
    + intros f Hf Hd. split; [exact (A4 f Hf Hd)|].
      destruct (in_dec (list_eq_dec Nat.eq_dec) f ps) as [Y|N]; [exact Y|]. exfalso. apply Hd.
      pose proof (measured_bundle_ok D eps ncl (sub_bundle D b (red g)) (red g) opt cl (bd_label (sub_bundle D b (red g))) k o HN Ksub Kres eq_refl Ho) as Hbo. rewrite <- Eb' in Hbo.
      assert (Hnil : filter (fun v => leqb (v_occ D v) f) (flat_map (ray_views D) (bd_rays b')) = []).
      { destruct (filter (fun v => leqb (v_occ D v) f) (flat_map (ray_views D) (bd_rays b'))) as [|v l] eqn:Ev; [reflexivity|]. exfalso. apply N. assert (Hin : In v (v :: l)) by now left. rewrite <- Ev in Hin. apply filter_In in Hin. destruct Hin as [H1 H2]. apply leqb_spec in H2.
        rewrite Eb' in H1. unfold measured_bundle in H1; cbv zeta in H1; cbn [bd_rays] in H1. apply in_flat_map in H1. destruct H1 as (r & Hr & Hv). apply in_map_iff in Hr. destruct Hr as (c & <- & Hc). unfold selected in Hc. apply filter_In in Hc. destruct Hc as [Hc _].
        rewrite (measured_ray_view D eps ncl (sub_bundle D b (red g))) in Hv; [|exact HN|destruct Kres as (_ & _ & _ & _ & Hr); exact (proj1 (Forall_forall _ _) Hr c Hc)]. destruct Hv as [<-|[]].
        unfold red in Hc. rewrite filtered_columns in Hc. apply filter_In in Hc. destruct Hc as [_ Hk]. unfold kept in Hk. apply among_in in Hk. rewrite <- H2. exact Hk. }
      pose proof (views_detection D eps ncl b' f Hbo Hf) as Hv. rewrite Hnil, Csum_nil in Hv. unfold detection.
      assert (Hfp : (0 < INR (factorials f))%R) by (apply lt_0_INR; apply factorials_pos).
      assert (Hz : interference (map (ray_branch D) (bd_rays b')) f = RtoC 0).
      { replace (interference (map (ray_branch D) (bd_rays b')) f) with (interference (map (ray_branch D) (bd_rays b')) f / RtoC (INR (factorials f)) * RtoC (INR (factorials f)))%C; [rewrite <- Hv; ring|]. field. intro Z. apply RtoC_inj in Z. lra. }
      rewrite Hz, Cmod_0. unfold Rdiv. ring.
    + apply keys_selected in Ho. destruct (selected D opt o (group_columns (red g))) as [|c l] eqn:Es; [congruence|]. assert (Hc : In c (selected D opt o (group_columns (red g)))) by (rewrite Es; now left).
      unfold selected in Hc. apply filter_In in Hc. destruct Hc as [Hc Ho']. apply leqb_spec in Ho'. exists (column_occ D c). unfold red in Hc. rewrite filtered_columns in Hc. apply filter_In in Hc. destruct Hc as [Hc Hk]. split; [now apply among_in|]. split; [|now symmetry].
      destruct (proj1 (Forall_forall _ _) (resolves_measurable D eps ncl b g K1 K2) c Hc) as [(_ & _ & _ & _ & Hv) _]. apply tuples_in. exact Hv.
    + exact A6.
  - intros i o. rewrite M9, !Rsum_filter.
    transitivity (Rsum bs2 (fun b => if leqb (bd_label b) i then (bd_weight b * listed_detection (dL D) (dN D) ps (map (ray_branch D) (bd_rays b)) opt o)%R else 0%R)); [|apply Rsum_perm; symmetry; exact Hp].
    assert (Em : map fst (combine bs2 gs) = bs2) by (apply map_fst_combine'; exact (forall2_len _ _ _ HF)). rewrite <- Em, Rsum_map. unfold bs', xs. rewrite Rsum_map, Rsum_filter. apply Rsum_ext. intros [b g] Hbg. cbn [fst snd].
    destruct (Hpair (b, g) Hbg) as [K1 K2]. cbn [fst snd] in K1, K2. unfold nonempty. destruct (group_columns (red g)) as [|c l] eqn:Ec.
    + rewrite (gone_outcome D eps ncl b g ps K1 K2 opt o Ec). destruct (leqb (bd_label b) i); [ring|reflexivity].
    + change (bd_label (sub_bundle D b (red g))) with (bd_label b). change (bd_weight (sub_bundle D b (red g))) with (bd_weight b).
      assert (Hne : group_columns (red g) <> []) by (rewrite Ec; discriminate).
      pose proof (sub_outcome D eps ncl b g ps HN K1 K2 opt o Hne) as Ko. fold (red g) in Ko. fold D. rewrite Ko. reflexivity.
Qed.
(** ** Compared with the measurement without a list *)
(** Without a list: the measurement of C47. *)
Theorem C80_no_list rnd opt cl cs : measure_listed rnd None opt cl cs = measure_resolved rnd opt cl cs.
Proof. unfold measure_listed, measure_resolved. destruct (resolved_groups cs) as [gs|]; [|reflexivity]. f_equal. apply map_id. Qed.
Lemma detection_pos bs f : (0 <= detection bs f)%R.
Proof. unfold detection. apply Rmult_le_pos; [apply Cmod_ge_0|]. left. apply Rinv_0_lt_compat. apply lt_0_INR. apply factorials_pos. Qed.
Lemma Rsum_below {A} (l : list A) f g : (forall x, In x l -> (f x <= g x)%R) -> (Rsum l f <= Rsum l g)%R.
Proof. induction l as [|x l IH]; intro H; [cbn; lra|]. rewrite !Rsum_cons. pose proof (H x (or_introl eq_refl)). specialize (IH (fun y Hy => H y (or_intror Hy))). lra. Qed.
(** The listed part of an outcome is at most the outcome; it is all of it exactly when no possible
    photon numbers with this outcome are missing; it is nothing when none of them are listed. *)
Theorem C80_listed_part L n ps bs opt o : (0 <= listed_detection L n ps bs opt o <= outcome_detection L n bs opt o)%R.
Proof.
  unfold listed_detection, outcome_detection. rewrite !Rsum_filter. split.
  - apply Rsum_nonneg. intros f _. destruct (_ && _); [apply detection_pos|lra].
  - apply Rsum_below. intros f _. pose proof (detection_pos bs f). destruct (leqb (readout opt f) o); [|cbn [andb]; lra]. cbn [andb]. destruct (among ps f); lra.
Qed.
Theorem C80_all_listed L n ps bs opt o : (forall f, In f (tuples L n) -> readout opt f = o -> detection bs f <> 0%R -> In f ps) ->
  listed_detection L n ps bs opt o = outcome_detection L n bs opt o.
Proof.
  intro H. unfold listed_detection, outcome_detection. rewrite !Rsum_filter. apply Rsum_ext. intros f Hf. destruct (leqb (readout opt f) o) eqn:E; [|reflexivity]. cbn [andb]. apply leqb_spec in E.
  destruct (among ps f) eqn:Ea; [reflexivity|]. destruct (Req_EM_T (detection bs f) 0) as [Z|Z]; [now rewrite Z|]. apply (H f Hf E) in Z. apply among_in in Z. congruence.
Qed.
Theorem C80_none_listed L n ps bs opt o : (forall f, In f ps -> readout opt f <> o) -> listed_detection L n ps bs opt o = 0%R.
Proof.
  intro H. unfold listed_detection. rewrite Rsum_filter. apply Rsum_zero. intros f Hf. destruct (leqb (readout opt f) o) eqn:E; [|reflexivity]. cbn [andb]. apply leqb_spec in E.
  destruct (among ps f) eqn:Ea; [|reflexivity]. apply among_in in Ea. destruct (H f Ea E).
Qed.
(** ** Where the list has no effect *)
(** A measurement of a collection that is neither photon-resolved nor has Popescu-Rohrlich
    correlations does not look at the list. *)
Theorem C80_plain X rnd rnd' names c k opt cl cs : wf_circuit c -> k < length (c_nodes c) -> node_at c k = NMeasure opt cl -> unmarked (co_items cs) ->
  evaluate_nodes (with_listed rnd' names X) rnd c [k] cs = evaluate_nodes X rnd c [k] cs.
Proof. intros Hc Hk En Hu. pose proof Hc as (HL & _). rewrite !(evaluate_measure _ rnd c k opt cl cs) by auto. reflexivity. Qed.
Theorem C80_plain_refuted : ~ (forall X rnd rnd' c k opt cl ps cs cs', wf_circuit c -> k < length (c_nodes c) -> node_at c k = NMeasure opt cl ->
  wf_items (c_D c) (co_items cs) -> Forall (valid (c_D c)) ps ->
  evaluate_nodes (with_listed rnd' (Some (map (name_string (c_D c)) ps)) X) rnd c [k] cs = Ok cs' ->
  forall it nm, In it (co_items cs') -> In nm (map fst (s_comps (snd it))) -> In (values_of_name (c_D c) nm) ps).
Proof.
  intro H. destruct C20_case as (Hc & _ & _ & Hw & Hu & Hn & Hpos & Hprob & cs' & E).
  set (X := Externals (fun _ _ _ => None) (fun _ _ _ => None)) in *.
  assert (Hk : 0 < length (c_nodes measure_circuit)) by (cbn; lia). assert (En : node_at measure_circuit 0 = NMeasure [0] [1]) by reflexivity.
  specialize (H X (fun _ => 0) (fun _ => 0) measure_circuit 0 [0] [1] [] measure_input cs' Hc Hk En Hw (Forall_nil _)).
  rewrite (C80_plain X _ _ _ measure_circuit 0 [0] [1] measure_input Hc Hk En Hu) in H. specialize (H E).
  destruct (C20_outcome_distribution X (fun _ => 0) measure_circuit 0 [0] [1] measure_input cs' Hc Hk En Hw Hu Hn E) as (groups & Eg & HG).
  inversion HG as [|it g its gs Hg _]; subst. destruct Hg as [(os & Hnd & Hos & HF) _]. 
  assert (Hin : In [0] os) by (apply Hos; apply Hpos; now left). destruct HF as [|o new os' g' [_ Hnorm] _]; [destruct Hin|].
  destruct (s_comps (snd new)) as [|x l] eqn:Ex.
  { unfold state_norm2 in Hnorm. rewrite Ex in Hnorm. cbn in Hnorm. lra. }
  apply (H new (fst x)); [rewrite Eg; now left|]. rewrite Ex. now left.
Qed.
(** ** A case *)
(** A photon that is in channel 0 with amplitude 3/5 and in channel 1 with amplitude 4/5, given as
    two columns; only the projection "10" is looked at. *)
Definition D80 : dims := Dims 2 2 true.
Definition ray_state (n : nat) (a : C) (vs : values) : state :=
  State [120] 1 [(name_string D80 vs, (RtoC 1, 1%R))] [0%R] []
    [(AuxPhotonResolution, AuxResolution (Resolution (Some n) (Some a) (Some 1%R) (Some 0) (Some 1%R) (Some (0%R, 1%R))))].
Definition ray_80 (n : nat) (a : C) (vs : values) : ray := Ray n a 1 [((true, ray_state n a vs), (0%R, 1%R))].
Definition bundle_80 : bundle := Bundle [120] 0 1 [ray_80 0 (RtoC (3 / 5)) [1; 0]; ray_80 1 (RtoC (4 / 5)) [0; 1]].
Definition coll_80 : coll := Coll D80 1 (1 / 4) [([97], ray_state 0 (RtoC (3 / 5)) [1; 0]); ([98], ray_state 1 (RtoC (4 / 5)) [0; 1])].
Lemma carries_80 : carries coll_80 [bundle_80].
Proof.
  assert (Hr : forall n a c, a <> RtoC 0 -> c < 2 -> ray_ok D80 (1 / 4) 1 bundle_80 (ray_80 n a (one_photon 2 c))).
  { intros n a c Ha Hc. split; [exact Ha|]. split; [cbn; lra|]. split; [discriminate|]. split; [cbn; lia|]. apply Forall_cons; [|constructor]. cbn [fst snd ray_80 ry_states ry_number ry_amplitude ry_boson].
    split; [|split; [|split; [reflexivity|split]]].
    - apply check_state_iff. cbn [ray_state s_cum s_comps s_classical]. split; [lra|]. split; [|reflexivity]. repeat constructor; cbn [fst snd]; lra.
    - intros nm b p [Z|[]]. injection Z as _ <- <-. rewrite Cnorm2_RtoC. lra.
    - split; [discriminate|]. split; [repeat constructor; intros []|]. split; [|cbn; lia]. intros nm [<-|[]]. exists c. split; [exact Hc|reflexivity].
    - reflexivity. }
  split; [reflexivity|]. split; [repeat constructor; intros []|]. apply Forall_cons; [|constructor]. split; [discriminate|]. split; [repeat constructor; cbn; intuition discriminate|].
  apply Forall_cons; [|apply Forall_cons; [|constructor]]; [apply (Hr 0 (RtoC (3 / 5)) 0)|apply (Hr 1 (RtoC (4 / 5)) 1)]; try lia; intro Z; apply RtoC_inj in Z; lra.
Qed.
Lemma ray_branch_80 n a vs : ray_branch D80 (ray_80 n a vs) = Branch a 1 [Photon (wave D80 (ray_state n a vs)) (0%R, 1%R)].
Proof. reflexivity. Qed.
Lemma wave_80 n a vs : wave D80 (ray_state n a vs) 0 = if leqb (name_string D80 vs) (name_string D80 [1; 0]) then RtoC 1 else RtoC 0.
Proof.
  unfold wave, weighted_components. cbn [ray_state s_comps]. rewrite Csum_cons, Csum_nil. cbn [fst snd]. change (TemporalSpec.one_photon (dN D80) 0) with [1; 0].
  destruct (leqb (name_string D80 vs) (name_string D80 [1; 0])); apply C_eq; cbn; ring.
Qed.
Lemma detection_80 : detection (map (ray_branch D80) (bd_rays bundle_80)) [1; 0] = (9 / 25)%R.
Proof.
  unfold detection, interference. cbn [bundle_80 bd_rays map]. rewrite !ray_branch_80. unfold fitting. cbn [filter br_photons length].
  change (NamesSpec.photons [1; 0]) with 1. cbn [Nat.eqb]. change (permutations (seq 0 1)) with [[0]]. rewrite !Csum_cons, !Csum_nil.
  unfold path, indistinct, nth_photon. change (channels_of [1; 0]) with [0]. cbn [combine Cprod Rprod fold_right fst snd nth br_photons br_amplitude br_boson ph_wave ph_timing].
  rewrite !wave_80.
  change (leqb (name_string D80 [1; 0]) (name_string D80 [1; 0])) with true. change (leqb (name_string D80 [0; 1]) (name_string D80 [1; 0])) with false. cbv iota.
  unfold pulse_overlap. cbn [fst snd]. replace (- ln 2 * ((0 - 0) ^ 2 / (1 ^ 2 + 1 ^ 2)))%R with 0%R by field. rewrite exp_0.
  match goal with |- (Cmod ?z / _)%R = _ => replace z with (RtoC (9 / 25)) end.
  - rewrite Cmod_R, Rabs_pos_eq by lra. change (factorials [1; 0]) with 1. cbn [INR]. field.
  - apply C_eq; cbn; field.
Qed.
Example C80_case rnd : exists cs' bos, measure_listed rnd (Some [name_string D80 [1; 0]]) [0] [0] coll_80 = Some cs' /\ carries cs' (map fst bos) /\
  Rsum (filter (fun bo => leqb (bd_label (fst bo)) [120] && leqb (snd bo) [1]) bos) (fun bo => bd_weight (fst bo)) = (9 / 25)%R /\
  Rsum (filter (fun bo => leqb (bd_label (fst bo)) [120] && leqb (snd bo) [0]) bos) (fun bo => bd_weight (fst bo)) = 0%R.
Proof.
  destruct (C80_listed_measurement rnd [0] [0] coll_80 [bundle_80] [[1; 0]]) as (cs' & bos & M1 & _ & _ & _ & _ & M6 & _ & _ & M9); [cbn; lia|left; cbn; lia|cbn; lra|exact carries_80|repeat constructor; intros []|repeat constructor; cbn; lia| |].
  { apply Forall_cons; [|constructor]. split; [reflexivity|]. repeat constructor. }
  exists cs', bos. split; [exact M1|]. split; [exact M6|]. rewrite !M9. change (filter (fun b => leqb (bd_label b) [120]) [bundle_80]) with [bundle_80]. rewrite !Rsum_cons. cbn [bundle_80 bd_weight].
  split.
  - unfold listed_detection. change (filter (fun f => leqb (readout [0] f) [1] && among [[1; 0]] f) (tuples (dL (co_D coll_80)) (dN (co_D coll_80)))) with [[1; 0]]. rewrite Rsum_cons. pose proof detection_80 as E. etransitivity; [apply f_equal2; [|reflexivity]; apply f_equal; apply f_equal2; [exact E|reflexivity]|]. unfold Rsum. cbn [fold_right]. lra.
  - rewrite C80_none_listed; [unfold Rsum; cbn [fold_right]; lra|]. intros f [<-|[]]. discriminate.
Qed.
Print Assumptions C80_listed_measurement.
Print Assumptions C80_no_list.
Print Assumptions C80_listed_part.
Print Assumptions C80_all_listed.
Print Assumptions C80_none_listed.
Print Assumptions C80_plain.
Print Assumptions C80_plain_refuted.
