(** The quick time delay: a group of number states as a group of single photons. *)
From Coq Require Import Reals List Arith Lia Lra Bool Permutation.
From Coquelicot Require Import Complex.
From Verif Require Import Prelude NamesModel NamesSpec NamesProofs FockModel FockSpec FockProofs StateModel StateSpec StateProofs ApplyProofs
  CollectionModel EvalModel MeasureSpec MeasureProofs PropProducts ColumnModel ColumnSpec ColumnProofs PropColumn
  GroupProofs TemporalSpec TemporalProofs PropTemporal InterferenceSpec ArrangementProofs InterferenceProofs MeasuredProofs ExperimentSpec ExperimentProofs PermanentProofs PropPermanent SentProofs ConservationProofs SpreadProofs QuickSpec QuickProofs RouteSteps.
Import ListNotations.

Definition small_ray (D : dims) (c : column) : ray :=
  Ray (col_id c) (col_amp c) (col_boson c) (map (fun s => (photon_state_of D s, s, timing_of s)) (col_states c)).
Definition group_bundle (D : dims) (i : ident) (g : group) : bundle := Bundle i (g_id g) (g_cum g) (map (small_ray D) (group_columns g)).

Lemma group_bundle_states D i g : bundle_states (group_bundle D i g) = group_states_of g.
Proof.
  unfold bundle_states, group_bundle, group_states_of; cbn [bd_rays]. induction (group_columns g) as [|c l IH]; [reflexivity|]. cbn [map flat_map]. rewrite IH. f_equal. unfold small_ray; cbn [ry_states]. rewrite map_map. cbn [fst snd]. now rewrite map_id.
Qed.
Lemma small_ray_view D c : 1 <= dN D -> Forall (fun s => small_state D s /\ exists t, photon_of s = Some t) (col_states c) ->
  ray_views D (small_ray D c) = [view_of D c].
Proof.
  intros HN Hst. unfold ray_views, small_ray, lit_states; cbn [ry_amplitude ry_boson ry_states]. rewrite filter_map. rewrite (filter_ext _ (photon_state_of D)) by reflexivity. rewrite !map_map. cbn [snd].
  set (l := filter (photon_state_of D) (col_states c)).
  assert (Hl : forall s, In s l -> small_state D s /\ exists t, photon_of s = Some t).
  { intros s Hs. unfold l in Hs. apply filter_In in Hs. exact (proj1 (Forall_forall _ _) Hst s (proj1 Hs)). }
  assert (E1 : map (fun s => spectrum D (sp_state (photon_state_of D s, s, timing_of s))) l
             = map (fun s => [(RtoC 1, hd 0 (photon_channels (first_values D s)))]) l).
  { apply map_ext_in. intros s Hs. destruct (Hl s Hs) as [[vs [a [p [Hv [_ Es]]]]] _]. unfold spectrum, sp_state; cbn [fst snd]. unfold choices.
    rewrite Es. cbn [map fst snd]. unfold core_channel. rewrite core_values_of. reflexivity. }
  rewrite E1, assignments_single. cbn [map fst snd]. unfold view_of. f_equal. f_equal; [f_equal; ring|]. unfold list_of_photons. rewrite small_photons; [|exact HN|revert Hst; apply Forall_impl; intros s Hs; apply Hs]. fold l.
  clear -Hl. induction l as [|s l IH]; [reflexivity|]. cbn [map combine]. rewrite IH by (intros; apply Hl; right; assumption). f_equal. f_equal. destruct (Hl s (or_introl eq_refl)) as [_ [t Ht]]. unfold timing_of. rewrite Ht. reflexivity.
Qed.
Lemma small_wave D s c k : 2 <= dL D -> c < dN D -> forall q, s_comps s = [(name_string D (one_photon (dN D) c), q)] ->
  wave D s k = if k =? c then RtoC 1 else RtoC 0.
Proof.
  intros HL Hc q E. unfold wave, weighted_components. rewrite E. rewrite Csum_cons, Csum_nil. cbn [fst snd].
  destruct (Nat.eqb_spec k c) as [->|N].
  - rewrite (proj2 (leqb_spec _ _) eq_refl). ring.
  - destruct (leqb _ _) eqn:Q; [|ring]. exfalso. apply leqb_spec in Q. apply name_string_inj in Q.
    + apply N. assert (H : nth c (one_photon (dN D) c) 0 <> 0).
      { unfold one_photon. rewrite (nth_indep _ 0 ((fun i => if i =? c then 1 else 0) 0)) by (now rewrite map_length, seq_length). rewrite (map_nth (fun i => if i =? c then 1 else 0)), seq_nth by exact Hc. cbn [plus]. rewrite Nat.eqb_refl. discriminate. }
      rewrite Q in H. unfold one_photon in H. rewrite (nth_indep _ 0 ((fun i => if i =? k then 1 else 0) 0)) in H by (now rewrite map_length, seq_length). rewrite (map_nth (fun i => if i =? k then 1 else 0)), seq_nth in H by exact Hc. cbn [plus] in H.
      destruct (Nat.eqb_spec c k); [congruence|lia].
    + apply one_photon_valid; assumption.
    + unfold one_photon. apply Forall_map. apply Forall_forall. intros i _. destruct (i =? k); lia.
Qed.
Lemma same_photons a m ps ps' : Forall2 (fun p p' => ph_timing p' = ph_timing p /\ forall k, ph_wave p' k = ph_wave p k) ps ps' -> alike (Branch a m ps) (Branch a m ps').
Proof.
  intro H. assert (G : forall j, ph_timing (nth j ps' no_photon) = ph_timing (nth j ps no_photon) /\ forall k, ph_wave (nth j ps' no_photon) k = ph_wave (nth j ps no_photon) k).
  { induction H as [|p p' l l' Hp _ IH]; intros [|j]; cbn [nth]; try (split; reflexivity); [exact Hp|apply IH]. }
  unfold alike; cbn [br_photons]. split; [|split].
  - clear -H. induction H; cbn; congruence.
  - intro j. apply G.
  - intros cs s _ _. unfold path; cbn [br_amplitude br_boson]. f_equal. apply Cprod_ext. intros x _. unfold nth_photon; cbn [br_photons]. apply G.
Qed.
Lemma small_detection D f cols : 2 <= dL D -> 1 <= dN D -> Forall (fun c => Forall (fun s => small_state D s /\ exists t, photon_of s = Some t) (col_states c)) cols ->
  detection (map (ray_branch D) (map (small_ray D) cols)) f = detection (map (vbranch (fun a => a)) (map (view_of D) cols)) f.
Proof.
  intros HL HN H. apply alike_detection. rewrite !map_map. induction H as [|c l Hc _ IH]; [constructor|]. cbn [map]. constructor; [|exact IH]. clear IH.
  unfold vbranch, ray_branch, small_ray, view_of, v_amp, v_boson, v_photons; cbn [fst snd ry_amplitude ry_boson ry_states]. apply same_photons.
  rewrite filter_map, map_map. cbn [fst snd]. unfold list_of_photons. rewrite small_photons; [|exact HN|revert Hc; apply Forall_impl; intros s Hs; apply Hs]. rewrite map_map. cbn [fst snd].
  induction Hc as [|s r [Hs [T HT]] _ IH]; [constructor|]. cbn [filter]. pose proof (small_kind D s HN Hs) as Hk. destruct (photon_state_of D s) eqn:E; [|exact IH]. cbn [map]. constructor; [|exact IH].
  cbn [lamp ph_timing ph_wave]. split; [reflexivity|]. destruct Hs as [vs [a [p [Hv [Hp Hs]]]]]. rewrite (first_values_one D s vs a p Hv Hs).
  destruct Hk as [_ [_ [Hn _]]]. rewrite Hs in Hn. destruct (Hn _ (or_introl eq_refl)) as [c' [Hc' En]]. apply name_string_inj in En; [|apply Hv|apply one_photon_valid; assumption]. subst vs.
  intro k. rewrite (small_wave D s c' k HL Hc' _ Hs). rewrite channels_of_spec, one_channels by exact Hc'. reflexivity.
Qed.
Lemma choice_facts D eps ncl s x : splittable eps ncl s -> wf_state D s -> In x (choices s) ->
  fst x <> RtoC 0 /\ one_component D (fst (snd x)) /\ frame (fst (snd x)) = frame s /\ snd (snd x) = photon_of s /\ (probs_ok s -> probs_ok (fst (snd x))).
Proof.
  intros [_ [Hne Hmany]] [_ Hn] Hx. assert (C1 : RtoC 1 <> RtoC 0) by (intro Z; apply RtoC_inj in Z; lra). destruct (s_comps s) as [|[n1 [a1 p1]] [|c2 cs]] eqn:E; [congruence| |].
  - rewrite (choices_single_one s n1 (a1, p1) E) in Hx. destruct Hx as [<-|[]]. cbn [fst snd core_of]. split; [exact C1|].
    destruct (Hn n1 (or_introl eq_refl)) as [vs [Hv ->]]. split; [exists vs, a1, p1; split; [exact Hv|exact E]|]. split; [apply frame_drop|]. split; [reflexivity|]. intro H. exact H.
  - rewrite <- E in *. rewrite (choices_many s) in Hx by (rewrite E; cbn [length]; lia). apply in_map_iff in Hx. destruct Hx as [c [<- Hc]]. cbn [fst snd core_with core_of].
    split; [apply (proj1 (Forall_forall _ _) (proj1 (Hmany ltac:(rewrite E; cbn [length]; lia))) c Hc)|].
    destruct (Hn (fst c) (in_map fst _ _ Hc)) as [vs [Hv En]]. split; [exists vs, (RtoC 1), 1%R; split; [exact Hv|]; cbn [with_comps s_comps]; unfold unit_comp; now rewrite En|].
    split; [|split; [reflexivity|]].
    + transitivity (frame (drop_resolution s)); [reflexivity|apply frame_drop].
    + intros _ nm a p [Z|[]]. injection Z as _ <- <-. symmetry. rewrite Cnorm2_RtoC. ring.
Qed.
Lemma term_facts D eps ncl l t : Forall (fun s => splittable eps ncl s /\ wf_state D s) l -> In t (terms l) ->
  fst t <> RtoC 0 /\ length (snd t) = length l /\
  forall k, In k (snd t) -> exists s, In s l /\ one_component D (fst k) /\ frame (fst k) = frame s /\ snd k = photon_of s /\ (probs_ok s -> probs_ok (fst k)).
Proof.
  intro H. revert t. induction H as [|s l [H1 H2] _ IH]; intros t Ht; cbn [terms] in Ht.
  - destruct Ht as [<-|[]]. cbn [fst snd]. split; [intro Z; apply RtoC_inj in Z; lra|]. split; [reflexivity|intros k []].
  - apply in_flat_map in Ht. destruct Ht as [x [Hx Ht]]. apply in_map_iff in Ht. destruct Ht as [y [<- Hy]]. cbn [fst snd length]. destruct (IH y Hy) as [I1 [I2 I3]]. destruct (choice_facts D eps ncl s x H1 H2 Hx) as [J1 J2].
    split; [now apply Cmult_nonzero|]. split; [congruence|]. intros k [<-|Hk]; [exists s; split; [left; reflexivity|exact J2]|]. destruct (I3 k Hk) as [s' [Hs' K]]. exists s'. split; [right; exact Hs'|exact K].
Qed.
Definition clear_group (D : dims) (eps : R) (ncl : nat) (i : ident) (g : group) : Prop :=
  g_cols g <> [] /\ forall c, In c (group_columns g) -> col_amp c <> RtoC 0 /\ (0 < col_boson c)%R /\ col_states c <> [] /\
    (forall s, In s (col_states c) -> wf_state D s /\ probs_ok s /\ s_init s = i /\ exists T, photon_of s = Some T) /\
    forall t, In t (terms (col_states c)) -> length (core_photons D (snd t)) < dL D.
Lemma group_resolved D eps ncl i g : 1 <= dN D -> (0 <= eps)%R -> group_ok g -> group_fine eps ncl g -> clear_group D eps ncl i g ->
  exists g0 g', split_columns eps ncl g = Some g0 /\ single_photon_group D eps ncl g0 = Some g' /\
    bundle_ok D eps ncl (group_bundle D i g') /\ resolves D eps ncl (group_bundle D i g') g' /\ g_cum g' = g_cum g /\ g_id g' = g_id g /\
    Permutation (map (view_of D) (group_columns g')) (flat_map (cviews D) (group_columns g)) /\
    Forall (fun c => Forall (fun s => (small_state D s /\ exists t, photon_of s = Some t) /\ exists x, In x (group_states_of g) /\ frame s = frame x) (col_states c)) (group_columns g').
Proof.
  intros HN He Hok Hfine [Hne Hcl]. 
  destruct (split_columns_spec eps ncl g He Hok Hfine) as [g0 [E [E1 [E2 [E3 [E4 [E5 E6]]]]]]].
  assert (Hcol : forall c, In c (group_columns g0) -> exists d t, In d (group_columns g) /\ In t (terms (col_states d)) /\ map core_of (col_states c) = snd t /\ col_amp c = (col_amp d * fst t)%C /\ col_boson c = col_boson d).
  { intros c Hc. apply (in_map column_ess) in Hc. apply (Permutation_in _ E6) in Hc. unfold group_terms in Hc. apply in_flat_map in Hc. destruct Hc as [d [Hd Hc]].
    unfold expand in Hc. apply in_map_iff in Hc. destruct Hc as [t [Et Ht]]. exists d, t. split; [exact Hd|]. split; [exact Ht|]. split; [exact (eq_sym (f_equal snd Et))|]. split; [exact (eq_sym (f_equal (fun e => fst (fst (fst e))) Et))|exact (eq_sym (f_equal (fun e => snd (fst (fst e))) Et))]. }
  assert (Hfacts : forall c, In c (group_columns g0) -> col_amp c <> RtoC 0 /\ (0 < col_boson c)%R /\ col_states c <> [] /\ length (list_of_photons D c) < dL D /\
     Forall (fun s => one_component D s /\ probs_ok s /\ (exists x, In x (group_states_of g) /\ s_init x = i /\ frame s = frame x) /\ exists t, photon_of s = Some t) (col_states c)).
  { intros c Hc. destruct (Hcol c Hc) as [d [t [Hd [Ht [Hs [Ha Hb]]]]]]. destruct (Hcl d Hd) as [K1 [K2 [K3 [K4 K5]]]].
    assert (Hall : Forall (fun s => splittable eps ncl s /\ wf_state D s) (col_states d)) by (apply Forall_forall; intros s Hs'; split; [exact (proj1 (Forall_forall _ _) (proj1 (Forall_forall _ _) Hfine d Hd) s Hs')|apply (K4 s Hs')]).
    destruct (term_facts D eps ncl _ t Hall Ht) as [T1 [T2 T3]]. split; [rewrite Ha; now apply Cmult_nonzero|]. split; [now rewrite Hb|]. split; [intro Z; rewrite Z in Hs; rewrite <- Hs in T2; cbn in T2; apply K3; now apply length_zero_iff_nil|].
    split; [rewrite photons_core, Hs; now apply K5|]. apply Forall_forall. intros s Hs'. apply (in_map core_of) in Hs'. rewrite Hs in Hs'. destruct (T3 _ Hs') as [x [Hx [J1 [J2 [J3 J4]]]]]. cbn [core_of fst snd] in J1, J2, J3, J4.
    destruct (K4 x Hx) as [L1 [L2 [L3 [T L4]]]]. split; [destruct J1 as (vs & a & p & Q1 & Q2); exists vs, a, p; split; [exact Q1|exact Q2]|]. split; [exact (J4 L2)|]. split.
    - exists x. split; [unfold group_states_of; apply in_flat_map; exists d; now split|]. split; [exact L3|]. rewrite <- J2. symmetry. apply frame_drop.
    - exists T. congruence. }
  assert (Hone : Forall (fun c => Forall (fun st => check_state eps ncl st = true) (col_states c) /\ Forall (one_component D) (col_states c)) (group_columns g0)).
  { apply Forall_forall. intros c Hc. split; [apply splittable_check; exact (proj1 (Forall_forall _ _) E4 c Hc)|]. destruct (Hfacts c Hc) as (_ & _ & _ & _ & K). revert K. apply Forall_impl. intros s K. apply K. }
  pose proof (single_photon_group_spec D eps ncl g0 HN Hone) as Hsp.
  set (g' := Group (g_id g0) (g_cum g0) (map (fun kc => (fst kc, resolved_column D (snd kc))) (g_cols g0))) in *.
  assert (Hgc : group_columns g' = map (resolved_column D) (group_columns g0)) by (unfold g', group_columns; cbn [g_cols]; rewrite !map_map; reflexivity).
  assert (Hok' : group_ok g') by (apply resolved_group_ok; exact E3).
  assert (Hstates : Forall (fun c => col_states c <> [] /\ Forall (fun s => (small_state D s /\ exists t, photon_of s = Some t) /\ check_state eps ncl s = true /\ probs_ok s /\ (exists x, In x (group_states_of g) /\ s_init x = i /\ frame s = frame x)) (col_states c)) (group_columns g')).
  { rewrite Hgc. apply Forall_map. apply Forall_forall. intros c Hc. destruct (Hfacts c Hc) as (_ & _ & K1 & _ & K2). unfold resolved_column, make_column; cbn [col_states]. split.
    + intro Z. apply map_eq_nil in Z. destruct (col_states c) as [|s l]; [congruence|]. cbn [flat_map] in Z. apply app_eq_nil in Z. apply (parts_nonempty D s HN); [apply (Forall_inv K2)|apply Z].
    + apply Forall_map. apply Forall_forall. intros s Hs. apply in_flat_map in Hs. destruct Hs as [s0 [Hs0 Hs]]. destruct (proj1 (Forall_forall _ _) K2 s0 Hs0) as [L1 [L4 [[x [L2 [L2' L3]]] [tm L5]]]].
      pose proof (proj1 (Forall_forall _ _) (proj1 (proj1 (Forall_forall _ _) Hone c Hc)) s0 Hs0) as L7. split; [split|split; [|split]].
      * exact (proj1 (Forall_forall _ _) (parts_small D s0 HN L1) s Hs).
      * exists tm. rewrite photon_stamp, <- L5. exact (proj1 (Forall_forall _ _) (parts_photon D s0) s Hs).
      * exact (proj1 (Forall_forall _ _) (parts_check D eps ncl s0 L7 L1 L4) s Hs).
      * exact (proj1 (Forall_forall _ _) (parts_probs D s0) s Hs).
      * exists x. split; [exact L2|]. split; [exact L2'|]. rewrite <- L3. pose proof (proj1 (Forall_forall _ _) (parts_frame D s0) s Hs) as Hf. rewrite <- Hf. unfold frame. rewrite drop_stamp. reflexivity. }
  exists g0, g'. split; [exact E|]. split; [exact Hsp|].
  assert (Hviews : flat_map (ray_views D) (map (small_ray D) (group_columns g')) = map (view_of D) (group_columns g')).
  { clear -Hstates HN. induction Hstates as [|c l [_ Hc] _ IH]; [reflexivity|]. cbn [map flat_map]. rewrite IH, small_ray_view; [reflexivity|exact HN|]. revert Hc. apply Forall_impl. intros s Hs. apply Hs. }
  split; [|split; [|split; [|split; [|split]]]].
  - split; [|split].
    + cbn [group_bundle bd_rays]. rewrite Hgc. intro Z. apply map_eq_nil in Z. apply map_eq_nil in Z. pose proof (Permutation_length E6) as Hl. rewrite map_length, Z in Hl. cbn [length] in Hl. symmetry in Hl. apply length_zero_iff_nil in Hl.
      destruct (g_cols g) as [|kc r] eqn:Eg; [congruence|]. assert (Hin : In (snd kc) (group_columns g)) by (unfold group_columns; rewrite Eg; now left). unfold group_terms in Hl.
      assert (Hx : expand (snd kc) <> []). { intro Q. pose proof (expand_length (snd kc)) as X. rewrite Q in X. cbn in X. enough (1 <= 0) by lia. apply X. apply (splittable_nonempty eps ncl). exact (proj1 (Forall_forall _ _) Hfine _ Hin). }
      destruct (expand (snd kc)) as [|y ys] eqn:Ey; [congruence|]. assert (Hy : In y (flat_map expand (group_columns g))) by (apply in_flat_map; exists (snd kc); split; [exact Hin|rewrite Ey; now left]). rewrite Hl in Hy. destruct Hy.
    + cbn [group_bundle bd_rays]. rewrite map_map. cbn [small_ray ry_number]. destruct Hok' as [Hnd HF]. unfold group_columns. rewrite map_map. rewrite (map_ext_in _ fst); [exact Hnd|]. intros kc Hkc. exact (proj1 (proj1 (Forall_forall _ _) HF kc Hkc)).
    + cbn [group_bundle bd_rays]. apply Forall_map. apply Forall_forall. intros c' Hc'. destruct (proj1 (Forall_forall _ _) Hstates c' Hc') as [S1 S2].
      assert (Hst : stamped c' /\ col_group c' = g_id g' /\ col_cum c' = g_cum g'). { destruct Hok' as [_ HF]. unfold group_columns in Hc'. apply in_map_iff in Hc'. destruct Hc' as [kc [<- Hkc]]. destruct (proj1 (Forall_forall _ _) HF kc Hkc) as (_ & Q1 & Q2 & Q3). now split. }
      rewrite Hgc in Hc'. apply in_map_iff in Hc'. destruct Hc' as [c [<- Hc]]. destruct (Hfacts c Hc) as (F1 & F2 & F3 & F4 & F5).
      split; [exact F1|]. split; [|split; [|split]].
      * cbn [small_ray ry_boson resolved_column make_column col_boson]. apply Rmult_lt_0_compat; [exact F2|]. apply sqrt_lt_R0. apply lt_0_INR. pose proof (product_pos (map (first_values D) (col_states c))) as P. now rewrite map_map in P.
      * cbn [small_ray ry_states]. intro Z. apply map_eq_nil in Z. exact (S1 Z).
      * rewrite ray_branch_length. unfold lit_states, small_ray; cbn [ry_states]. rewrite filter_map, map_length. rewrite (filter_ext _ (photon_state_of D)) by reflexivity.
        rewrite ready_lit_length by (revert S2; apply Forall_impl; intros s Q; apply Q). unfold v_channels, v_photons, view_of; cbn [snd]. rewrite map_length, resolved_photons; [exact F4|exact HN|]. apply (proj1 (Forall_forall _ _) Hone c Hc).
      * cbn [small_ray ry_states]. apply Forall_map. apply Forall_forall. intros s Hs. cbn [fst snd]. destruct (proj1 (Forall_forall _ _) S2 s Hs) as ((T1 & T & T2) & T3 & T4 & x & T5 & T6 & T7). split; [exact T3|]. split; [exact T4|]. split.
        { cbn [group_bundle bd_label]. rewrite <- T6. apply (frame_fields _ _ T7). }
        split; [exact (small_kind D s HN T1)|]. destruct Hst as (Hs1 & Hs2 & Hs3). pose proof (proj1 (Forall_forall _ _) Hs1 s Hs) as Hr. unfold resolution_of in Hr.
        destruct (dget aux_eqb AuxPhotonResolution (s_aux s)) as [[| |]|]; try discriminate. injection Hr as Hr. rewrite Hr, T2. unfold timing_of. rewrite T2. cbn [group_bundle bd_group bd_weight small_ray ry_number ry_amplitude ry_boson or_else]. rewrite <- Hs2, <- Hs3. reflexivity.
  - split; [exact Hok'|]. split; [reflexivity|]. split; [reflexivity|]. split; [cbn [group_bundle bd_rays]; rewrite Hviews; reflexivity|].
    apply Forall_forall. intros c Hc. destruct (proj1 (Forall_forall _ _) Hstates c Hc) as [S1 S2]. split; [exact S1|]. apply Forall_forall. intros s Hs. destruct (proj1 (Forall_forall _ _) S2 s Hs) as ((T1 & T2) & T3 & T4 & _).
    split; [exact T1|]. split; [exact T3|]. split; [exact T4|]. split; [exact T2|]. exists s. split; [|reflexivity]. rewrite group_bundle_states. unfold group_states_of. apply in_flat_map. exists c. now split.
  - cbn [g' g_cum]. exact E2.
  - cbn [g' g_id]. exact E1.
  - rewrite Hgc. apply (Permutation_map (fun e : ess => (ess_amp e, (snd (fst (fst e)) * sqrt (INR (product (map factorials (map (core_values D) (snd e))))))%R, core_photons D (snd e)) : view)) in E6. rewrite map_map in E6. rewrite map_map.
    etransitivity; [|etransitivity; [exact E6|]].
    + apply perm_eq. apply map_ext_in. intros c Hc. unfold view_of, column_ess, ess_amp. cbn [fst snd]. rewrite resolved_photons; [|exact HN|apply (proj1 (Forall_forall _ _) Hone c Hc)].
      rewrite photons_core. unfold resolved_column, make_column; cbn [col_amp col_boson]. rewrite !map_map. reflexivity.
    + apply perm_eq. unfold group_terms. clear. induction (group_columns g) as [|c l IH]; [reflexivity|]. cbn [flat_map]. rewrite map_app, IH. f_equal. unfold expand, cviews. rewrite map_map. reflexivity.
  - revert Hstates. apply Forall_impl. intros c [_ K]. revert K. apply Forall_impl. intros s (K1 & _ & _ & x & K2 & _ & K3). split; [exact K1|]. exists x. now split.
Qed.

(** ** The groups after the optical elements *)
Definition sent_column (F : state -> state) (c : column) : column := sub_column c (map F (col_states c)).
Definition sent_group (F : state -> state) (g : group) : group := Group (g_id g) (g_cum g) (map (fun kc => (fst kc, sent_column F (snd kc))) (g_cols g)).
Lemma sent_group_states F g : group_states_of (sent_group F g) = map F (group_states_of g).
Proof.
  unfold group_states_of, group_columns, sent_group; cbn [g_cols]. rewrite map_map. cbn [snd]. induction (g_cols g) as [|kc l IH]; [reflexivity|]. cbn [map flat_map]. rewrite map_app, <- IH. reflexivity.
Qed.
Definition made_group (n : nat) (q : R) (Rz : column -> column) (g : group) : group := Group n q (map (fun kc => (fst kc, Rz (snd kc))) (g_cols g)).
Definition piece (D : dims) (eps : R) (ncl : nat) (st : state) (s : state) (p : values * (R * R)) : Prop :=
  (exists a, a = lone st /\ s_comps s = [(name_string D (fst p), (a, Cnorm2 a))]) /\ check_state eps ncl s = true /\ photon_of s = Some (snd p) /\ s_init s = s_init st /\ s_classical s = s_classical st.
Lemma piece_probs D eps ncl st s p : piece D eps ncl st s p -> probs_ok s.
Proof. intros [[a [_ E]] _] nm a' p' Hin. rewrite E in Hin. destruct Hin as [Z|[]]. injection Z as _ <- <-. reflexivity. Qed.
Lemma sum_bound (l : list nat) x : In x l -> x <= fold_right Nat.add 0 l.
Proof. induction l as [|y l IH]; [intros []|]. intros [->|H]; cbn [fold_right]; [lia|]. specialize (IH H). lia. Qed.
Lemma lone_many st : 2 <= length (s_comps st) -> lone st = RtoC 1.
Proof. unfold lone. destruct (s_comps st) as [|[nm [a p]] [|c l]]; cbn [length]; intro H; [lia|lia|reflexivity]. Qed.

Section Sent.
Variables (D : dims) (eps : R) (ncl : nat) (es : list optic) (F : state -> state) (chs : list nat) (t : R) (phi : R * R -> R * R) (sk : state * nat) (g : group) (n : nat) (q : R) (Rz : column -> column) (pieces : values -> list (values * (R * R))).
Hypothesis HL : 2 <= dL D.
Hypothesis HN : 1 <= dN D.
Hypothesis He : (0 <= eps)%R.
Hypothesis HF : sends_numbers D eps ncl es F.
Hypothesis Hgood : good_state D eps ncl (fst sk).
Hypothesis Hsend : sendable D (fst sk).
Hypothesis Hsplit : split_facts eps ncl sk g.
Hypothesis Hphase : 2 <= length (s_comps (fst sk)) -> no_certain_phase D es.
Hypothesis HR : forall c, In c (group_columns g) -> col_id (Rz c) = col_id c /\ col_amp (Rz c) = col_amp c /\ col_boson (Rz c) = 1%R /\ col_group (Rz c) = n /\ col_cum (Rz c) = q /\ stamped (Rz c) /\
  Forall2 (piece D eps ncl (fst sk)) (col_states (Rz c)) (pieces (col_vals D c)).
Hypothesis HP : forall v, valid D v -> NamesSpec.photons v < dL D -> pieces v <> [] /\ Forall (fun p => valid D (fst p) /\ (phi (snd p) = ((- t)%R, 1%R) \/ phi (snd p) = (0%R, 1%R))) (pieces v) /\
  product (map factorials (map fst (pieces v))) = factorials v /\ fold_right Nat.add 0 (map (fun p => NamesSpec.photons (fst p)) (pieces v)) = NamesSpec.photons v /\
  Permutation (block_beams (transfer (dN D) es) (map (fun p => (fst p, phi (snd p))) (pieces v))) (sent_photons (dN D) es chs t 1 v).
Hypothesis Hphi : forall a b, pulse_overlap (phi a) (phi b) = pulse_overlap a b.
Let st := fst sk.
Let beam := sent_photons (dN D) es chs t 1.

Lemma col_vals_ok c : In c (group_columns g) -> valid D (col_vals D c) /\ NamesSpec.photons (col_vals D c) < dL D /\ col_amp c <> RtoC 0.
Proof.
  intro Hc. destruct (split_columns_read D eps ncl sk g c He Hgood Hsplit Hc) as ((s & vs & a & p & _ & Hv & _ & _ & _ & _ & _ & _ & _ & _ & _ & _ & Ev) & _ & Ha & _ & Hin). split; [now rewrite Ev|]. split; [|exact Ha].
  apply in_map_iff in Hin. destruct Hin as [[nm z] [E Hin]]. cbn [fst snd] in E. pose proof (f_equal fst E) as E1. cbn [fst] in E1. rewrite <- E1.
  destruct Hsend as (_ & _ & HS). assert (Hnm : exists c0, In c0 (s_comps (fst sk)) /\ fst c0 = nm).
  { unfold weighted_components in Hin. destruct (s_comps (fst sk)) as [|[n1 q1] [|c2 r]].
    - destruct Hin.
    - destruct Hin as [Z|[]]. injection Z as <- _. eexists. split; [left; reflexivity|reflexivity].
    - apply in_map_iff in Hin. destruct Hin as [c0 [Z Hc0]]. exists c0. split; [exact Hc0|]. exact (f_equal fst Z). }
  destruct Hnm as [c0 [Hc0 <-]]. exact (proj1 (Forall_forall _ _) HS c0 Hc0).
Qed.
Lemma column_sent c : In c (group_columns g) -> exists th, Cnorm2 th = 1%R /\ (2 <= length (s_comps (fst sk)) -> th = RtoC 1) /\
  column_fans D (transfer (dN D) es) phi beam t th (col_vals D c) (sent_column F (Rz c)) /\
  Forall (fun s => splittable eps ncl s /\ wf_state D s /\ probs_ok s /\ s_init s = s_init st /\ s_classical s = s_classical st /\ exists T, photon_of s = Some T) (map F (col_states (Rz c))).
Proof.
  intro Hc. destruct (col_vals_ok c Hc) as (Hv & Hph & Ha). destruct (HR c Hc) as (R1 & R2 & R3 & R4 & R5 & R6 & R7). destruct (HP (col_vals D c) Hv Hph) as (P1 & P2 & P3 & P4 & P5).
  assert (Hsmall : Forall (fun p => valid D (fst p) /\ NamesSpec.photons (fst p) < dL D) (pieces (col_vals D c))).
  { apply Forall_forall. intros p Hp. split; [apply (proj1 (Forall_forall _ _) P2 p Hp)|]. rewrite <- P4 in Hph. pose proof (sum_bound _ _ (in_map (fun p => NamesSpec.photons (fst p)) _ _ Hp)). lia. }
  assert (G : exists ths, length (pieces (col_vals D c)) = length ths /\ Cnorm2 (Cprod ths (fun z => z)) = 1%R /\ (2 <= length (s_comps (fst sk)) -> Cprod ths (fun z => z) = RtoC 1) /\
     Forall2 (fun s q => fans D (transfer (dN D) es) (fst (fst q)) (snd (fst q)) (snd q) s) (map F (col_states (Rz c))) (combine (pieces (col_vals D c)) ths) /\
     Forall (fun s => splittable eps ncl s /\ wf_state D s /\ probs_ok s /\ s_init s = s_init st /\ s_classical s = s_classical st /\ exists T, photon_of s = Some T) (map F (col_states (Rz c)))).
  { clear P1 P2 P3 P4 P5. induction R7 as [|s p l l' Hs _ IH].
    - exists []. split; [reflexivity|]. split; [unfold Cprod; cbn [fold_right]; rewrite Cnorm2_RtoC; ring|]. split; [reflexivity|]. split; constructor.
    - inversion Hsmall as [|p0 l0 [S1 S2] S3]; subst. destruct (IH S3) as (ths & I1 & I2 & I3 & I4 & I5). pose proof (piece_probs _ _ _ _ _ _ Hs) as Hpr. destruct Hs as ([a [Ea Ec]] & Hck & Hpo & Hi & Hcl).
      destruct HF as [HF1 HF2]. destruct (HF2 s (fst p) a (Cnorm2 a) (snd p) S1 S2 Ec ltac:(rewrite Ea; now apply (lone_unit D)) Hck Hpr Hpo) as (F1 & F2 & F3 & th & F4 & F5 & F6). destruct (HF1 s) as (E1 & E2 & E3 & E4).
      exists (th :: ths). split; [cbn [length]; congruence|]. cbn [Cprod fold_right]. fold (Cprod ths (fun z => z)). split; [rewrite Cnorm2_mult, F4, I2; ring|]. split.
      { intro H2. rewrite (I3 H2), F6; [ring|rewrite Ea; now apply lone_many|exact (Hphase H2)]. }
      cbn [combine map]. split; [constructor; [exact F5|exact I4]|]. constructor; [|exact I5]. split; [exact F1|]. split; [exact F2|]. split; [exact F3|]. split; [unfold st; congruence|]. split; [unfold st; congruence|]. exists (snd p). rewrite (aux_photon (F s) s E2). exact Hpo. }
  destruct G as (ths & G1 & G2 & G3 & G4 & G5). exists (Cprod ths (fun z => z)). split; [exact G2|]. split; [exact G3|]. split; [|exact G5].
  exists (pieces (col_vals D c)), ths. split; [exact G1|]. split; [exact G4|]. split; [reflexivity|]. split; [exact P3|]. split; [exact P4|]. split; [revert P2; apply Forall_impl; intros p Hp; apply Hp|]. split; [exact P5|exact R3].
Qed.
Lemma made_ok : group_ok (made_group n q Rz g).
Proof.
  destruct Hsplit as (_ & _ & [Hnd Hok] & _). split.
  - unfold made_group; cbn [g_cols]. unfold dkeys in *. rewrite map_map. exact Hnd.
  - unfold made_group; cbn [g_cols g_id g_cum]. apply Forall_map. apply Forall_forall. intros kc Hkc. cbn [fst snd]. destruct (HR (snd kc) (in_map snd _ _ Hkc)) as (R1 & R2 & R3 & R4 & R5 & R6 & R7). split; [rewrite R1; apply (proj1 (Forall_forall _ _) Hok kc Hkc)|]. split; [exact R4|]. split; [exact R5|exact R6].
Qed.
Lemma sent_group_good gg : group_ok gg -> group_ok (sent_group F gg).
Proof.
  intros [Hnd Hok]. split; [unfold sent_group, dkeys in *; cbn [g_cols]; rewrite map_map; exact Hnd|]. unfold sent_group; cbn [g_cols g_id g_cum]. apply Forall_map. revert Hok. apply Forall_impl. intros kc (H1 & H2 & H3 & H4). cbn [fst snd sent_column sub_column col_id col_group col_cum]. split; [exact H1|]. split; [exact H2|]. split; [exact H3|].
  unfold stamped in *. unfold sent_column, sub_column; cbn [col_states col_id col_amp col_boson col_group col_cum]. apply Forall_map. revert H4. apply Forall_impl. intros s Hs. destruct HF as [HF1 _]. destruct (HF1 s) as (_ & E2 & _). rewrite (aux_photon (F s) s E2). unfold resolution_of in *. rewrite E2. exact Hs.
Qed.
Let h := sent_group F (made_group n q Rz g).
Lemma h_columns : group_columns h = map (fun c => sent_column F (Rz c)) (group_columns g).
Proof. unfold h, group_columns, sent_group, made_group; cbn [g_cols]. rewrite !map_map. reflexivity. Qed.
Definition old_values (c : column) : values := match dget Nat.eqb (col_id c) (g_cols g) with Some c0 => col_vals D c0 | None => [] end.
Lemma old_values_sent c : In c (group_columns g) -> old_values (sent_column F (Rz c)) = col_vals D c.
Proof.
  intro Hc. unfold old_values. cbn [sent_column sub_column col_id]. rewrite (proj1 (HR c Hc)). unfold group_columns in Hc. apply in_map_iff in Hc. destruct Hc as [kc [<- Hkc]]. destruct Hsplit as (_ & _ & [Hnd Hok] & _).
  rewrite (proj1 (proj1 (Forall_forall _ _) Hok kc Hkc)). rewrite (dget_in Nat.eqb nat_eqb_spec (fst kc) (snd kc)); [reflexivity|exact Hnd|destruct kc; exact Hkc].
Qed.
Lemma pieces_sent : readable (s_init st, h) /\ group_fine eps ncl h /\ clear_group D eps ncl (s_init st) h /\ (forall s, In s (group_states_of h) -> wf_state D s /\ check_state eps ncl s = true /\ s_init s = s_init st /\ s_classical s = s_classical st /\ s_comps s <> []) /\
  forall f, length f = dN D -> detection (map (vbranch (fun a => a)) (flat_map (cviews D) (group_columns h))) f = detection (sent_branches D es chs t 1 st) f.
Proof.
  assert (Hne : group_columns g <> []) by exact (split_facts_nonempty D eps ncl sk g Hgood Hsplit).
  assert (Hcn : g_cols h <> []) by (unfold h, sent_group, made_group; cbn [g_cols]; intro Z; apply map_eq_nil in Z; apply map_eq_nil in Z; apply Hne; unfold group_columns; now rewrite Z).
  assert (Hstates : forall c, In c (group_columns g) -> map F (col_states (Rz c)) <> []).
  { intros c Hc Z. apply map_eq_nil in Z. destruct (HR c Hc) as (_ & _ & _ & _ & _ & _ & R7). destruct (col_vals_ok c Hc) as (Hv & Hph & _). destruct (HP _ Hv Hph) as [P1 _]. rewrite Z in R7. inversion R7 as [E0|]. symmetry in H. exact (P1 H). }
  assert (Hok : group_ok h) by (apply sent_group_good; apply made_ok).
  split; [|split; [|split; [|split]]].
  - split; [exact Hok|]. split; [exact Hcn|]. cbn [fst snd].
    assert (Hall : Forall (fun c => col_states c <> [] /\ Forall (fun s => s_init s = s_init st) (col_states c)) (group_columns h)).
    { rewrite h_columns. apply Forall_map. apply Forall_forall. intros c Hc. cbn [sent_column sub_column col_states]. split; [now apply Hstates|]. destruct (column_sent c Hc) as (th & _ & _ & _ & HS). revert HS. apply Forall_impl. intros s Hs. apply Hs. }
    unfold group_columns in Hall. rewrite Forall_map in Hall. split; revert Hall; apply Forall_impl; intros kc Hk; apply Hk.
  - unfold group_fine. rewrite h_columns. apply Forall_map. apply Forall_forall. intros c Hc. unfold col_ok; cbn [sent_column sub_column col_states]. destruct (column_sent c Hc) as (th & _ & _ & _ & HS). revert HS. apply Forall_impl. intros s Hs. apply Hs.
  - split; [exact Hcn|]. rewrite h_columns. intros c' Hc'. apply in_map_iff in Hc'. destruct Hc' as [c [<- Hc]]. destruct (HR c Hc) as (R1 & R2 & R3 & R4 & R5 & R6 & R7). destruct (col_vals_ok c Hc) as (Hv & Hph & Ha). destruct (column_sent c Hc) as (th & _ & _ & Hfan & HS).
    cbn [sent_column sub_column col_amp col_boson col_states]. rewrite R2, R3. split; [exact Ha|]. split; [lra|]. split; [now apply Hstates|]. split.
    + intros s Hs. destruct (proj1 (Forall_forall _ _) HS s Hs) as (S1 & S2 & S3 & S4 & S5 & S6). now repeat (split; [assumption|]).
    + intros tt Ht. destruct Hfan as (ps & ths & Q1 & Q2 & _ & _ & Q5 & _). destruct (terms_count D _ _ ps ths Q2 Q1 tt Ht) as [Q _]. rewrite Q, Q5. exact Hph.
  - intros s Hs. unfold group_states_of in Hs. rewrite h_columns in Hs. apply in_flat_map in Hs. destruct Hs as [c' [Hc' Hs]]. apply in_map_iff in Hc'. destruct Hc' as [c [<- Hc]]. destruct (column_sent c Hc) as (th & _ & _ & _ & HS). destruct (proj1 (Forall_forall _ _) HS s Hs) as (S1 & S2 & S3 & S4 & S5 & S6). split; [exact S2|]. split; [apply S1|]. split; [exact S4|]. split; [exact S5|apply S1].
  - intros f Hf. rewrite <- (retimed_detection phi _ f Hphi).
    assert (Huni : exists th, Cnorm2 th = 1%R /\ Forall (fun c => column_fans D (transfer (dN D) es) phi beam t th (col_vals D c) (sent_column F (Rz c))) (group_columns g)).
    { destruct (Nat.le_gt_cases 2 (length (s_comps (fst sk)))) as [H2|H2].
      - exists (RtoC 1). split; [rewrite Cnorm2_RtoC; ring|]. apply Forall_forall. intros c Hc. destruct (column_sent c Hc) as (th & _ & Eth & Hfan & _). rewrite <- (Eth H2). exact Hfan.
      - assert (Hl : length (group_columns g) = 1).
        { destruct Hsplit as (_ & _ & _ & _ & Hp). pose proof (Permutation_length Hp) as Hl. rewrite !map_length in Hl. rewrite Hl. destruct Hgood as [_ [_ [Hn1 _]]]. unfold choices. destruct (s_comps (fst sk)) as [|x [|y r]]; [congruence|reflexivity|cbn [length] in H2; lia]. }
        assert (Eg : exists c, group_columns g = [c]) by (clear -Hl; destruct (group_columns g) as [|c [|d r]]; try discriminate; now exists c). destruct Eg as [c Eg]. assert (Hc : In c (group_columns g)) by (rewrite Eg; now left). destruct (column_sent c Hc) as (th & Hth & _ & Hfan & _). exists th. split; [exact Hth|]. rewrite Eg. constructor; [exact Hfan|constructor]. }
    destruct Huni as (th & Hth & Hall).
    apply (group_detection D (transfer (dN D) es) phi beam t th old_values); [exact Hth| | |  |exact Hf].
    + rewrite h_columns. apply Forall_map. apply Forall_forall. intros c Hc. rewrite (old_values_sent c Hc). split; [exact (proj1 (Forall_forall _ _) Hall c Hc)|]. destruct (col_vals_ok c Hc) as (Hv & Hph & _). split; [exact Hph|]. unfold beam, sent_photons. now rewrite map_length, channels_length.
    + intros v p Hp. unfold beam, sent_photons in Hp. apply in_map_iff in Hp. destruct Hp as [k [<- _]]. cbn [ph_timing]. destruct (channel_in chs k); [left|right]; reflexivity.
    + rewrite h_columns, map_map, map_map. rewrite <- (map_map (fun c => (old_values (sent_column F (Rz c)), col_amp (sent_column F (Rz c)))) (fun va : values * C => Branch (snd va) (sqrt (INR (factorials (fst va)))) (beam (fst va)))).
      assert (E : map (fun c => (old_values (sent_column F (Rz c)), col_amp (sent_column F (Rz c)))) (group_columns g) = map (fun c => (col_vals D c, col_amp c)) (group_columns g)).
      { apply map_ext_in. intros c Hc. rewrite (old_values_sent c Hc). cbn [sent_column sub_column col_amp]. now rewrite (proj1 (proj2 (HR c Hc))). }
      rewrite E. pose proof (proj2 (split_reads D eps ncl sk g He Hgood Hsplit)) as Hp. apply (Permutation_map (fun va : values * C => Branch (snd va) (sqrt (INR (factorials (fst va)))) (beam (fst va)))) in Hp. etransitivity; [exact Hp|]. apply perm_eq. rewrite map_map. reflexivity.
Qed.
End Sent.

(** ** The photons of the two parts *)
Definition masked_from (k : nat) (keep : nat -> bool) (vs : values) : values := map (fun cv : nat * nat => if keep (fst cv) then snd cv else 0) (combine (seq k (length vs)) vs).
Lemma kept_from keep vs : kept keep vs = masked_from 0 keep vs.
Proof. rewrite <- masked_kept. reflexivity. Qed.
Lemma masked_factorials keep vs : forall k, factorials (masked_from k (fun c => negb (keep c)) vs) * factorials (masked_from k keep vs) = factorials vs.
Proof.
  induction vs as [|v vs IH]; intro k; [reflexivity|]. unfold masked_from in *. cbn [length seq combine map fst snd]. specialize (IH (S k)). unfold factorials in *. cbn [fold_right]. destruct (keep k); cbn [negb]; change (fact 0) with 1; nia.
Qed.
Lemma masked_pc keep vs : forall k, pc k (masked_from k keep vs) = filter keep (pc k vs).
Proof.
  induction vs as [|v vs IH]; intro k; [reflexivity|]. unfold masked_from. cbn [length seq combine map fst snd]. rewrite !pc_cons, filter_app. f_equal; [|apply IH].
  destruct (keep k) eqn:E; [|cbn [repeat]]; induction v as [|v IHv]; try reflexivity; cbn [repeat filter]; rewrite E; [f_equal|]; exact IHv.
Qed.
Lemma kept_channels keep vs : channels_of (kept keep vs) = filter keep (channels_of vs).
Proof. rewrite <- !channels_of_spec, !photon_channels_pc, kept_from. apply masked_pc. Qed.
Lemma filter_split {A} (p : A -> bool) l : Permutation (filter (fun x => negb (p x)) l ++ filter p l) l.
Proof.
  induction l as [|x l IH]; [constructor|]. cbn [filter]. destruct (p x); cbn [negb].
  - etransitivity; [symmetry; apply Permutation_middle|]. now constructor.
  - cbn [app]. now constructor.
Qed.
Lemma kept_photons keep vs : NamesSpec.photons (kept (fun c => negb (keep c)) vs) + NamesSpec.photons (kept keep vs) = NamesSpec.photons vs.
Proof. rewrite <- !channels_length, !kept_channels, <- app_length. apply Permutation_length. apply filter_split. Qed.

Definition shift100 (a : R * R) : R * R := ((- fst a - 100)%R, snd a).
Lemma shift_isometry a b : pulse_overlap (shift100 a) (shift100 b) = pulse_overlap a b.
Proof. unfold pulse_overlap, shift100; cbn [fst snd]. f_equal. f_equal. f_equal. ring. Qed.
Definition together_pieces (v : values) : list (values * (R * R)) := [(v, (0%R, 1%R))].
Definition apart_pieces (chs : list nat) (v : values) : list (values * (R * R)) :=
  [(kept (fun c => negb (channel_in chs c)) v, ((-100)%R, 1%R)); (kept (channel_in chs) v, (100%R, 1%R))].
Definition pieces_fit (D : dims) (es : list optic) (chs : list nat) (t : R) (phi : R * R -> R * R) (pieces : values -> list (values * (R * R))) : Prop :=
  forall v, valid D v -> NamesSpec.photons v < dL D -> pieces v <> [] /\ Forall (fun p => valid D (fst p) /\ (phi (snd p) = ((- t)%R, 1%R) \/ phi (snd p) = (0%R, 1%R))) (pieces v) /\
  product (map factorials (map fst (pieces v))) = factorials v /\ fold_right Nat.add 0 (map (fun p => NamesSpec.photons (fst p)) (pieces v)) = NamesSpec.photons v /\
  Permutation (block_beams (transfer (dN D) es) (map (fun p => (fst p, phi (snd p))) (pieces v))) (sent_photons (dN D) es chs t 1 v).
Lemma together_fit D es chs : pieces_fit D es chs 0 (fun a => a) together_pieces.
Proof.
  intros v Hv _. unfold together_pieces. split; [discriminate|]. split; [constructor; [|constructor]; split; [exact Hv|right; reflexivity]|]. cbn [map product fold_right fst snd]. split; [lia|]. split; [lia|].
  unfold block_beams. cbn [flat_map fst snd]. rewrite app_nil_r. apply perm_eq. unfold beams, sent_photons. apply map_ext. intro k. do 2 f_equal. destruct (channel_in chs k); [now rewrite Ropp_0|reflexivity].
Qed.
Lemma apart_fit D es chs : pieces_fit D es chs 200 shift100 (apart_pieces chs).
Proof.
  intros v Hv _. unfold apart_pieces. split; [discriminate|]. split.
  { repeat apply Forall_cons; [| |constructor]; cbn [fst snd]; (split; [now apply kept_valid|]); unfold shift100; cbn [fst snd]; [right; f_equal; ring|left; f_equal; ring]. }
  cbn [map product fold_right fst snd]. split; [rewrite !kept_from; pose proof (masked_factorials (channel_in chs) v 0); lia|]. split; [pose proof (kept_photons (channel_in chs) v); lia|].
  unfold block_beams. cbn [flat_map fst snd]. rewrite app_nil_r, !kept_channels. unfold shift100; cbn [fst snd].
  etransitivity; [|unfold sent_photons; apply Permutation_map; apply (filter_split (channel_in chs))]. rewrite map_app. apply perm_eq. f_equal.
  - unfold beams. apply map_ext_in. intros k Hk. apply filter_In in Hk. destruct Hk as [_ Hk]. destruct (channel_in chs k); [discriminate|]. f_equal. f_equal. ring.
  - unfold beams. apply map_ext_in. intros k Hk. apply filter_In in Hk. destruct Hk as [_ Hk]. rewrite Hk. f_equal. f_equal. ring.
Qed.
Lemma column_probs D eps ncl sk g c : (0 <= eps)%R -> good_state D eps ncl (fst sk) -> sendable D (fst sk) -> split_facts eps ncl sk g -> In c (group_columns g) -> Forall probs_ok (col_states c).
Proof.
  intros He Hg (Hpr & _) (_ & _ & _ & _ & Hp) Hc. apply (in_map column_ess) in Hc. apply (Permutation_in _ Hp) in Hc. apply in_map_iff in Hc. destruct Hc as [x [E Hx]]. pose proof (f_equal snd E) as E1. cbn [snd column_ess] in E1.
  destruct (choice_facts D eps ncl (fst sk) x (proj2 Hg) (proj1 (proj1 Hg)) Hx) as (_ & _ & _ & _ & K). specialize (K Hpr). destruct (col_states c) as [|s [|s' l]]; try discriminate.
  constructor; [|constructor]. injection E1 as E1. rewrite E1 in K. exact K.
Qed.
Lemma made_check eps ncl s s' q : check_state eps ncl s = true -> s_classical s' = s_classical s -> s_cum s' = (s_cum s * q)%R -> Forall (fun c => (- eps <= snd (snd c) <= 1 + eps)%R) (s_comps s') -> (0 <= eps)%R -> (0 <= s_cum s <= 1)%R -> (0 <= q <= 1)%R -> check_state eps ncl s' = true.
Proof.
  rewrite !check_state_iff. intros (_ & _ & H3) E1 E2 H4 He Hs Hq. rewrite E1, E2. split; [|split; [exact H4|exact H3]]. split; [|nra]. pose proof (Rmult_le_pos _ _ (proj1 Hs) (proj1 Hq)). lra.
Qed.
Lemma overlap_pieces D eps ncl sk g c n ov : (0 <= eps)%R -> good_state D eps ncl (fst sk) -> sendable D (fst sk) -> split_facts eps ncl sk g -> In c (group_columns g) -> (0 <= ov <= 1)%R ->
  let c' := overlap_result n ov c in col_id c' = col_id c /\ col_amp c' = col_amp c /\ col_boson c' = 1%R /\ col_group c' = n /\ col_cum c' = (s_cum (fst sk) * ov)%R /\ stamped c' /\
  Forall2 (piece D eps ncl (fst sk)) (col_states c') (together_pieces (col_vals D c)).
Proof.
  intros He Hg Hs Hsp Hc Hov. pose proof (column_probs D eps ncl sk g c He Hg Hs Hsp Hc) as Hpr. destruct (split_columns_read D eps ncl sk g c He Hg Hsp Hc) as (Hr & _ & _ & Hfa & _).
  destruct Hr as (s & vs & a & p & K1 & K2 & K3 & K4 & K5 & K6 & K7 & K8 & K9 & K10 & K11 & K12 & K13).
  cbv zeta. unfold overlap_result. split; [reflexivity|]. split; [reflexivity|]. split; [exact K10|]. split; [reflexivity|]. split; [cbn [make_column col_cum]; now rewrite K11|]. split; [apply stamped_make|].
  unfold make_column; cbn [col_states]. rewrite K1. cbn [map]. unfold together_pieces. constructor; [|constructor]. unfold first_state in Hfa. rewrite K1 in Hfa. unfold first_amp in Hfa. rewrite K3 in Hfa.
  rewrite K1 in Hpr. pose proof (Forall_inv Hpr) as Hp1. assert (Ep : p = Cnorm2 a) by (apply (Hp1 (name_string D vs)); rewrite K3; now left).
  split; [|split; [|split; [|split]]]; cbn [fst snd].
  - exists a. split; [exact Hfa|]. rewrite stamp_comps. cbn [with_photon with_resolution with_aux with_cum s_comps]. rewrite K13, <- Ep. exact K3.
  - rewrite stamp_check. apply (made_check eps ncl s _ ov); try assumption; try reflexivity.
    + cbn. rewrite K3. apply check_state_iff in K9. rewrite K3 in K9. apply K9.
    + rewrite K6. apply Hg.
  - rewrite photon_stamp. apply photon_with.
  - exact K4.
  - exact K5.
Qed.
Lemma apart_pieces_fit D eps ncl sk g c n chs sep : (0 <= eps)%R -> good_state D eps ncl (fst sk) -> sendable D (fst sk) -> split_facts eps ncl sk g -> In c (group_columns g) -> (0 <= sep <= 1)%R ->
  let c' := separated_result D chs n sep c in col_id c' = col_id c /\ col_amp c' = col_amp c /\ col_boson c' = 1%R /\ col_group c' = n /\ col_cum c' = (s_cum (fst sk) * sep)%R /\ stamped c' /\
  Forall2 (piece D eps ncl (fst sk)) (col_states c') (apart_pieces chs (col_vals D c)).
Proof.
  intros He Hg Hs Hsp Hc Hov. destruct (split_columns_read D eps ncl sk g c He Hg Hsp Hc) as (Hr & _ & _ & Hfa & _).
  destruct Hr as (s & vs & a & p & K1 & K2 & K3 & K4 & K5 & K6 & K7 & K8 & K9 & K10 & K11 & K12 & K13).
  cbv zeta. unfold separated_result. split; [reflexivity|]. split; [reflexivity|]. split; [exact K10|]. split; [reflexivity|]. split; [cbn [make_column col_cum]; now rewrite K11|]. split; [apply stamped_make|].
  unfold make_column; cbn [col_states]. rewrite K1. cbn [flat_map app map]. unfold apart_pieces. unfold first_state in Hfa. rewrite K1 in Hfa. pose proof (lone_unit D (fst sk) Hs) as Hl.
  assert (G : forall keep t, piece D eps ncl (fst sk) (stamp (col_id c) (col_amp c) (col_boson c) n (col_cum c * sep) (part_result D sep keep t s)) (kept keep (col_vals D c), (t, 1%R))).
  { intros keep t. split; [|split; [|split; [|split]]]; cbn [fst snd].
    - exists (first_amp s). split; [exact Hfa|]. rewrite stamp_comps. unfold part_result. cbn. rewrite K13. rewrite (first_values_one D s vs a p K2 K3). reflexivity.
    - rewrite stamp_check. apply (made_check eps ncl s _ sep); try assumption; try reflexivity.
      + cbn. constructor; [|constructor]. cbn [snd]. rewrite Hfa, Hl. lra.
      + rewrite K6. apply Hg.
    - rewrite photon_stamp. unfold part_result. change (photon_of (with_cum ?x ?y)) with (photon_of x). apply photon_with.
    - exact K4.
    - exact K5. }
  constructor; [apply G|]. constructor; [apply G|constructor].
Qed.
Lemma pieces_wf D eps ncl st sts ps : Forall2 (piece D eps ncl st) sts ps -> Forall (fun p => valid D (fst p)) ps -> Forall (fun s => (wf_state D s /\ s_comps s <> []) /\ check_state eps ncl s = true) sts.
Proof.
  intro H. induction H as [|s p l l' ((a & _ & E) & Hck & _) _ IH]; intro Hv; [constructor|]. inversion Hv as [|p0 l0 V1 V2]; subst. constructor; [|now apply IH]. split; [|exact Hck]. split; [|rewrite E; discriminate].
  split; rewrite E; cbn [map fst]; [constructor; [intros []|constructor]|]. intros nm [<-|[]]. eexists. split; [exact V1|reflexivity].
Qed.
