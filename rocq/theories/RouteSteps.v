(** Time delays and pulse widths in the middle of a circuit, and the detection behind the last elements. *)
From Coq Require Import Reals List Arith Lia Lra Bool Permutation Sorted.
From Coquelicot Require Import Complex.
From Verif Require Import Prelude NamesModel NamesSpec NamesProofs FockModel FockSpec BosonProofs FockProofs GateProofs PropFock StateModel StateSpec StateProofs ApplyProofs
  CollectionModel EvalModel EvalSpec EvalProofs MeasureSpec MeasureProofs PropState PropMeasure PropEval PropCollection PropBridge PropPRMeasure PropPROptics OperatorModel ColumnModel ColumnSpec ColumnProofs PropColumn
  GroupProofs TemporalSpec TemporalProofs ResolvedProofs PropTemporal PropWidth InterferenceSpec ArrangementProofs InterferenceProofs MeasuredProofs PropInterference ExperimentSpec ExperimentProofs PermanentProofs PropPermanent SentProofs RouteSpec RouteProofs.
Import ListNotations.

Lemma perm_eq {A} (a b : list A) : a = b -> Permutation a b.
Proof. now intros ->. Qed.
(** ** Timing *)
Definition timed (D : dims) (k : timing) (s : state) : state :=
  match k with DelayOf chs d w => delay_result D chs d w s | WidthOf chs w => width_result D chs w s end.
Definition new_timing (D : dims) (k : timing) (s : state) (t : R * R) : R * R :=
  match k with
  | DelayOf chs d w => ((if touches D chs s then fst t - delay_in d s else fst t)%R, w)
  | WidthOf chs w => if touches D chs s then (fst t, w) else t
  end.
Lemma timed_with D k s t : photon_of s = Some t -> timed D k s = with_photon s (new_timing D k s t).
Proof.
  intro H. destruct k as [chs d w|chs w]; cbn [timed new_timing]; unfold delay_result, width_result, widened; rewrite H; cbn [or_else]; [reflexivity|]. destruct (touches D chs s); reflexivity.
Qed.
Lemma delay_classical d st st' : s_classical st = s_classical st' -> delay_in d st = delay_in d st'.
Proof. intro H. destruct d; cbn [delay_in]; [reflexivity|now rewrite H]. Qed.
Lemma touched D chs s c q : 2 <= dL D -> c < dN D -> s_comps s = [(photon_name D c, q)] -> touches D chs s = channel_in chs c.
Proof. intros HL Hc E. apply (touches_unit D chs s (dN D) c Hc). rewrite one_photon_spec by exact Hc. exact (proj2 (spot_photon D HL s c q Hc E)). Qed.
Lemma new_timing_lit D k st s c q t : 2 <= dL D -> c < dN D -> s_comps s = [(photon_name D c, q)] -> s_classical s = s_classical st -> new_timing D k s t = retimed k st c t.
Proof.
  intros HL Hc E Ecl. destruct k as [chs d w|chs w]; cbn [new_timing retimed]; rewrite (touched D chs s c q HL Hc E); [|reflexivity]. now rewrite (delay_classical d s st Ecl).
Qed.
Lemma with_photon_resolution s i a b c d e p : dget aux_eqb AuxPhotonResolution (s_aux s) = Some (AuxResolution (Resolution a b c d e p)) ->
  dget aux_eqb AuxPhotonResolution (s_aux (with_photon s i)) = Some (AuxResolution (Resolution a b c d e (Some i))).
Proof.
  intro H. unfold with_photon, resolution_of. rewrite H. cbn [or_else r_column r_amplitude r_boson r_group r_group_cum]. unfold with_resolution. cbn [with_aux s_aux]. apply (dget_dset_same aux_eqb aux_eqb_spec).
Qed.
Lemma with_photon_fields s i : s_init (with_photon s i) = s_init s /\ s_cum (with_photon s i) = s_cum s /\ s_comps (with_photon s i) = s_comps s /\ s_classical (with_photon s i) = s_classical s /\ s_results (with_photon s i) = s_results s.
Proof. repeat split; reflexivity. Qed.
Definition timed_one (D : dims) (k : timing) (x : bool * state * (R * R)) : bool * state * (R * R) := (fst (fst x), timed D k (sp_state x), new_timing D k (sp_state x) (snd x)).
Definition timed_ray (D : dims) (k : timing) (r : ray) : ray := Ray (ry_number r) (ry_amplitude r) (ry_boson r) (map (timed_one D k) (ry_states r)).
Definition timed_bundle (D : dims) (k : timing) (b : bundle) : bundle := Bundle (bd_label b) (bd_group b) (bd_weight b) (map (timed_ray D k) (bd_rays b)).
Lemma timed_bundle_states D k b : bundle_states (timed_bundle D k b) = map (timed D k) (bundle_states b).
Proof.
  unfold bundle_states, timed_bundle. cbn [bd_rays]. rewrite flat_mapped, map_flat. apply flat_map_ext. intro r. cbn [timed_ray ry_states]. rewrite !map_map. reflexivity.
Qed.
Lemma timed_standing D eps ncl k s st x : standing D eps ncl s st x -> standing D eps ncl s st (timed_one D k x).
Proof.
  intros ((Hp & Hck & Hx) & H1 & H2 & H3). pose proof (timed_with D k _ _ Hp) as E. unfold standing, stood, timed_one. unfold sp_state in *. cbn [fst snd]. rewrite E.
  split; [|now repeat split]. split; [apply photon_with|]. split; [exact Hck|]. exact Hx.
Qed.
Lemma timed_stands D eps ncl mu s k st b ts : 2 <= dL D -> stands D eps ncl mu s st b ts -> stands D eps ncl mu s st (timed_bundle D k b) (timed_tracks k st ts).
Proof.
  intros HL [S1 S2 S3 S4 S5 S6]. constructor; cbn [timed_bundle bd_label bd_weight bd_rays].
  - exact S1.
  - exact S2.
  - exact S3.
  - destruct S4 as (B1 & B2 & B3). split; [cbn [bd_rays]; intro Z; apply map_eq_nil in Z; exact (B1 Z)|]. split; [cbn [bd_rays]; assert (E0 : map ry_number (map (timed_ray D k) (bd_rays b)) = map ry_number (bd_rays b)) by (rewrite map_map; reflexivity); exact (eq_ind_r (@NoDup nat) B2 E0)|]. cbn [bd_rays]. apply Forall_map. apply Forall_forall. intros r Hr.
    pose proof (proj1 (Forall_forall _ _) B3 r Hr) as (R1 & R2 & R3 & R4 & R5). pose proof (proj1 (Forall_forall _ _) S5 r Hr) as Hst. split; [exact R1|]. split; [exact R2|]. split; [cbn [timed_ray ry_states]; intro Z; apply map_eq_nil in Z; exact (R3 Z)|]. split.
    + unfold ray_branch in *. cbn [br_photons timed_ray ry_states] in *. rewrite map_length in *. rewrite filter_map, map_length. exact R4.
    + cbn [timed_ray ry_states]. apply Forall_map. apply Forall_forall. intros x Hx. pose proof (proj1 (Forall_forall _ _) R5 x Hx) as (X1 & X2 & X3 & X4 & X5). cbv zeta in X5. pose proof (proj1 (Forall_forall _ _) Hst x Hx) as ((Hp & _) & _).
      cbv zeta. unfold timed_one. cbn [fst snd ry_number ry_amplitude ry_boson timed_ray bd_label bd_group bd_weight]. rewrite (timed_with D k _ _ Hp). unfold sp_state in *.
      split; [exact X1|]. split; [exact X2|]. split; [exact X3|]. split; [destruct (fst (fst x)); exact X4|]. exact (with_photon_resolution _ _ _ _ _ _ _ _ X5).
  - apply Forall_map. apply Forall_forall. intros r Hr. cbn [timed_ray ry_states]. apply Forall_map. apply Forall_forall. intros x Hx. apply timed_standing. exact (proj1 (Forall_forall _ _) (proj1 (Forall_forall _ _) S5 r Hr) x Hx).
  - rewrite map_map. set (h := fun t => Track (tk_amplitude t) (tk_boson t) (map (fun x => (fst x, retimed k st (fst x) (snd x))) (tk_photons t))).
    assert (E1 : real_tracks (timed_tracks k st ts) = map h (real_tracks ts)).
    { unfold real_tracks, timed_tracks. rewrite filter_map. reflexivity. }
    rewrite E1. etransitivity; [|apply Permutation_map; exact S6]. apply perm_eq. rewrite map_map. apply map_ext_in. intros r Hr. unfold h, ray_track. cbn [timed_ray ry_states ry_amplitude ry_boson tk_amplitude tk_boson tk_photons].
    pose proof (proj1 (Forall_forall _ _) S5 r Hr) as Hst.
    assert (E : photons_in D (map (timed_one D k) (ry_states r)) = map (fun x => (fst x, retimed k st (fst x) (snd x))) (photons_in D (ry_states r))).
    { unfold photons_in, lit_states. rewrite filter_map, !map_map. cbn [timed_one fst snd].
      change (filter (fun x => fst (fst (timed_one D k x))) (ry_states r)) with (filter (fun x : bool * state * (R * R) => fst (fst x)) (ry_states r)).
      apply map_ext_in. intros x Hx. apply filter_In in Hx. destruct Hx as [Hx Hb]. pose proof (proj1 (Forall_forall _ _) Hst x Hx) as ((Hp & _ & Hk) & _ & Hcl & _). rewrite Hb in Hk. destruct Hk as (c & Hc & Ec).
      destruct (spot_photon D HL _ c _ Hc Ec) as [Es _]. rewrite Es. rewrite (new_timing_lit D k st _ c _ _ HL Hc Ec Hcl). f_equal. pose proof (timed_with D k _ _ Hp) as Et. unfold sp_state at 1. cbn [fst snd timed_one]. rewrite Et. exact (proj1 (spot_photon D HL (with_photon (sp_state x) _) c _ Hc Ec)). }
    rewrite E. rewrite Cprod_map. reflexivity.
Qed.

(** ** The nodes *)
Definition run_timing (rnd : nat -> nat) (k : timing) (cs : coll) : option coll :=
  match k with DelayOf chs d w => add_time_delay rnd chs d w cs | WidthOf chs w => set_pulse_width rnd chs w cs end.
Lemma timing_node_run rnd k : timing_node rnd k = NFunction (run_timing rnd k).
Proof. destruct k; reflexivity. Qed.
Lemma time_groups rnd k cs gs : timing_ok (co_D cs) (co_ncl cs) k -> Forall (fun it => check_state (co_eps cs) (co_ncl cs) (snd it) = true) (co_items cs) ->
  resolved_groups cs = Some gs -> Forall (fun st => check_state (co_eps cs) (co_ncl cs) st = true) (flat_map group_states_of gs) ->
  exists cs', run_timing rnd k cs = Some cs' /\ co_D cs' = co_D cs /\ co_eps cs' = co_eps cs /\ co_ncl cs' = co_ncl cs /\ NoDup (map fst (co_items cs')) /\
    map snd (co_items cs') = map (timed (co_D cs) k) (flat_map group_states_of gs).
Proof.
  intros Hk Hck E HF. destruct k as [chs d w|chs w]; cbn [timing_ok] in Hk; cbn [run_timing timed].
  - destruct Hk as [Hchs Hd]. unfold add_time_delay. rewrite E.
    rewrite (option_list_map_some _ (delay_result (co_D cs) chs d w)) by (intros st Hst; apply (delayed_state_result _ (co_eps cs) (co_ncl cs)); [exact (proj1 (Forall_forall _ _) HF st Hst)|exact Hd|exact Hchs]).
    unfold collect, copy_collection. rewrite copy_items_ok by exact Hck. eexists. split; [reflexivity|]. cbn [with_items co_items co_D co_eps co_ncl].
    split; [reflexivity|]. split; [reflexivity|]. split; [reflexivity|]. split; [apply states_random_nodup; constructor|]. rewrite states_random_map. reflexivity.
  - destruct Hk as (H1 & H2 & H3). exact (set_selected rnd chs w cs gs H2 H1 H3 Hck E HF).
Qed.

(** ** The states of the collection in the middle of the experiment *)
Definition settled (D : dims) (eps : R) (ncl : nat) (Ph : state -> nat -> C) (T : state -> list track) (x : state * bundle) : Prop :=
  Cnorm2 (lone (fst x)) = 1%R /\ (forall c, c < dN D -> Cnorm2 (Ph (fst x) c) = 1%R) /\
  stands D eps ncl (Cconj (lone (fst x))) (Ph (fst x)) (fst x) (snd x) (T (fst x)).
Record situation (D : dims) (eps : R) (ncl : nat) (Ph : state -> nat -> C) (T : state -> list track) (cs : coll) (P : list (state * bundle)) : Prop := {
  si_D : co_D cs = D; si_eps : co_eps cs = eps; si_ncl : co_ncl cs = ncl;
  si_keys : NoDup (map fst (co_items cs));
  si_carries : carries cs (map snd P);
  si_settled : Forall (settled D eps ncl Ph T) P }.
Lemma Cnorm2_conj z : Cnorm2 (Cconj z) = Cnorm2 z.
Proof. unfold Cnorm2. cbn. ring. Qed.
Lemma situation_sent D eps ncl U F Ph T cs P cs1 : 2 <= dL D -> 1 <= dN D -> (0 <= eps)%R -> moves D eps ncl U F -> unitary_mat (dN D) U -> situation D eps ncl Ph T cs P ->
  co_D cs1 = D -> co_eps cs1 = eps -> co_ncl cs1 = ncl -> map snd (co_items cs1) = map F (map snd (co_items cs)) ->
  carries cs1 (map (sent_bundle F) (map snd P)).
Proof.
  intros HL HN He HF HU [S1 S2 S3 S4 (C1 & C2 & C3) S6] D1 D2 D3 EI. split; [|split].
  - rewrite EI, C1, map_flat, (flat_mapped bundle_states (sent_bundle F)). apply flat_map_ext. intro b. symmetry. apply sent_bundle_states.
  - rewrite map_map. exact C2.
  - rewrite D1, D2, D3. rewrite map_map. apply Forall_map. revert S6. apply Forall_impl. intros x (_ & Hu & HS). exact (sent_ok D eps ncl U F (Ph (fst x)) HL HN HF HU Hu (fst x) (snd x) (sd_ok _ _ _ _ _ _ _ _ HS) (sd_states _ _ _ _ _ _ _ _ HS)).
Qed.
Lemma option_list_forall2 {A B} (f : A -> option B) (Q : A -> B -> Prop) l : (forall x, In x l -> exists y, f x = Some y /\ Q x y) -> exists ys, option_list (map f l) = Some ys /\ Forall2 Q l ys.
Proof. apply option_list_build. Qed.
Lemma situation_step D eps ncl U F Ph T cs P cs1 rnd k : 2 <= dL D -> 1 <= dN D -> (0 <= eps)%R -> moves D eps ncl U F -> unitary_mat (dN D) U -> situation D eps ncl Ph T cs P ->
  co_D cs1 = D -> co_eps cs1 = eps -> co_ncl cs1 = ncl -> map snd (co_items cs1) = map F (map snd (co_items cs)) -> timing_ok D ncl k ->
  exists cs2 P2, run_timing rnd k cs1 = Some cs2 /\ Permutation (map fst P2) (map fst P) /\
    situation D eps ncl (fun st => next_phase D U (Ph st)) (fun st => timed_tracks k st (moved_tracks (dN D) U (T st))) cs2 P2.
Proof.
  intros HL HN He HF HU HS D1 D2 D3 EI Hk. pose proof (situation_sent D eps ncl U F Ph T cs P cs1 HL HN He HF HU HS D1 D2 D3 EI) as (C1 & C2 & C3). destruct HS as [_ _ _ _ _ S6]. rewrite D1, D2, D3 in C3.
  set (igs := map (fun x : state * bundle => (bd_label (snd x), bundle_group (sent_bundle F (snd x)))) P).
  destruct (regroup (co_items cs1) igs) as (cc & E1 & Hp).
  { rewrite C1. unfold igs. rewrite !flat_mapped. apply flat_map_ext. intro x. cbn [snd]. symmetry. apply bundle_group_states. }
  { unfold igs. apply Forall_map. apply Forall_forall. intros x Hx. apply (bundle_readable D eps ncl (sent_bundle F (snd x))). apply (proj1 (Forall_forall _ _) C3). now apply in_map, in_map. }
  { unfold igs. rewrite map_map. cbn [fst snd bundle_group g_id sent_bundle bd_group]. rewrite !map_map in C2. exact C2. }
  unfold igs in Hp. rewrite map_map in Hp. cbn [fst snd] in Hp. destruct (Permutation_map_inv _ _ Hp) as (P' & El & Hp2).
  assert (Hag : all_groups cc = map (fun x => bundle_group (sent_bundle F (snd x))) P') by (rewrite all_groups_labelled, El, map_map; reflexivity).
  assert (S6' : Forall (settled D eps ncl Ph T) P') by (apply Forall_forall; intros x Hx; apply (proj1 (Forall_forall _ _) S6); now apply (Permutation_in _ (Permutation_sym Hp2))).
  set (Q := fun (x : state * bundle) (g : group) => photon_group D eps ncl (s_init (fst x), g) /\ g_id g = bd_group (snd x) /\ bd_label (snd x) = s_init (fst x) /\
              stands D eps ncl (Cconj (lone (fst x))) (next_phase D U (Ph (fst x))) (fst x) (group_bundle D (s_init (fst x)) g) (moved_tracks (dN D) U (T (fst x)))).
  assert (HG : exists gs, split_groups eps ncl (all_groups cc) = Some gs /\ Forall2 Q P' gs).
  { unfold split_groups. rewrite Hag, map_map. apply option_list_forall2. intros x Hx. destruct (proj1 (Forall_forall _ _) S6' x Hx) as (L1 & L2 & L3).
    destruct (moved_bundle D eps ncl U F (Cconj (lone (fst x))) (Ph (fst x)) HL HN He HF HU L2 ltac:(now rewrite Cnorm2_conj) (fst x) (snd x) (T (fst x)) L3) as (_ & g & G1 & G2 & G3 & G4).
    exists g. split; [exact G1|]. split; [exact G2|]. split; [exact G3|]. split; [exact (sd_label _ _ _ _ _ _ _ _ L3)|exact G4]. }
  destruct HG as (gs & E2 & HQ). pose proof (forall2_len _ _ _ HQ) as Hlen.
  assert (HQin : forall g, In g gs -> exists x, In x P' /\ Q x g) by (intros g Hg; destruct (Forall2_in_r_ex _ _ _ _ HQ Hg) as (x & Hx & Hq); now exists x).
  assert (E3 : resolved_groups cs1 = Some gs).
  { unfold resolved_groups. rewrite E1, D2, D3, E2, D1. unfold single_photon_groups. apply option_list_same. intros g Hg. destruct (HQin g Hg) as (x & _ & Hx & _). exact (proj2 (photon_group_resolved D eps ncl _ HN Hx)). }
  assert (Hck : Forall (fun st => check_state (co_eps cs1) (co_ncl cs1) st = true) (flat_map group_states_of gs)).
  { rewrite D2, D3. apply Forall_forall. intros s Hs. apply in_flat_map in Hs. destruct Hs as (g & Hg & Hs). destruct (HQin g Hg) as (x & _ & (_ & Hps) & _). unfold group_states_of in Hs. apply in_flat_map in Hs. destruct Hs as (c & Hc & Hs). exact (proj1 (proj1 (Forall_forall _ _) (proj1 (Forall_forall _ _) Hps c Hc) s Hs)). }
  assert (Hit : Forall (fun it => check_state (co_eps cs1) (co_ncl cs1) (snd it) = true) (co_items cs1)).
  { rewrite D2, D3. apply Forall_forall. intros it Hit. assert (Hin : In (snd it) (flat_map bundle_states (map (sent_bundle F) (map snd P)))) by (rewrite <- C1; now apply in_map).
    apply in_flat_map in Hin. destruct Hin as (b & Hb & Hin). destruct (proj1 (Forall_forall _ _) C3 b Hb) as (_ & _ & Hr). unfold bundle_states in Hin. apply in_flat_map in Hin. destruct Hin as (r & Hr1 & Hin). apply in_map_iff in Hin. destruct Hin as (y & <- & Hy).
    apply (ray_state_facts D eps ncl b r y (proj1 (Forall_forall _ _) Hr r Hr1) Hy). }
  destruct (time_groups rnd k cs1 gs ltac:(now rewrite D1, D3) Hit E3 Hck) as (cs2 & E4 & F1 & F2 & F3 & F4 & F5). rewrite D1 in *. rewrite D2 in *. rewrite D3 in *.
  exists cs2, (map (fun xg => (fst (fst xg), timed_bundle D k (group_bundle D (s_init (fst (fst xg))) (snd xg)))) (combine P' gs)). split; [exact E4|].
  assert (Efst : map fst (combine P' gs) = P') by now apply map_fst_combine'.
  split.
  { rewrite map_map. cbn [fst]. rewrite <- (map_map fst (fun x : state * bundle => fst x)), Efst. apply Permutation_map. now apply Permutation_sym. }
  constructor; try assumption.
  - split; [|split].
    + rewrite F5, map_map. cbn [snd]. rewrite map_flat, flat_mapped. transitivity (flat_map (fun xg : state * bundle * group => map (timed D k) (group_states_of (snd xg))) (combine P' gs)).
      * clear -Hlen. revert gs Hlen. induction P' as [|x P' IH]; intros [|g gs] Hlen; try discriminate; [reflexivity|]. cbn [combine flat_map snd]. rewrite <- IH by (injection Hlen; auto). reflexivity.
      * apply flat_map_ext. intro xg. rewrite timed_bundle_states. f_equal. unfold bundle_states, group_bundle, group_states_of. cbn [bd_rays]. rewrite flat_mapped. apply flat_map_ext. intro c. cbn [column_ray ry_states]. rewrite map_map. symmetry. apply map_id.
    + rewrite !map_map. cbn [snd timed_bundle group_bundle bd_label bd_group].
      assert (Enames : map (fun xg : state * bundle * group => (s_init (fst (fst xg)), g_id (snd xg))) (combine P' gs) = map (fun x : state * bundle => (bd_label (snd x), bd_group (snd x))) P').
      { clear -HQ. induction HQ as [|x g P' gs (_ & Hg & Hl & _) _ IH]; [reflexivity|]. cbn [combine map fst snd]. rewrite IH, Hg, Hl. reflexivity. }
      rewrite Enames. rewrite !map_map in C2. cbn [sent_bundle bd_label bd_group] in C2. revert C2. apply Permutation_NoDup. now apply Permutation_map.
    + rewrite F1, F2, F3. rewrite map_map. apply Forall_map. apply Forall_forall. intros xg Hxg. cbn [snd]. destruct (forall2_combine _ _ _ HQ xg Hxg) as ((_ & _ & _ & Hs) & _). exact (sd_ok _ _ _ _ _ _ _ _ (timed_stands D eps ncl _ _ k _ _ _ HL Hs)).
  - apply Forall_map. apply Forall_forall. intros xg Hxg. destruct (forall2_combine _ _ _ HQ xg Hxg) as ((_ & _ & _ & Hs) & Hin). destruct (proj1 (Forall_forall _ _) S6' _ Hin) as (L1 & L2 & _).
    split; [exact L1|]. cbn [fst snd]. split; [intros c Hc; apply (next_phase_unit D U (Ph (fst (fst xg))) HL HN L2)|]. exact (timed_stands D eps ncl _ _ k _ _ _ HL Hs).
Qed.

(** ** The first node *)
Lemma prepared_list D vs : prepared_photons D [] 0 1 vs = match channels_of vs with [] => [(false, repeat 0 (dN D), (0%R, 1%R))] | l => map (fun c => (true, one_photon (dN D) c, (0%R, 1%R))) l end.
Proof. unfold prepared_photons. destruct (channels_of vs); reflexivity. Qed.
Lemma delayed_stands D eps ncl sk g : 2 <= dL D -> 1 <= dN D -> (0 <= eps)%R -> good_state D eps ncl (fst sk) -> sendable D (fst sk) -> split_facts eps ncl sk g ->
  stands D eps ncl (Cconj (lone (fst sk))) (fun _ => lone (fst sk)) (fst sk) (delayed_bundle D [] (Delay 0) 1 (sk, g)) (start_tracks D (fst sk)).
Proof.
  intros HL HN He Hg Hs Hf. pose proof (lone_unit D _ Hs) as Hlo.
  assert (Hcol : forall c, In c (group_columns g) -> forall y, In y (prepared_photons D [] 0 1 (col_vals D c)) ->
     standing D eps ncl (fun _ => lone (fst sk)) (fst sk) (fst (fst y), prepared_state D c (column_boson D c) (s_cum (fst sk)) (first_state c) (first_amp (first_state c)) y, snd y) /\
     (fst (fst y) = true -> forall k, k < dN D -> snd (fst y) = one_photon (dN D) k -> spot D (prepared_state D c (column_boson D c) (s_cum (fst sk)) (first_state c) (first_amp (first_state c)) y) = k)).
  { intros c Hc y Hy. destruct (split_columns_read D eps ncl sk g c He Hg Hf Hc) as (Hr & Hgr & Ha & Hfa & Hin). rewrite Hfa in *.
    assert (Hn : Cnorm2 (first_amp (first_state c)) = 1%R) by now rewrite Hfa.
    destruct (prepared_state_facts D eps ncl (fst sk) c (column_boson D c) y He Hr Hn) as (P1 & P2 & P3 & P4 & P5 & P6 & P7). rewrite Hfa in P1, P2, P3, P4, P5, P6, P7.
    assert (Hv : valid D (col_vals D c)) by (destruct Hr as (s & vs & a & p & H1 & H2 & H3 & _ & _ & _ & _ & _ & _ & _ & _ & _ & Hvv); rewrite Hvv; exact H2).
    set (x := prepared_state D c (column_boson D c) (s_cum (fst sk)) (first_state c) (lone (fst sk)) y) in *.
    assert (Hcum : s_cum x = s_cum (fst sk)). { unfold x, prepared_state. destruct Hr as (s & vs & a & p & H1 & H2 & H3 & H4 & H5 & H6 & _). unfold first_state. rewrite H1. exact H6. }
    split.
    - split; [|unfold sp_state; cbn [fst snd]; now repeat split]. unfold stood, sp_state. cbn [fst snd]. split; [unfold photon_of, resolution_of; rewrite P7; reflexivity|]. split; [exact P1|].
      destruct (prepared_in D [] 0 1 _ y Hv Hy) as [[-> (k & Hk & _ & E)]|[-> E]]; rewrite E in P6; [exists k; now split|exists (lone (fst sk)); now split].
    - intros Hb k Hk E. rewrite E in P6. exact (proj1 (spot_photon D HL x k _ Hk P6)). }
  constructor.
  - reflexivity.
  - reflexivity.
  - destruct Hg as [[_ [_ [_ H]]] _]. exact H.
  - now apply delayed_bundle_ok.
  - cbn [delayed_bundle bd_rays fst snd]. apply Forall_map. apply Forall_forall. intros c Hc. cbn [delayed_ray ry_states delay_in]. apply Forall_map. apply Forall_forall. intros y Hy. exact (proj1 (Hcol c Hc y Hy)).
  - cbn [delayed_bundle bd_rays fst snd]. rewrite map_map.
    assert (Hreal : real_tracks (start_tracks D (fst sk)) = start_tracks D (fst sk)).
    { unfold real_tracks. rewrite (filter_ext_in _ (fun _ => true)); [clear; induction (start_tracks D (fst sk)) as [|t l IH]; [reflexivity|]; cbn [filter]; now rewrite IH|]. intros t Ht. unfold start_tracks in Ht. apply in_map_iff in Ht. destruct Ht as (x & <- & Hx). cbn [tk_amplitude].
      destruct (split_reads D eps ncl sk g He Hg Hf) as [_ HP]. apply (in_map (fun x => (values_of_name D (fst x), snd x))) in Hx. apply (Permutation_in _ (Permutation_sym HP)) in Hx. apply in_map_iff in Hx. destruct Hx as (c & E & Hc). cbn [fst snd] in E.
      destruct (split_columns_read D eps ncl sk g c He Hg Hf Hc) as (_ & _ & Ha & _). apply nz_spec. replace (snd x) with (col_amp c) by congruence. exact Ha. }
    rewrite Hreal. unfold start_tracks.
    set (h := fun z : values * C => Track (snd z) (sqrt (INR (factorials (fst z)))) (map (fun k => (k, (0%R, 1%R))) (channels_of (fst z)))).
    transitivity (map h (map (fun c => (col_vals D c, col_amp c)) (group_columns g))).
    + apply perm_eq. rewrite map_map. apply map_ext_in. intros c Hc. unfold h, ray_track. cbn [delayed_ray ry_states ry_amplitude ry_boson fst snd delay_in].
      assert (E : photons_in D (map (fun y : bool * values * (R * R) => (fst (fst y), prepared_state D c (column_boson D c) (s_cum (fst sk)) (first_state c) (first_amp (first_state c)) y, snd y)) (prepared_photons D [] 0 1 (col_vals D c))) = map (fun k => (k, (0%R, 1%R))) (channels_of (col_vals D c))).
      { pose proof (Hcol c Hc) as HY. rewrite prepared_list in *. unfold photons_in, lit_states. rewrite filter_map, map_map. cbn [fst snd].
        assert (Hb : forall k, In k (channels_of (col_vals D c)) -> k < dN D).
        { destruct (split_columns_read D eps ncl sk g c He Hg Hf Hc) as ((s & vs & a & p & H1 & H2 & H3 & _ & _ & _ & _ & _ & _ & _ & _ & _ & Hvv) & _). rewrite Hvv. intros k Hk. rewrite <- (proj1 H2). now apply channels_bound. }
        destruct (channels_of (col_vals D c)) as [|c0 l]; [reflexivity|].
        assert (Ef : forall m : list nat, filter (fun y : bool * values * (R * R) => fst (fst y)) (map (fun c => (true, one_photon (dN D) c, (0%R, 1%R))) m) = map (fun c => (true, one_photon (dN D) c, (0%R, 1%R))) m) by (induction m as [|z m IH]; [reflexivity|]; cbn [map filter fst snd]; now rewrite IH).
        rewrite Ef, map_map. cbn [fst snd]. apply map_ext_in. intros k Hk. f_equal. unfold sp_state. cbn [fst snd].
        apply (proj2 (HY (true, one_photon (dN D) k, (0%R, 1%R)) (in_map (fun c => (true, one_photon (dN D) c, (0%R, 1%R))) _ _ Hk)) eq_refl k (Hb k Hk) eq_refl). }
      cbn [delay_in] in E. rewrite E. cbn [fst snd]. f_equal. rewrite Cprod_map. cbn [fst]. rewrite (Cprod_ext _ _ (fun _ => RtoC 1)) by (intros; rewrite Cconj_mult_norm2, Hlo; reflexivity).
      assert (E1 : forall l : list nat, Cprod l (fun _ => RtoC 1) = RtoC 1) by (induction l as [|z l IH]; [reflexivity|]; rewrite Cprod_cons, IH; ring). rewrite E1. ring.
    + destruct (split_reads D eps ncl sk g He Hg Hf) as [_ HP]. etransitivity; [apply Permutation_map; exact HP|]. apply perm_eq. rewrite map_map. apply map_ext. intro x. reflexivity.
Qed.
Lemma timed_plain D k s : photon_of s = None -> timed D k (delay_result D [] (Delay 0) 1 s) = timed D k s.
Proof.
  intro H. assert (E0 : delay_result D [] (Delay 0) 1 s = with_photon s (0%R, 1%R)) by (unfold delay_result; rewrite H; cbn [or_else fst]; reflexivity). rewrite E0.
  rewrite (timed_with D k _ _ (photon_with s (0%R, 1%R))). assert (TT : forall chs i, touches D chs (with_photon s i) = touches D chs s) by (intros; apply touches_with).
  assert (WW : forall i j, with_photon (with_photon s i) j = with_photon s j).
  { intros i j. unfold with_photon at 1. assert (Er : resolution_of (with_photon s i) = Some (Resolution (r_column (or_else (resolution_of s) no_resolution)) (r_amplitude (or_else (resolution_of s) no_resolution)) (r_boson (or_else (resolution_of s) no_resolution)) (r_group (or_else (resolution_of s) no_resolution)) (r_group_cum (or_else (resolution_of s) no_resolution)) (Some i))).
    { unfold with_photon, resolution_of at 1, with_resolution. cbn [with_aux s_aux]. rewrite (dget_dset_same aux_eqb aux_eqb_spec). reflexivity. }
    rewrite Er. cbn [or_else r_column r_amplitude r_boson r_group r_group_cum]. unfold with_photon. apply with_resolution_twice. }
  destruct k as [chs d w|chs w]; cbn [new_timing timed]; rewrite TT, WW.
  - unfold delay_result. rewrite H. cbn [or_else fst]. assert (Ed : delay_in d (with_photon s (0%R, 1%R)) = delay_in d s) by (apply delay_classical; reflexivity). rewrite Ed. reflexivity.
  - unfold width_result, widened. rewrite H. cbn [or_else fst]. destruct (touches D chs s); reflexivity.
Qed.
Lemma situation_start rnd k cs : 2 <= dL (co_D cs) -> 1 <= dN (co_D cs) -> delayable cs -> Forall (fun it => sendable (co_D cs) (snd it)) (co_items cs) -> timing_ok (co_D cs) (co_ncl cs) k ->
  exists cs1 P, run_timing rnd k cs = Some cs1 /\ Permutation (map fst P) (map snd (co_items cs)) /\
    situation (co_D cs) (co_eps cs) (co_ncl cs) (fun st _ => lone st) (fun st => timed_tracks k st (start_tracks (co_D cs) st)) cs1 P.
Proof.
  intros HL HN Hdl Hsend Hk. assert (He : (0 <= co_eps cs)%R) by apply Hdl. pose proof (delayable_good cs Hdl) as Hgood.
  destruct (resolved_plain cs HN He) as (igs & E1 & Hpg & _).
  { apply Forall_forall. intros it Hit. split; [exact (proj1 (Forall_forall _ _) Hgood it Hit)|]. exact (proj1 (proj1 (Forall_forall _ _) Hsend it Hit)). }
  set (gs := map snd igs) in *. pose proof (plain_untimed cs gs HN Hdl E1) as Hnone.
  assert (Hit : Forall (fun it => check_state (co_eps cs) (co_ncl cs) (snd it) = true) (co_items cs)) by (revert Hgood; apply Forall_impl; intros it ((_ & _ & H & _) & _); exact H).
  assert (Hck : Forall (fun st => check_state (co_eps cs) (co_ncl cs) st = true) (flat_map group_states_of gs)).
  { apply Forall_forall. intros s Hs. apply in_flat_map in Hs. destruct Hs as (g & Hg & Hs). unfold gs in Hg. apply in_map_iff in Hg. destruct Hg as (ig & <- & Hig). destruct (proj1 (Forall_forall _ _) Hpg ig Hig) as (_ & Hps). unfold group_states_of in Hs. apply in_flat_map in Hs. destruct Hs as (c & Hc & Hs). exact (proj1 (proj1 (Forall_forall _ _) (proj1 (Forall_forall _ _) Hps c Hc) s Hs)). }
  destruct (time_groups rnd k cs gs Hk Hit E1 Hck) as (cs1 & E2 & F1 & F2 & F3 & F4 & F5).
  destruct (time_groups rnd (DelayOf [] (Delay 0) 1) cs gs ltac:(split; [constructor|exact I]) Hit E1 Hck) as (csd & E3 & _ & _ & _ & _ & G5).
  destruct (delay_carries rnd [] (Delay 0) 1 cs HN Hdl Hsend I ltac:(constructor)) as (csd' & sgs & E4 & _ & H1 & H2 & H3 & HP & HA & (C1 & C2 & C3)).
  cbn [run_timing] in E3. assert (csd' = csd) by congruence. subst csd'. cbn [timed] in G5. rewrite H1, H2, H3 in C3.
  exists cs1, (map (fun sg : state * nat * group => (fst (fst sg), timed_bundle (co_D cs) k (delayed_bundle (co_D cs) [] (Delay 0) 1 sg))) sgs). split; [exact E2|]. split; [rewrite map_map; exact HP|].
  constructor; try assumption.
  - split; [|split].
    + rewrite F5, map_map. cbn [snd]. rewrite <- (map_map (delayed_bundle (co_D cs) [] (Delay 0) 1) (timed_bundle (co_D cs) k)). rewrite flat_mapped.
      transitivity (map (timed (co_D cs) k) (map snd (co_items csd))).
      * rewrite G5, map_map. apply map_ext_in. intros s Hs. symmetry. apply timed_plain. exact (proj1 (Forall_forall _ _) Hnone s Hs).
      * rewrite C1, map_flat. apply flat_map_ext. intro b. symmetry. apply timed_bundle_states.
    + rewrite map_map in C2. rewrite !map_map. exact C2.
    + rewrite F1, F2, F3. rewrite map_map. apply Forall_map. revert HA. apply Forall_impl. intros [sk g] (G1 & G2 & G3). cbn [snd fst] in *. exact (sd_ok _ _ _ _ _ _ _ _ (timed_stands _ _ _ _ _ k _ _ _ HL (delayed_stands _ _ _ sk g HL HN He G1 G2 G3))).
  - apply Forall_map. revert HA. apply Forall_impl. intros [sk g] (G1 & G2 & G3). cbn [snd fst] in *. split; [exact (lone_unit _ _ G2)|]. cbn [fst snd]. split; [intros; exact (lone_unit _ _ G2)|].
    exact (timed_stands _ _ _ _ _ k _ _ _ HL (delayed_stands _ _ _ sk g HL HN He G1 G2 G3)).
Qed.

(** ** Behind the last elements *)
Lemma Cprod_times {A} (l : list A) f g : Cprod l (fun x => f x * g x)%C = (Cprod l f * Cprod l g)%C.
Proof. induction l as [|x l IH]; [cbn; apply C_eq; cbn; ring|]. rewrite !Cprod_cons, IH. ring. Qed.
Lemma Cprod_nth {A} (l : list A) d f : Cprod (seq 0 (length l)) (fun j => f (nth j l d)) = Cprod l f.
Proof.
  assert (E : map (fun j => nth j l d) (seq 0 (length l)) = l).
  { apply (nth_ext _ _ d d); [now rewrite map_length, seq_length|]. intros j Hj. rewrite map_length, seq_length in Hj. rewrite (nth_indep _ d (nth 0 l d)) by (rewrite map_length, seq_length; exact Hj). rewrite (map_nth (fun j => nth j l d)), seq_nth by exact Hj. reflexivity. }
  transitivity (Cprod (map (fun j => nth j l d) (seq 0 (length l))) f); [now rewrite Cprod_map|now rewrite E].
Qed.
Definition alike (b b' : branch) : Prop :=
  length (br_photons b') = length (br_photons b) /\ (forall j, ph_timing (nth_photon b' j) = ph_timing (nth_photon b j)) /\
  forall cs s, Permutation (seq 0 (length (br_photons b))) s -> length cs = length (br_photons b) -> path b' cs s = path b cs s.
Lemma alike_detection bs bs' f : Forall2 alike bs bs' -> detection bs' f = detection bs f.
Proof.
  intro H. unfold detection. f_equal. f_equal. unfold interference.
  assert (HF : Forall2 (fun b b' => alike b b' /\ (length (br_photons b) =? NamesSpec.photons f) = true) (fitting bs f) (fitting bs' f)).
  { unfold fitting. apply forall2_filter; [exact H|]. intros b b' (Hb & _). now rewrite Hb. }
  symmetry. apply (Csum_forall2 _ _ _ _ _ HF). intros b1 b1' [(A1 & A2 & A3) L1]. apply (Csum_forall2 _ _ _ _ _ HF). intros b2 b2' [(B1 & B2 & B3) L2]. apply Nat.eqb_eq in L1. apply Nat.eqb_eq in L2.
  apply Csum_ext. intros s Hs. apply Csum_ext. intros t Ht. apply permutations_in in Hs. apply permutations_in in Ht. rewrite A3, B3 by (rewrite ?L1, ?L2, ?channels_length; try assumption; reflexivity).
  assert (EI : indistinct b1' b2' s t = indistinct b1 b2 s t) by (unfold indistinct; apply Rprod_ext; intros x _; now rewrite A2, B2). rewrite EI. reflexivity.
Qed.
Section Last.
Variables (D : dims) (eps : R) (ncl : nat) (U : nat -> nat -> C) (F : state -> state) (mu : C) (sg : nat -> C).
Hypothesis (HL : 2 <= dL D) (HN : 1 <= dN D) (He : (0 <= eps)%R) (HF : moves D eps ncl U F) (HU : unitary_mat (dN D) U).
Hypothesis (Hsg : forall c, c < dN D -> Cnorm2 (sg c) = 1%R) (Hmu : Cnorm2 mu = 1%R).
Lemma sent_wave x k c : stood D eps ncl sg x -> fst (fst x) = true -> k < dN D -> spot D (sp_state x) = k -> c < dN D ->
  wave D (F (sp_state x)) c = (Cconj (next_phase D U sg c) * sg k * U c k)%C.
Proof.
  intros (Hp & Hck & Hx) Hb Hk Hs Hc. rewrite Hb in Hx. destruct Hx as (k' & Hk' & Ec). destruct (spot_photon D HL _ k' _ Hk' Ec) as [Es _]. assert (Ekk : k' = k) by congruence. rewrite Ekk in Ec.
  destruct (proj1 (proj2 HF) (sp_state x) k (sg k) 1%R Hk Ec (Hsg k Hk) Hck (unit_probs _ _ _ (Hsg k Hk) Ec)) as [_ HP].
  destruct (spread_lit D U HL HN HU _ _ k Hk (Hsg k Hk) HP) as [Hlit _]. rewrite <- (spectrum_wave D _ c HL Hlit Hc). unfold spectrum, weight_in. rewrite Csum_map. cbn [fst snd].
  rewrite (Csum_perm _ _ _ (choices_moved D U sg HL HN HU Hsg _ k Hk HP)), Csum_map. cbn [fst snd].
  transitivity (Csum (open D U k) (fun j => if j =? c then (sg k * U j k * Cconj (next_phase D U sg j))%C else RtoC 0)).
  - apply Csum_ext. intros j Hj. apply (open_in D U HL HN) in Hj. destruct Hj as [Hj _]. pose proof (lit_core_photons D U sg HL (F (sp_state x)) j Hj) as Hl. unfold core_channel.
    assert (Ech : hd 0 (photon_channels (core_values D (lit_core D U sg (F (sp_state x)) j))) = j).
    { unfold core_photons in Hl. cbn [flat_map] in Hl. rewrite app_nil_r in Hl. apply (f_equal (map fst)) in Hl. rewrite map_map in Hl. cbn [fst] in Hl. rewrite map_id in Hl. rewrite Hl. reflexivity. }
    rewrite Ech. reflexivity.
  - destruct (in_dec Nat.eq_dec c (open D U k)) as [Hin|Hni].
    + rewrite (Csum_single _ c) ; [rewrite Nat.eqb_refl; ring|apply NoDup_filter, seq_NoDup|exact Hin|]. intros j _ Hj. now rewrite (proj2 (Nat.eqb_neq j c) Hj).
    + assert (Z : U c k = RtoC 0) by (destruct (Ceq_dec (U c k) (RtoC 0)) as [|Hz]; [assumption|exfalso; apply Hni; apply (open_in D U HL HN); now split]).
      rewrite Csum_zero; [rewrite Z; ring|]. intros j Hj. destruct (Nat.eqb_spec j c) as [Ej|]; [subst j; contradiction|reflexivity].
Qed.
Lemma route_detection st b ts f : stands D eps ncl mu sg st b ts -> length f = dN D ->
  detection (map (ray_branch D) (bd_rays (sent_bundle F b))) f = detection (map (track_branch U) ts) f.
Proof.
  intros [S1 S2 S3 S4 S5 S6] Hf.
  set (mid := fun r : ray => Branch (ry_amplitude r) (ry_boson r) (map (fun p => Photon (fun c => (mu * sg (fst p) * U c (fst p))%C) (snd p)) (photons_in D (ry_states r)))).
  transitivity (detection (map mid (bd_rays b)) f).
  { apply (rephased_detection (dN D) (fun c => Cconj (next_phase D U sg c) * Cconj mu)%C); [| |exact Hf].
    - intros c Hc. rewrite Cnorm2_mult, !Cnorm2_conj, Hmu, (next_phase_unit D U sg HL HN Hsg c). ring.
    - cbn [sent_bundle bd_rays]. rewrite map_map. assert (G : forall l, Forall (fun r => Forall (standing D eps ncl sg st) (ry_states r)) l -> Forall2 (rephased (dN D) (fun c => Cconj (next_phase D U sg c) * Cconj mu)%C) (map mid l) (map (fun r => ray_branch D (sent_ray F r)) l)); [|exact (G _ S5)].
      induction 1 as [|r l Hr _ IH]; [constructor|]. cbn [map]. constructor; [|exact IH]. split; [reflexivity|]. split; [reflexivity|]. unfold mid, ray_branch. cbn [br_photons sent_ray ry_states]. unfold photons_in, lit_states. rewrite map_map, filter_map, map_map. cbn [fst snd].
      change (filter (fun x => fst (fst (fst (fst x), F (snd (fst x)), snd x))) (ry_states r)) with (filter (fun x : bool * state * (R * R) => fst (fst x)) (ry_states r)).
      assert (Hall : Forall (fun x => standing D eps ncl sg st x /\ fst (fst x) = true) (filter (fun x : bool * state * (R * R) => fst (fst x)) (ry_states r))).
      { apply Forall_forall. intros x Hx. apply filter_In in Hx. destruct Hx as [Hx Hb]. split; [exact (proj1 (Forall_forall _ _) Hr x Hx)|exact Hb]. }
      induction Hall as [|x m ((Hst & _) & Hb) _ IHm]; [constructor|]. cbn [map]. constructor; [|exact IHm]. cbn [ph_timing ph_wave]. split; [reflexivity|]. intros c Hc.
      assert (Hk : spot D (sp_state x) < dN D) by (destruct Hst as (_ & _ & K); rewrite Hb in K; destruct K as (k & Hk & Ec); destruct (spot_photon D HL _ k _ Hk Ec) as [-> _]; exact Hk).
      change (snd (fst x)) with (sp_state x). rewrite (sent_wave x _ c Hst Hb Hk eq_refl Hc). pose proof (Cconj_mult_norm2 mu) as X. rewrite Hmu in X.
      transitivity (Cconj (next_phase D U sg c) * (Cconj mu * mu) * sg (spot D (sp_state x)) * U c (spot D (sp_state x)))%C; [rewrite X; ring|ring]. }
  transitivity (detection (map (track_branch U) (map (ray_track D mu sg) (bd_rays b))) f).
  { symmetry. apply alike_detection. rewrite map_map. clear. induction (bd_rays b) as [|r l IH]; [constructor|]. cbn [map]. constructor; [|exact IH].
    set (ps := photons_in D (ry_states r)). unfold alike, mid, track_branch, ray_track. cbn [br_photons tk_photons tk_amplitude tk_boson]. fold ps. rewrite !map_length. split; [reflexivity|]. split.
    - intro j. unfold nth_photon. cbn [br_photons]. destruct (Nat.lt_ge_cases j (length ps)) as [Hj|Hj].
      + rewrite (nth_indep _ no_photon (Photon (fun c => U c (fst (0, (0%R, 1%R)))) (snd (0, (0%R, 1%R))))) by (now rewrite map_length). rewrite (map_nth (fun x : nat * (R * R) => Photon (fun c => U c (fst x)) (snd x))).
        rewrite (nth_indep _ no_photon (Photon (fun c => (mu * sg (fst (0, (0%R, 1%R))) * U c (fst (0, (0%R, 1%R))))%C) (snd (0, (0%R, 1%R))))) by (now rewrite map_length). rewrite (map_nth (fun p : nat * (R * R) => Photon (fun c => (mu * sg (fst p) * U c (fst p))%C) (snd p))). reflexivity.
      + rewrite !nth_overflow by (now rewrite map_length). reflexivity.
    - intros cs s Hs Hlc. unfold path. cbn [br_amplitude br_boson]. pose proof (Permutation_length Hs) as Hls. rewrite seq_length in Hls.
      assert (Hin : forall x, In x (combine s cs) -> fst x < length ps) by (intros [j c] Hx; apply in_combine_l in Hx; apply (Permutation_in _ (Permutation_sym Hs)) in Hx; apply in_seq in Hx; cbn [fst]; lia).
      assert (E1 : Cprod (combine s cs) (fun x => ph_wave (nth_photon (Branch (ry_amplitude r) (ry_boson r) (map (fun p => Photon (fun c => (mu * sg (fst p) * U c (fst p))%C) (snd p)) ps)) (fst x)) (snd x))
         = Cprod (combine s cs) (fun x => (mu * sg (fst (nth (fst x) ps (0, (0%R, 1%R))))) * U (snd x) (fst (nth (fst x) ps (0, (0%R, 1%R)))))%C).
      { apply Cprod_ext. intros x Hx. unfold nth_photon. cbn [br_photons]. rewrite (nth_indep _ no_photon (Photon (fun c => (mu * sg (fst (0, (0%R, 1%R))) * U c (fst (0, (0%R, 1%R))))%C) (snd (0, (0%R, 1%R))))) by (rewrite map_length; exact (Hin x Hx)).
        rewrite (map_nth (fun p : nat * (R * R) => Photon (fun c => (mu * sg (fst p) * U c (fst p))%C) (snd p))). reflexivity. }
      assert (E2 : Cprod (combine s cs) (fun x => ph_wave (nth_photon (Branch (ry_amplitude r * Cprod ps (fun p => mu * sg (fst p)))%C (ry_boson r) (map (fun x => Photon (fun c => U c (fst x)) (snd x)) ps)) (fst x)) (snd x))
         = Cprod (combine s cs) (fun x => U (snd x) (fst (nth (fst x) ps (0, (0%R, 1%R)))))).
      { apply Cprod_ext. intros x Hx. unfold nth_photon. cbn [br_photons]. rewrite (nth_indep _ no_photon (Photon (fun c => U c (fst (0, (0%R, 1%R)))) (snd (0, (0%R, 1%R))))) by (rewrite map_length; exact (Hin x Hx)).
        rewrite (map_nth (fun x : nat * (R * R) => Photon (fun c => U c (fst x)) (snd x))). reflexivity. }
      rewrite E1, E2.
      rewrite (Cprod_times (combine s cs) (fun x => mu * sg (fst (nth (fst x) ps (0%nat, (0%R, 1%R)))))%C (fun x => U (snd x) (fst (nth (fst x) ps (0%nat, (0%R, 1%R)))))).
      assert (E3 : Cprod (combine s cs) (fun x => mu * sg (fst (nth (fst x) ps (0, (0%R, 1%R)))))%C = Cprod ps (fun p => mu * sg (fst p))%C).
      { rewrite <- (Cprod_nth ps (0, (0%R, 1%R))), (Cprod_perm _ _ _ Hs). rewrite <- (map_fst_combine' s cs) at 2 by lia. rewrite Cprod_map. reflexivity. }
      rewrite E3. unfold Cdiv. ring. }
  transitivity (detection (map (track_branch U) (real_tracks ts)) f); [apply detection_perm; apply Permutation_map; exact S6|].
  unfold detection. f_equal. f_equal. unfold interference.
  assert (Hfit : forall g, (forall t, tk_amplitude t = RtoC 0 -> g (track_branch U t) = RtoC 0) -> Csum (fitting (map (track_branch U) (real_tracks ts)) f) g = Csum (fitting (map (track_branch U) ts) f) g).
  { intros g Hg. unfold fitting, real_tracks. clear -Hg. induction ts as [|t l IH]; [reflexivity|]. cbn [map filter]. destruct (nz (tk_amplitude t)) eqn:En; cbn [map filter].
    - destruct (length (br_photons (track_branch U t)) =? NamesSpec.photons f); [|exact IH]. rewrite !Csum_cons, IH. reflexivity.
    - rewrite IH. assert (Z : tk_amplitude t = RtoC 0) by (destruct (Ceq_dec (tk_amplitude t) (RtoC 0)) as [|Hz]; [assumption|apply nz_spec in Hz; congruence]).
      destruct (length (br_photons (track_branch U t)) =? NamesSpec.photons f); [|reflexivity]. rewrite Csum_cons, (Hg t Z). ring. }
  assert (Hp0 : forall t cs s, tk_amplitude t = RtoC 0 -> path (track_branch U t) cs s = RtoC 0) by (intros t cs s Z; unfold path, track_branch; cbn [br_amplitude br_boson]; rewrite Z; unfold Cdiv; ring).
  rewrite Hfit.
  - apply Csum_ext. intros b1 _. rewrite Hfit; [reflexivity|]. intros t Z. apply Csum_zero. intros s _. apply Csum_zero. intros u _. rewrite (Hp0 t _ _ Z), Cconj_RtoC. ring.
  - intros t Z. apply Csum_zero. intros b2 _. apply Csum_zero. intros s _. apply Csum_zero. intros u _. rewrite (Hp0 t _ _ Z). ring.
Qed.
End Last.
