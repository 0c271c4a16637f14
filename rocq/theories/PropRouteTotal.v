(** C57, continued: the probabilities of all outcomes add up to one when the last change of the timing
    is a time delay (it sets one pulse width for all photons), and so the weights of the input states
    are kept. *)
From Coq Require Import Reals List Arith Lia Lra Bool Permutation.
From Coquelicot Require Import Complex.
From Verif Require Import Prelude NamesModel NamesSpec NamesProofs FockModel FockSpec BosonProofs FockProofs GateProofs PropFock StateModel StateSpec StateProofs ApplyProofs
  CollectionModel EvalModel EvalSpec EvalProofs MeasureSpec MeasureProofs WfProofs PropState PropMeasure PropEval PropCollection PropBridge PropPRMeasure PropPROptics OperatorModel ColumnModel ColumnSpec ColumnProofs PropColumn
  GroupProofs TemporalSpec TemporalProofs ResolvedProofs PropTemporal PropDelays PropWidth InterferenceSpec ArrangementProofs InterferenceProofs MeasuredProofs PropInterference ExperimentSpec ExperimentProofs PermanentProofs PropPermanent SentProofs PropExperiment
  ConservationProofs PropCoherent RouteSpec RouteProofs GaussProofs RouteTotals RouteSteps PropRoute.
Import ListNotations.

Lemma start_below D st : wf_state D st -> sendable D st -> s_comps st <> [] ->
  Forall (fun t => below (dN D) (tk_photons t)) (start_tracks D st) /\ Forall (fun t => length (tk_photons t) < dL D) (start_tracks D st).
Proof.
  intros Hwf Hs Hne. destruct (parts_values_facts D st Hwf Hs Hne) as (_ & P & _). unfold parts_values in P. rewrite Forall_map, Forall_forall in P. unfold start_tracks. rewrite !Forall_map, !Forall_forall. split; intros x Hx; destruct (P x Hx) as [P1 P2]; cbn [fst] in *; cbn [tk_photons].
  - unfold below. apply Forall_map, Forall_forall. intros k Hk. cbn [fst]. rewrite <- P1. now apply channels_bound.
  - rewrite map_length, channels_length. exact P2.
Qed.
Lemma real_interference w bs f : w <> 0%R -> (forall b p, In b bs -> In p (br_photons b) -> snd (ph_timing p) = w) -> (interference bs f / RtoC (INR (factorials f)))%C = RtoC (detection bs f).
Proof.
  intros Hw H. destruct (blend_positive w bs f Hw H) as (r & Hr & E). unfold detection. rewrite E, Cmod_R, Rabs_right by lra. rewrite RtoC_div; [reflexivity|]. apply not_0_INR. pose proof (factorials_pos f). lia.
Qed.
Lemma route_detections D legs chs d w es st : Forall (optic_ok D) es -> Forall (fun l => Forall (optic_ok D) (lg_optics l)) legs -> w <> 0%R -> wf_state D st -> sendable D st -> s_comps st <> [] ->
  RtoC (Rsum (tuples (dL D) (dN D)) (detection (routed_branches D (legs ++ [Leg (DelayOf chs d w) es]) st))) = shares (at_width w) (start_tracks D st).
Proof.
  intros Hes Hlegs Hw Hwf Hs Hne. destruct (start_below D st Hwf Hs Hne) as [B1 B2].
  destruct (routes_total (dN D) (dL D) chs d w es legs (optics_transfer_unitary D es Hes)) with (st := st) (ts := start_tracks D st) as [T1 T2]; [|exact B1|exact B2|].
  - revert Hlegs. apply Forall_impl. intros l. apply optics_transfer_unitary.
  - rewrite <- T1, <- Csum_RtoC. apply Csum_ext. intros f _. symmetry. apply (real_interference w); [exact Hw|exact T2].
Qed.

(** The probabilities of the outcomes: none is negative, and together they are one. *)
Theorem C57_outcomes_total D legs chs d w es st opt O :
  Forall (fun l => Forall (optic_ok D) (lg_optics l)) legs -> Forall (optic_ok D) es -> w <> 0%R ->
  wf_state D st -> sendable D st -> s_comps st <> [] ->
  NoDup O -> (forall f, In f (tuples (dL D) (dN D)) -> In (readout opt f) O) ->
  let q := outcome_detection (dL D) (dN D) (routed_branches D (legs ++ [Leg (DelayOf chs d w) es]) st) opt in
  (forall o, 0 <= q o)%R /\ Rsum O q = 1%R.
Proof.
  intros Hlegs Hes Hw Hwf Hs Hne ND HO q. split.
  - intro o. unfold q, outcome_detection. apply Rsum_nonneg. intros f _. unfold detection. apply Rle_mult_inv_pos; [apply Cmod_ge_0|apply lt_0_INR, factorials_pos].
  - unfold q, outcome_detection. rewrite (Rsum_flat (tuples (dL D) (dN D)) (fun o f => leqb (readout opt f) o)); [| |exact ND].
    + apply RtoC_inj. rewrite route_detections by assumption.
      rewrite <- (route_detections D [] [] (Delay 0) w [] st) by (try assumption; constructor). cbn [app]. rewrite C57_one_leg. f_equal.
      destruct (parts_values_facts D st Hwf Hs Hne) as (P1 & P2 & P3).
      pose proof (branches_total D [] [] (delay_in (Delay 0) st) w ltac:(constructor) Hw (parts_values D st) P1 P2) as T. unfold parts_values in T at 1. rewrite map_map in T. etransitivity; [exact T|exact P3].
    + intros f Hf. exists (readout opt f). split; [now apply HO|]. split; [apply leqb_same|]. intros o' _ E. apply leqb_spec in E. now symmetry.
Qed.

(** The weight of every input state is found back in the states after the experiment. *)
Theorem C57_weights rnd0 X rnd rnd' D ncl eps full legs chs d w es ndss opt cl cs :
  let all := legs ++ [Leg (DelayOf chs d w) es] in
  2 <= dL D /\ outcomes_clear (dL D) opt -> 2 <= dN D -> (0 < eps)%R -> w <> 0%R -> Forall (leg_ok D ncl eps) all ->
  Forall2 (fun l nds => place D (optic_gates (lg_optics l)) = Some nds) all ndss -> NoDup cl -> Forall (fun ch => ch < ncl) cl ->
  co_D cs = D -> co_eps cs = eps -> co_ncl cs = ncl -> delayable cs -> Forall (fun it => sendable D (snd it)) (co_items cs) ->
  exists cs' W, evaluate_circuit (with_resolved rnd0 X) rnd (route_circuit D ncl eps full rnd' all ndss opt cl) cs = Ok cs' /\
    group_weights (co_items cs') W /\
    forall i, weight_of W i = Rsum (filter (fun it => leqb (s_init (snd it)) i) (co_items cs)) (fun it => s_cum (snd it)).
Proof.
  intros all HL HN He Hw Hlegs Hpl NDcl Hcl ED Ee En Hdl Hsend.
  destruct (C57_experiment rnd0 X rnd rnd' D ncl eps full all ndss opt cl cs HL HN He ltac:(intro Z; apply app_eq_nil in Z; destruct Z; discriminate) Hlegs Hpl NDcl Hcl ED Ee En Hdl Hsend)
    as (cs' & bos & E & _ & _ & _ & _ & _ & HG & _ & HS).
  exists cs', (map (fun bo => (bd_label (fst bo), bd_group (fst bo), bd_weight (fst bo))) bos). split; [exact E|]. split; [exact HG|].
  assert (Hopt : Forall (fun l => Forall (optic_ok D) (lg_optics l)) legs /\ Forall (optic_ok D) es).
  { unfold all in Hlegs. apply Forall_app in Hlegs. destruct Hlegs as [H1 H2]. split; [revert H1; apply Forall_impl; intros l Hl; apply Hl|]. apply Forall_cons_iff in H2. apply H2. }
  destruct Hopt as [Ho1 Ho2].
  intro i. unfold weight_of. rewrite filter_map, Rsum_map. cbn [fst snd].
  set (O := nodup (list_eq_dec Nat.eq_dec) (map snd bos ++ map (readout opt) (tuples (dL D) (dN D)))).
  assert (NDO : NoDup O) by apply NoDup_nodup.
  assert (HO : forall f, In f (tuples (dL D) (dN D)) -> In (readout opt f) O) by (intros f Hf; apply nodup_In, in_or_app; right; now apply in_map).
  rewrite <- (Rsum_flat (filter (fun bo => leqb (bd_label (fst bo)) i) bos) (fun o bo => leqb (snd bo) o) O); [| |exact NDO].
  - transitivity (Rsum O (fun o => Rsum (filter (fun it => leqb (s_init (snd it)) i) (co_items cs))
           (fun it => s_cum (snd it) * outcome_detection (dL D) (dN D) (routed_branches D all (snd it)) opt o)%R)).
    + apply Rsum_ext. intros o _. rewrite <- HS. f_equal. clear. induction bos as [|bo l IH]; [reflexivity|]. cbn [filter]. destruct (leqb (bd_label (fst bo)) i); cbn [filter andb]; [|exact IH]. destruct (leqb (snd bo) o); [now rewrite IH|exact IH].
    + rewrite Rsum_swap. apply Rsum_ext. intros it Hit. apply filter_In in Hit. destruct Hit as [Hit _]. rewrite Rsum_scal_l.
      destruct (proj1 (Forall_forall _ _) (proj2 Hdl) it Hit) as (Hpl' & Hne & _).
      pose proof (proj2 (C57_outcomes_total D legs chs d w es (snd it) opt O Ho1 Ho2 Hw ltac:(rewrite <- ED; apply Hpl') (proj1 (Forall_forall _ _) Hsend it Hit) Hne NDO HO)) as Q. cbv zeta in Q. fold all in Q. rewrite Q. ring.
  - intros bo Hbo. apply filter_In in Hbo. destruct Hbo as [Hbo _]. exists (snd bo). split; [apply nodup_In, in_or_app; left; now apply in_map|]. split; [apply leqb_same|]. intros o' _ E'. apply leqb_spec in E'. now symmetry.
Qed.

(** The Mach-Zehnder interferometer of PropRoute meets the hypotheses. *)
Example C57_interferometer_weights rnd0 X rnd rnd' t w : w <> 0%R ->
  exists ndss cs' W, evaluate_circuit (with_resolved rnd0 X) rnd (route_circuit D22 2 (1 / 4) true rnd' (interferometer t w) ndss [0; 1] [0; 1]) lone_coll = Ok cs' /\
    group_weights (co_items cs') W /\ weight_of W [49; 48] = 1%R.
Proof.
  intro Hw. destruct splitter_placed as (nds & Hnds).
  destruct (C57_weights rnd0 X rnd rnd' D22 2 (1 / 4) true [Leg (DelayOf [] (Delay 0) w) splitter] [0] (Delay t) w splitter [nds; nds] [0; 1] [0; 1] lone_coll) as (cs' & W & E & HG & HW).
  - split; [cbn; lia|left; cbn; lia].
  - cbn; lia.
  - lra.
  - exact Hw.
  - apply Forall_cons; [|apply Forall_cons; [|constructor]]; apply splitter_leg; cbn; repeat constructor.
  - constructor; [exact Hnds|]. constructor; [exact Hnds|constructor].
  - repeat constructor; cbn; intuition discriminate.
  - repeat constructor.
  - reflexivity.
  - reflexivity.
  - reflexivity.
  - exact lone_delayable.
  - exact lone_sendable.
  - exists [nds; nds], cs', W. split; [exact E|]. split; [exact HG|]. rewrite HW. cbn. ring.
Qed.
Print Assumptions C57_outcomes_total.
Print Assumptions C57_weights.
