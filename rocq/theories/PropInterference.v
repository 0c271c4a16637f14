(** C47: the measurement of photon-resolved collections. Read with ColumnModel.v (model),
    TemporalSpec.v and InterferenceSpec.v (vocabulary). *)
From Coq Require Import Reals List Arith Lia Lra Bool Permutation.
From Coquelicot Require Import Complex.
From Verif Require Import Prelude NamesModel NamesSpec NamesProofs FockModel FockProofs StateModel StateSpec StateProofs ApplyProofs MeasureSpec MeasureProofs
  CollectionModel EvalModel PropMeasure PropCollection PropEval PropBridge PropPRMeasure OperatorModel ColumnModel ColumnSpec ColumnProofs PropColumn
  GroupProofs TemporalSpec TemporalProofs ResolvedProofs PropTemporal PropDelays InterferenceSpec ArrangementProofs InterferenceProofs MeasuredProofs.
Import ListNotations.

Lemma carries_weights cs bs : carries cs bs -> group_weights (co_items cs) (map (fun b => (bd_label b, bd_group b, bd_weight b)) bs).
Proof.
  intros [Hst [Hnd Hok]]. split; [rewrite map_map; exact Hnd|].
  assert (Hin : forall st, In st (flat_map bundle_states bs) <-> exists b r x, In b bs /\ In r (bd_rays b) /\ In x (ry_states r) /\ st = sp_state x).
  { intro st. rewrite in_flat_map. split.
    - intros [b [Hb H]]. unfold bundle_states in H. apply in_flat_map in H. destruct H as [r [Hr H]]. apply in_map_iff in H. destruct H as [x [<- Hx]]. exists b, r, x. repeat split; assumption.
    - intros [b [r [x [Hb [Hr [Hx ->]]]]]]. exists b. split; [exact Hb|]. unfold bundle_states. apply in_flat_map. exists r. split; [exact Hr|]. apply in_map_iff. exists x. split; [reflexivity|exact Hx]. }
  assert (Hfact : forall b r x, In b bs -> In r (bd_rays b) -> In x (ry_states r) -> s_init (sp_state x) = bd_label b /\ forall k p, in_group (sp_state x) k p <-> k = bd_group b /\ p = bd_weight b).
  { intros b r x Hb Hr Hx. destruct (proj1 (Forall_forall _ _) Hok b Hb) as [_ [_ Hrs]]. pose proof (proj1 (Forall_forall _ _) Hrs r Hr) as Hro.
    destruct Hro as [_ [_ [_ [_ H]]]]. pose proof (proj1 (Forall_forall _ _) H x Hx) as [_ [_ [H2 [_ H4]]]]. fold (sp_state x) in *. split; [exact H2|]. intros k p. unfold in_group. rewrite H4. split.
    - intros [q [E [E1 E2]]]. injection E as <-. cbn in E1, E2. split; congruence.
    - intros [-> ->]. eexists. split; [reflexivity|]. split; reflexivity. }
  split.
  - intros it Hit. assert (H : In (snd it) (flat_map bundle_states bs)) by (rewrite <- Hst; apply in_map; exact Hit). apply Hin in H. destruct H as [b [r [x [Hb [Hr [Hx E]]]]]].
    exists (bd_group b), (bd_weight b). rewrite E. apply (Hfact b r x Hb Hr Hx). split; reflexivity.
  - intros i k p. split.
    + intro H. apply in_map_iff in H. destruct H as [b [E Hb]]. destruct (proj1 (Forall_forall _ _) Hok b Hb) as [Hne [_ Hrs]]. destruct (bd_rays b) as [|r l] eqn:Er; [congruence|].
      pose proof (Forall_inv Hrs) as [_ [_ [Hs _]]]. destruct (ry_states r) as [|x l'] eqn:Ex; [congruence|].
      assert (H : In (sp_state x) (map snd (co_items cs))). { rewrite Hst. apply Hin. exists b, r, x. rewrite Er, Ex. split; [exact Hb|]. split; [left; reflexivity|]. split; [left; reflexivity|reflexivity]. }
      apply in_map_iff in H. destruct H as [it [Eit Hit]]. exists it. split; [exact Hit|]. rewrite Eit.
      destruct (Hfact b r x Hb) as [F1 F2]; [rewrite Er; left; reflexivity|rewrite Ex; left; reflexivity|]. assert (i = bd_label b /\ k = bd_group b /\ p = bd_weight b) as [-> [-> ->]] by (split; [congruence|split; congruence]).
      split; [exact F1|]. apply F2. split; reflexivity.
    + intros [it [Hit [Hi Hg]]]. assert (H : In (snd it) (flat_map bundle_states bs)) by (rewrite <- Hst; apply in_map; exact Hit). apply Hin in H. destruct H as [b [r [x [Hb [Hr [Hx E]]]]]].
      destruct (Hfact b r x Hb Hr Hx) as [F1 F2]. rewrite E in Hi, Hg. apply F2 in Hg. destruct Hg as [-> ->]. apply in_map_iff. exists b. split; [|exact Hb]. rewrite <- Hi, F1. reflexivity.
Qed.
Lemma combine_seq_sum {A} (l : list A) (F : A -> R) k : Rsum (combine (seq k (length l)) l) (fun kx => F (snd kx)) = Rsum l F.
Proof. revert k. induction l as [|x l IH]; intro k; [reflexivity|]. cbn [length seq combine]. rewrite !Rsum_cons, IH. reflexivity. Qed.

(** The measurement of groups [gs] of single photons that stand for the bundles [bs]. *)
Lemma groups_measured rnd opt cl cs bs gs : 1 <= dN (co_D cs) -> outcomes_clear (dL (co_D cs)) opt ->
  Forall2 (resolves (co_D cs) (co_eps cs) (co_ncl cs)) bs gs -> Forall (bundle_ok (co_D cs) (co_eps cs) (co_ncl cs)) bs ->
  Forall (fun it => check_state (co_eps cs) (co_ncl cs) (snd it) = true) (co_items cs) ->
  NoDup cl -> Forall (fun c => c < co_ncl cs) cl ->
  exists cs' bos, measure_all_groups rnd opt cl cs gs = Some cs' /\ NoDup (map fst (co_items cs')) /\
    co_D cs' = co_D cs /\ co_eps cs' = co_eps cs /\ co_ncl cs' = co_ncl cs /\
    carries cs' (map fst bos) /\
    group_weights (co_items cs') (map (fun bo => (bd_label (fst bo), bd_group (fst bo), bd_weight (fst bo))) bos) /\
    (forall b' o, In (b', o) bos -> exists b, In b bs /\ after_outcome (co_D cs) opt cl o b b') /\
    (forall i o, Rsum (filter (fun bo => leqb (bd_label (fst bo)) i && leqb (snd bo) o) bos) (fun bo => bd_weight (fst bo))
       = Rsum (filter (fun b => leqb (bd_label b) i) bs) (fun b => bd_weight b * outcome_detection (dL (co_D cs)) (dN (co_D cs)) (map (ray_branch (co_D cs)) (bd_rays b)) opt o)%R) /\
    (forall b' o, In (b', o) bos -> exists b g k, In (b, g) (combine bs gs) /\ b' = measured_bundle (co_D cs) opt cl (bd_label b) g k o).
Proof.
  intros HN HL HF Hok Hck Hcl Hcl2.
  destruct (measured_groups rnd opt cl cs bs gs HN HL HF Hok Hck) as [cs' [E [Hnd [ED [Ee [En [HT Hc]]]]]]].
  remember (flat_map (fun bg => map (pair bg) (outcome_keys (co_D cs) opt (group_columns (snd bg)))) (combine bs gs)) as T eqn:ET.
  set (D := co_D cs) in *. set (eps := co_eps cs) in *. set (ncl := co_ncl cs) in *.
  exists cs', (map (fun kx : nat * (bundle * group * list nat) => (measured_bundle D opt cl (bd_label (fst (fst (snd kx)))) (snd (fst (snd kx))) (fst kx) (snd (snd kx)), snd (snd kx))) (combine (seq 0 (length T)) T)).
  split; [exact E|]. split; [exact Hnd|]. split; [exact ED|]. split; [exact Ee|]. split; [exact En|]. rewrite map_map. cbn [fst]. split; [exact Hc|]. split.
  { pose proof (carries_weights _ _ Hc) as Hw. rewrite map_map in Hw |- *. exact Hw. }
  split; [|split].
  - intros b' o H. apply in_map_iff in H. destruct H as [[k x] [Ex Hx]]. cbn [fst snd] in Ex. assert (E1 := f_equal fst Ex). assert (E2 := f_equal snd Ex). cbn [fst snd] in E1, E2. subst b' o.
    apply in_combine_r in Hx. destruct (HT x Hx) as [H1 [H2 H3]]. exists (fst (fst x)). split; [exact H1|].
    apply (measured_after D eps ncl (fst (fst x)) (snd (fst x)) opt cl k (snd x) HN (proj1 (Forall_forall _ _) Hok _ H1) H2 Hcl Hcl2 H3).
  - intros i o. rewrite Rsum_filter, Rsum_map. cbn [fst snd].
    rewrite (combine_seq_sum T (fun x : bundle * group * list nat => if leqb (bd_label (fst (fst x))) i && leqb (snd x) o then (g_cum (snd (fst x)) * outcome_p D (selected D opt (snd x) (group_columns (snd (fst x)))))%R else 0%R)).
    rewrite ET, Rsum_flat_map. rewrite (Rsum_ext _ _ (fun bg => if leqb (bd_label (fst bg)) i then (bd_weight (fst bg) * outcome_detection (dL D) (dN D) (map (ray_branch D) (bd_rays (fst bg))) opt o)%R else 0%R)).
    + transitivity (Rsum bs (fun b => if leqb (bd_label b) i then (bd_weight b * outcome_detection (dL D) (dN D) (map (ray_branch D) (bd_rays b)) opt o)%R else 0%R)).
      * assert (Em : map fst (combine bs gs) = bs) by (apply map_fst_combine'; exact (forall2_len _ _ _ HF)). rewrite <- Em at 2. rewrite Rsum_map. reflexivity.
      * rewrite Rsum_filter. reflexivity.
    + intros [b g] Hbg. destruct (forall2_combine _ _ _ HF _ Hbg) as [Hres Hb]. cbn [fst snd] in *. rewrite Rsum_map. cbn [fst snd].
      assert (Hbok : bundle_ok D eps ncl b) by (apply (proj1 (Forall_forall _ _) Hok); exact Hb).
      pose proof (resolves_measurable D eps ncl b g Hbok Hres) as Hm. destruct Hres as [_ [_ [Hw [Hpv _]]]].
      assert (HP : forall o, outcome_p D (selected D opt o (group_columns g)) = outcome_detection (dL D) (dN D) (map (ray_branch D) (bd_rays b)) opt o).
      { intro o'. apply (outcome_detected D eps ncl b opt o' (group_columns g) Hbok Hpv). revert Hm. apply Forall_impl. intros c [[_ [_ [_ [_ Hv]]]] _]. exact Hv. }
      destruct (leqb (bd_label b) i); [|apply Rsum_zero; reflexivity]. cbn [andb]. rewrite Rsum_pick.
      * rewrite Hw, HP. reflexivity.
      * apply (group_by_nodup leqb leqb_spec).
      * intro Hno. assert (Es : selected D opt o (group_columns g) = []). { destruct (selected D opt o (group_columns g)) eqn:Es; [reflexivity|]. exfalso. apply Hno. apply keys_selected. rewrite Es. discriminate. }
        rewrite Es. unfold outcome_p. cbn. ring.
  - intros b' o H. apply in_map_iff in H. destruct H as [[k x] [Ex Hx]]. cbn [fst snd] in Ex. assert (E1 := f_equal fst Ex). assert (E2 := f_equal snd Ex). cbn [fst snd] in E1, E2. subst b' o.
    apply in_combine_r in Hx. rewrite ET in Hx. apply in_flat_map in Hx. destruct Hx as [[b g] [Hbg Hx]]. apply in_map_iff in Hx. destruct Hx as [o [<- Ho]]. cbn [fst snd]. exists b, g, k. split; [exact Hbg|reflexivity].
Qed.
(** Measuring the optical channels [opt] of a collection that carries the groups [bs]: the result
    carries new groups, each of which is one of the old groups after one of the outcomes. For every
    label and outcome, the weights of the new groups add up to the weights of the old groups times
    the detection probability of the outcome. *)
Theorem C47_measurement rnd opt cl cs bs : 1 <= dN (co_D cs) -> outcomes_clear (dL (co_D cs)) opt -> (0 <= co_eps cs)%R -> carries cs bs ->
  NoDup cl -> Forall (fun c => c < co_ncl cs) cl ->
  exists cs' bos, measure_resolved rnd opt cl cs = Some cs' /\ NoDup (map fst (co_items cs')) /\
    co_D cs' = co_D cs /\ co_eps cs' = co_eps cs /\ co_ncl cs' = co_ncl cs /\
    carries cs' (map fst bos) /\
    group_weights (co_items cs') (map (fun bo => (bd_label (fst bo), bd_group (fst bo), bd_weight (fst bo))) bos) /\
    (forall b' o, In (b', o) bos -> exists b, In b bs /\ after_outcome (co_D cs) opt cl o b b') /\
    (forall i o, Rsum (filter (fun bo => leqb (bd_label (fst bo)) i && leqb (snd bo) o) bos) (fun bo => bd_weight (fst bo))
       = Rsum (filter (fun b => leqb (bd_label b) i) bs) (fun b => bd_weight b * outcome_detection (dL (co_D cs)) (dN (co_D cs)) (map (ray_branch (co_D cs)) (bd_rays b)) opt o)%R).
Proof.
  intros HN HL He Hcar Hcl Hcl2. pose proof (carried_resolved cs bs HN He Hcar) as (bs2 & gs & Hp & E & HF & Hok2 & Hck).
  destruct (groups_measured rnd opt cl cs bs2 gs HN HL HF Hok2 Hck Hcl Hcl2) as (cs' & bos & M1 & M2 & M3 & M4 & M5 & M6 & M7 & M8 & M9 & _).
  exists cs', bos. split; [unfold measure_resolved; rewrite E; exact M1|]. split; [exact M2|]. split; [exact M3|]. split; [exact M4|]. split; [exact M5|]. split; [exact M6|]. split; [exact M7|]. split.
  - intros b' o H. destruct (M8 b' o H) as (b & Hb & HA). exists b. split; [|exact HA]. exact (Permutation_in _ (Permutation_sym Hp) Hb).
  - intros i o. rewrite M9, !Rsum_filter. apply Rsum_perm. symmetry. exact Hp.
Qed.
