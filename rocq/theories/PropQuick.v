(** C61: interference experiments with the quick time delay. With the probability of the overlap the
    photons meet at the same time, and otherwise they arrive far apart. *)
From Coq Require Import Reals List Arith Lia Lra Bool Permutation.
From Coquelicot Require Import Complex.
From Verif Require Import Prelude NamesModel NamesSpec NamesProofs FockModel FockSpec FockProofs StateModel StateSpec StateProofs ApplyProofs
  CollectionModel EvalModel EvalSpec MeasureSpec MeasureProofs PropProducts PropEval PropPROptics ColumnModel ColumnSpec ColumnProofs PropColumn
  GroupProofs TemporalSpec TemporalProofs PropTemporal InterferenceSpec ArrangementProofs InterferenceProofs MeasuredProofs PropInterference ExperimentSpec ExperimentProofs PermanentProofs PropPermanent SentProofs ConservationProofs PropExperiment PropCoherent RouteSteps SpreadProofs QuickSpec QuickProofs QuickGroups.
Import ListNotations.

(** One group after the delay: the state it stems from, the delay, the part of the weight, and the group. *)
Definition tagged := (state * R * R * group)%type.
Definition tg_state (y : tagged) : state := fst (fst (fst y)).
Definition tg_time (y : tagged) : R := snd (fst (fst y)).
Definition tg_share (y : tagged) : R := snd (fst y).
Definition tg_group (y : tagged) : group := snd y.
Definition tag_good (D : dims) (eps : R) (ncl : nat) (es : list optic) (chs : list nat) (y : tagged) : Prop :=
  readable (s_init (tg_state y), tg_group y) /\ group_fine eps ncl (tg_group y) /\ clear_group D eps ncl (s_init (tg_state y)) (tg_group y) /\
  (forall s, In s (group_states_of (tg_group y)) -> wf_state D s /\ check_state eps ncl s = true /\ s_init s = s_init (tg_state y) /\ s_classical s = s_classical (tg_state y) /\ s_comps s <> []) /\
  g_cum (tg_group y) = (s_cum (tg_state y) * tg_share y)%R /\
  forall f, length f = dN D -> detection (map (vbranch (fun a => a)) (flat_map (cviews D) (group_columns (tg_group y)))) f = detection (sent_branches D es chs (tg_time y) 1 (tg_state y)) f.
Definition tag_bundle (D : dims) (es : list optic) (chs : list nat) (y : tagged) (b : bundle) : Prop :=
  bd_label b = s_init (tg_state y) /\ bd_weight b = (s_cum (tg_state y) * tg_share y)%R /\
  (forall f, length f = dN D -> detection (map (ray_branch D) (bd_rays b)) f = detection (sent_branches D es chs (tg_time y) 1 (tg_state y)) f) /\
  forall s, In s (bundle_states b) -> s_init s = s_init (tg_state y) /\ s_classical s = s_classical (tg_state y).
Lemma tags_resolved D eps ncl es chs Y : 2 <= dL D -> 1 <= dN D -> (0 <= eps)%R -> Forall (tag_good D eps ncl es chs) Y ->
  exists gs0 gs bs, split_groups eps ncl (map tg_group Y) = Some gs0 /\ single_photon_groups D eps ncl gs0 = Some gs /\
    Forall2 (resolves D eps ncl) bs gs /\ Forall (bundle_ok D eps ncl) bs /\ Forall2 (tag_bundle D es chs) Y bs.
Proof.
  intros HL HN He H. induction H as [|y Y (H1 & H2 & H3 & H4 & H5 & H6) _ (gs0 & gs & bs & E1 & E2 & E3 & E4 & E5)]; [exists [], [], []; repeat split; constructor|].
  destruct (group_resolved D eps ncl (s_init (tg_state y)) (tg_group y) HN He (proj1 H1) H2 H3) as (g0 & g & F1 & F2 & F3 & F4 & F5 & F6 & F7 & F8).
  exists (g0 :: gs0), (g :: gs), (group_bundle D (s_init (tg_state y)) g :: bs). unfold split_groups, single_photon_groups in *. cbn [map option_list]. rewrite F1, E1, F2, E2.
  split; [reflexivity|]. split; [reflexivity|]. split; [now constructor|]. split; [now constructor|]. constructor; [|exact E5].
  split; [reflexivity|]. split; [cbn [group_bundle bd_weight]; now rewrite F5|]. split.
  - intros f Hf. rewrite <- (H6 f Hf). cbn [group_bundle bd_rays]. rewrite small_detection; [|exact HL|exact HN|revert F8; apply Forall_impl; intros c; apply Forall_impl; intros s Hs; apply Hs].
    apply detection_perm; now apply Permutation_map.
  - intros s Hs. rewrite group_bundle_states in Hs. unfold group_states_of in Hs. apply in_flat_map in Hs. destruct Hs as (c & Hc & Hs). destruct (proj1 (Forall_forall _ _) (proj1 (Forall_forall _ _) F8 c Hc) s Hs) as (_ & x & Hx & Hf).
    destruct (H4 x Hx) as (_ & _ & K1 & K2 & _). destruct (frame_fields _ _ Hf) as (Q1 & Q2 & _). split; congruence.
Qed.
Lemma seq_double m k : flat_map (fun n => [2 * n + 1; 2 * n + 2]) (seq k m) = seq (2 * k + 1) (2 * m).
Proof.
  revert k. induction m as [|m IH]; intro k; [reflexivity|]. cbn [seq flat_map]. rewrite IH. replace (2 * S m) with (S (S (2 * m))) by lia. cbn [seq app]. f_equal. f_equal; [lia|]. f_equal. lia.
Qed.
Section Run.
Variables (D : dims) (es : list optic) (chs : list nat) (d : delay) (w : R) (F : state -> state).
Definition ov (x : nat * ((state * nat) * group)) : R := gauss (delay_in d (fst (fst (snd x)))) w.
Definition early (x : nat * ((state * nat) * group)) : group :=
  made_group (2 * fst x + 1) (g_cum (snd (snd x)) * ov x) (overlap_result (2 * fst x + 1) (ov x)) (snd (snd x)).
Definition late (x : nat * ((state * nat) * group)) : group :=
  made_group (2 * fst x + 2) (g_cum (snd (snd x)) * (1 - ov x)) (separated_result D chs (2 * fst x + 2) (1 - ov x)) (snd (snd x)).
Definition tags (x : nat * ((state * nat) * group)) : list tagged :=
  [(fst (fst (snd x)), 0%R, ov x, sent_group F (early x)); (fst (fst (snd x)), 200%R, (1 - ov x)%R, sent_group F (late x))].
End Run.
Lemma quick_run rnd chs d w cs : delayable cs -> Forall (fun it => sendable (co_D cs) (snd it)) (co_items cs) -> delay_exists d (co_ncl cs) ->
  exists cs' sgs, add_quick_time_delay rnd chs d w cs = Some cs' /\ NoDup (map fst (co_items cs')) /\ co_D cs' = co_D cs /\ co_eps cs' = co_eps cs /\ co_ncl cs' = co_ncl cs /\
    Permutation (map (fun sg => fst (fst sg)) sgs) (map snd (co_items cs)) /\
    Forall (fun sg => good_state (co_D cs) (co_eps cs) (co_ncl cs) (fst (fst sg)) /\ sendable (co_D cs) (fst (fst sg)) /\ split_facts (co_eps cs) (co_ncl cs) (fst sg) (snd sg)) sgs /\
    map snd (co_items cs') = flat_map (fun x => group_states_of (early d w x) ++ group_states_of (late (co_D cs) chs d w x)) (combine (seq 0 (length sgs)) sgs).
Proof.
  intros Hdl Hsend Hd. pose proof (delayable_good cs Hdl) as Hgood. destruct Hdl as [He _].
  destruct (plain_groups (co_D cs) (co_eps cs) (co_ncl cs) (co_items cs) He Hgood) as [cc [sks [gs [E1 [E2 [Hp [Hnd HF]]]]]]].
  pose proof (good_perm _ _ _ _ _ Hp Hgood) as Hg2.
  assert (Hs2 : Forall (fun sk => sendable (co_D cs) (fst sk)) sks).
  { apply Forall_forall. intros sk Hin. apply (in_map fst) in Hin. apply (Permutation_in _ Hp) in Hin. apply in_map_iff in Hin. destruct Hin as [it [<- Hin]]. exact (proj1 (Forall_forall _ _) Hsend it Hin). }
  assert (Hlen : length sks = length gs) by exact (forall2_len _ _ _ HF).
  assert (Hgs : map snd (combine sks gs) = gs) by (clear -Hlen; revert gs Hlen; induction sks as [|x l IH]; intros [|y l'] Hl; try discriminate; [reflexivity|]; cbn [combine map snd]; f_equal; apply IH; cbn in Hl; lia).
  assert (Hsk : map fst (combine sks gs) = sks) by (apply map_fst_combine'; exact Hlen).
  set (sgs := combine sks gs) in *.
  assert (HA : Forall (fun sg => good_state (co_D cs) (co_eps cs) (co_ncl cs) (fst (fst sg)) /\ sendable (co_D cs) (fst (fst sg)) /\ split_facts (co_eps cs) (co_ncl cs) (fst sg) (snd sg)) sgs).
  { apply Forall_forall. intros sg Hin. pose proof (in_map fst _ _ Hin) as Hin'. rewrite Hsk in Hin'. destruct (forall2_combine _ _ _ HF sg Hin) as [HS _].
    split; [exact (proj1 (Forall_forall _ _) Hg2 _ Hin')|]. split; [exact (proj1 (Forall_forall _ _) Hs2 _ Hin')|exact HS]. }
  assert (E3 : option_list (map (fun kg => quick_group (co_D cs) (co_eps cs) (co_ncl cs) chs d w (2 * fst kg) (snd kg)) (combine (seq 0 (length gs)) gs))
             = Some (map (fun x => [early d w x; late (co_D cs) chs d w x]) (combine (seq 0 (length sgs)) sgs))).
  { assert (Ec : combine (seq 0 (length gs)) gs = map (fun x => (fst x, snd (snd x))) (combine (seq 0 (length sgs)) sgs)).
    { rewrite <- Hgs. rewrite map_length. generalize 0 as k. clear. induction sgs as [|sg l IH]; intro k; [reflexivity|]. cbn [length seq combine map fst snd]. f_equal. apply IH. }
    rewrite Ec, map_map. apply option_list_map_some. intros [k [sk g]] Hin. apply in_combine_r in Hin. destruct (proj1 (Forall_forall _ _) HA _ Hin) as (H1 & H2 & H3). cbn [fst snd] in *.
    exact (quick_group_spec (co_D cs) (co_eps cs) (co_ncl cs) chs d w (2 * k) sk g _ He H1 H3 (delay_of_in d _ _ _ _ Hd H1)). }
  destruct (collect_ok (co_D cs) rnd cs (flat_map group_states_of (concat (map (fun x => [early d w x; late (co_D cs) chs d w x]) (combine (seq 0 (length sgs)) sgs)))) Hgood) as [cs' [E4 [E5 [E6 [E7 [E8 E9]]]]]].
  exists cs', sgs. unfold add_quick_time_delay. rewrite E1, E2, E3. split; [exact E4|]. split; [exact E6|]. split; [exact E7|]. split; [exact E8|]. split; [exact E9|]. split.
  { rewrite <- (map_map fst fst), Hsk. exact Hp. }
  split; [exact HA|]. rewrite E5, <- flat_map_concat_map. clear. induction (combine (seq 0 (length sgs)) sgs) as [|x l IH]; [reflexivity|]. cbn [flat_map app]. rewrite IH, app_assoc. reflexivity.
Qed.
Section Tags.
Variables (D : dims) (eps : R) (ncl : nat) (es : list optic) (F : state -> state) (chs : list nat) (d : delay) (w : R).
Hypothesis HL : 2 <= dL D.
Hypothesis HN : 1 <= dN D.
Hypothesis He : (0 <= eps)%R.
Hypothesis HF : sends_numbers D eps ncl es F.
Definition sg_good (x : nat * ((state * nat) * group)) : Prop :=
  good_state D eps ncl (fst (fst (snd x))) /\ sendable D (fst (fst (snd x))) /\ split_facts eps ncl (fst (snd x)) (snd (snd x)) /\ (2 <= length (s_comps (fst (fst (snd x)))) -> no_certain_phase D es).
Lemma ov_range x : (0 <= ov d w x <= 1)%R.
Proof. unfold ov. pose proof (gauss_range (delay_in d (fst (fst (snd x)))) w). lra. Qed.
Lemma early_columns x : sg_good x -> forall c, In c (group_columns (snd (snd x))) ->
  let c' := overlap_result (2 * fst x + 1) (ov d w x) c in col_id c' = col_id c /\ col_amp c' = col_amp c /\ col_boson c' = 1%R /\ col_group c' = 2 * fst x + 1 /\ col_cum c' = (g_cum (snd (snd x)) * ov d w x)%R /\ stamped c' /\
  Forall2 (piece D eps ncl (fst (fst (snd x)))) (col_states c') (together_pieces (col_vals D c)).
Proof.
  intros (H1 & H2 & H3 & _) c Hc. pose proof (overlap_pieces D eps ncl (fst (snd x)) (snd (snd x)) c (2 * fst x + 1) (ov d w x) He H1 H2 H3 Hc (ov_range x)) as H. rewrite (proj1 (proj2 H3)). exact H.
Qed.
Lemma late_columns x : sg_good x -> forall c, In c (group_columns (snd (snd x))) ->
  let c' := separated_result D chs (2 * fst x + 2) (1 - ov d w x) c in col_id c' = col_id c /\ col_amp c' = col_amp c /\ col_boson c' = 1%R /\ col_group c' = 2 * fst x + 2 /\ col_cum c' = (g_cum (snd (snd x)) * (1 - ov d w x))%R /\ stamped c' /\
  Forall2 (piece D eps ncl (fst (fst (snd x)))) (col_states c') (apart_pieces chs (col_vals D c)).
Proof.
  intros (H1 & H2 & H3 & _) c Hc. pose proof (apart_pieces_fit D eps ncl (fst (snd x)) (snd (snd x)) c (2 * fst x + 2) chs (1 - ov d w x) He H1 H2 H3 Hc ltac:(pose proof (ov_range x); lra)) as H. rewrite (proj1 (proj2 H3)). exact H.
Qed.
Lemma tags_good x : sg_good x -> Forall (tag_good D eps ncl es chs) (tags D chs d w F x).
Proof.
  intro Hx. pose proof (early_columns x Hx) as Hea. pose proof (late_columns x Hx) as Hla. destruct Hx as (H1 & H2 & H3 & H4). unfold tags. repeat apply Forall_cons; [| |constructor].
  - destruct (pieces_sent D eps ncl es F chs 0 (fun a => a) (fst (snd x)) (snd (snd x)) (2 * fst x + 1) (g_cum (snd (snd x)) * ov d w x) (overlap_result (2 * fst x + 1) (ov d w x)) together_pieces HL HN He HF H1 H2 H3 H4 Hea (together_fit D es chs) (fun a b => eq_refl)) as (Q1 & Q2 & Q3 & Q4 & Q5).
    split; [exact Q1|]. split; [exact Q2|]. split; [exact Q3|]. split; [exact Q4|]. split; [|exact Q5]. cbn [tg_group tg_state tg_share snd fst sent_group early made_group g_cum]. now rewrite (proj1 (proj2 H3)).
  - destruct (pieces_sent D eps ncl es F chs 200 shift100 (fst (snd x)) (snd (snd x)) (2 * fst x + 2) (g_cum (snd (snd x)) * (1 - ov d w x)) (separated_result D chs (2 * fst x + 2) (1 - ov d w x)) (apart_pieces chs) HL HN He HF H1 H2 H3 H4 Hla (apart_fit D es chs) shift_isometry) as (Q1 & Q2 & Q3 & Q4 & Q5).
    split; [exact Q1|]. split; [exact Q2|]. split; [exact Q3|]. split; [exact Q4|]. split; [|exact Q5]. cbn [tg_group tg_state tg_share snd fst sent_group late made_group g_cum]. now rewrite (proj1 (proj2 H3)).
Qed.
Lemma delayed_wf x : sg_good x -> Forall (fun s => (wf_state D s /\ s_comps s <> []) /\ check_state eps ncl s = true) (group_states_of (early d w x) ++ group_states_of (late D chs d w x)).
Proof.
  intro Hx. pose proof (early_columns x Hx) as Hea. pose proof (late_columns x Hx) as Hla. destruct Hx as (H1 & H2 & H3 & H4).
  assert (Hv : forall c, In c (group_columns (snd (snd x))) -> valid D (col_vals D c) /\ NamesSpec.photons (col_vals D c) < dL D).
  { intros c Hc. destruct (col_vals_ok D eps ncl es (fst (snd x)) (snd (snd x)) He H1 H2 H3 H4 c Hc) as (V1 & V2 & _). now split. }
  assert (E : forall nn q Rz s, In s (group_states_of (made_group nn q Rz (snd (snd x)))) -> exists c, In c (group_columns (snd (snd x))) /\ In s (col_states (Rz c))).
  { intros nn q Rz s Hs. unfold group_states_of, group_columns, made_group in Hs. cbn [g_cols] in Hs. rewrite map_map in Hs. cbn [snd] in Hs. apply in_flat_map in Hs. destruct Hs as (c' & Hc' & Hs). apply in_map_iff in Hc'. destruct Hc' as (kc & <- & Hkc). exists (snd kc). split; [exact (in_map snd _ _ Hkc)|exact Hs]. }
  apply Forall_app. split; apply Forall_forall; intros s Hs.
  - destruct (E _ _ _ s Hs) as (c & Hc & Hs'). destruct (Hea c Hc) as (_ & _ & _ & _ & _ & _ & HP). destruct (together_fit D es chs (col_vals D c) (proj1 (Hv c Hc)) (proj2 (Hv c Hc))) as (_ & HV & _).
    apply (proj1 (Forall_forall _ _) (pieces_wf D eps ncl _ _ _ HP ltac:(revert HV; apply Forall_impl; intros p Hp; apply Hp)) s Hs').
  - destruct (E _ _ _ s Hs) as (c & Hc & Hs'). destruct (Hla c Hc) as (_ & _ & _ & _ & _ & _ & HP). destruct (apart_fit D es chs (col_vals D c) (proj1 (Hv c Hc)) (proj2 (Hv c Hc))) as (_ & HV & _).
    apply (proj1 (Forall_forall _ _) (pieces_wf D eps ncl _ _ _ HP ltac:(revert HV; apply Forall_impl; intros p Hp; apply Hp)) s Hs').
Qed.
End Tags.

(** The experiment: quick time delay, optical elements, counting. *)
Theorem C61_experiment rnd0 X rnd rnd' D ncl eps full chs d w es nds opt cl cs :
  2 <= dL D /\ outcomes_clear (dL D) opt -> 2 <= dN D -> (0 < eps)%R -> Forall (optic_ok D) es -> place D (optic_gates es) = Some nds -> clear_amplitudes D eps es ->
  delay_exists d ncl -> NoDup cl -> Forall (fun ch => ch < ncl) cl ->
  co_D cs = D -> co_eps cs = eps -> co_ncl cs = ncl -> delayable cs -> Forall (fun it => sendable D (snd it)) (co_items cs) ->
  (forall it, In it (co_items cs) -> 2 <= length (s_comps (snd it)) -> no_certain_phase D es) ->
  exists cs' bos, evaluate_circuit (with_resolved rnd0 X) rnd (experiment D ncl eps full (time_delay rnd' chs d w) nds opt cl) cs = Ok cs' /\
    NoDup (map fst (co_items cs')) /\ co_D cs' = D /\ co_eps cs' = eps /\ co_ncl cs' = ncl /\
    carries cs' (map fst bos) /\
    group_weights (co_items cs') (map (fun bo => (bd_label (fst bo), bd_group (fst bo), bd_weight (fst bo))) bos) /\
    (forall b o, In (b, o) bos -> exists it t p, In it (co_items cs) /\ bd_label b = s_init (snd it) /\
       ((t = 0%R /\ p = gauss (delay_in d (snd it)) w) \/ (t = 200%R /\ p = (1 - gauss (delay_in d (snd it)) w)%R)) /\
       bd_weight b = (s_cum (snd it) * p * outcome_detection (dL D) (dN D) (sent_branches D es chs t 1 (snd it)) opt o)%R /\
       (exists f, In f (tuples (dL D) (dN D)) /\ readout opt f = o) /\ Rsum (bd_rays b) (fun r => Cnorm2 (ry_amplitude r)) = 1%R /\
       forall st, In st (bundle_states b) -> s_init st = s_init (snd it) /\ written cl o (s_classical (snd it)) (s_classical st)) /\
    (forall i o, Rsum (filter (fun bo => leqb (bd_label (fst bo)) i && leqb (snd bo) o) bos) (fun bo => bd_weight (fst bo))
       = Rsum (filter (fun it => leqb (s_init (snd it)) i) (co_items cs))
           (fun it => s_cum (snd it) * quick_detection D es chs (gauss (delay_in d (snd it)) w) (snd it) opt o)%R).
Proof.
  intros [HL HL10] HN He Hes Hpl Hcle Hd NDcl Hcl ED Ee En Hdl Hsend Hphase. subst eps ncl.
  destruct (quick_run rnd' chs d w cs Hdl ltac:(now rewrite ED) Hd) as (cs1 & sgs & E1 & ND1 & ED1 & Ee1 & En1 & HP & HA & HI). rewrite ED in *.
  assert (HS : exists F, sends_numbers D (co_eps cs) (co_ncl cs) es F /\
            map snd (co_items (after_optics D (co_ncl cs) (co_eps cs) nds cs1)) = map F (map snd (co_items cs1))).
  { unfold after_optics. destruct es as [|e es'].
    - cbn [optic_gates map place] in Hpl. assert (nds = []) by congruence. subst nds. eexists. split; [apply nothing_sent; exact HL|]. now rewrite map_id.
    - assert (Hnn : nds <> []) by (intro E; subst nds; cbn [optic_gates map place] in Hpl; destruct (tensor_list_of _ _); [|discriminate]; destruct (place D _); discriminate).
      destruct nds as [|nd nds'] eqn:E; [congruence|]. rewrite <- E in *. clear E. eexists. split; [apply (numbers_sent D (co_eps cs) (e :: es') nds); try assumption; discriminate|].
      cbn [co_items]. rewrite !map_map. reflexivity. }
  destruct HS as (F & HSend & Esnd). set (cs2 := after_optics D (co_ncl cs) (co_eps cs) nds cs1) in *.
  assert (H2 : co_D cs2 = D /\ co_eps cs2 = co_eps cs /\ co_ncl cs2 = co_ncl cs) by (unfold cs2, after_optics; destruct nds; repeat split; assumption). destruct H2 as (ED2 & Ee2 & En2).
  set (xs := combine (seq 0 (length sgs)) sgs) in *.
  assert (Hxs : map snd xs = sgs). { unfold xs. generalize 0 as k. clear. induction sgs as [|sg l IH]; intro k; [reflexivity|]. cbn [length seq combine map snd]. f_equal. apply IH. }
  assert (Hxn : map fst xs = seq 0 (length sgs)) by (unfold xs; apply map_fst_combine'; now rewrite seq_length).
  assert (Hgood : Forall (sg_good D (co_eps cs) (co_ncl cs) es) xs).
  { apply Forall_forall. intros x Hx. assert (Hin : In (snd x) sgs) by (rewrite <- Hxs; now apply in_map). destruct (proj1 (Forall_forall _ _) HA _ Hin) as (G1 & G2 & G3). split; [exact G1|]. split; [exact G2|]. split; [exact G3|].
    intro H2. pose proof (in_map (fun sg => fst (fst sg)) _ _ Hin) as Hst. apply (Permutation_in _ HP) in Hst. apply in_map_iff in Hst. destruct Hst as (it & Eit & Hit). apply (Hphase it Hit). now rewrite Eit. }
  set (Y := flat_map (tags D chs d w F) xs).
  assert (HY : Forall (tag_good D (co_eps cs) (co_ncl cs) es chs) Y).
  { unfold Y. apply Forall_flat_map. revert Hgood. apply Forall_impl. intros x Hx. apply tags_good; try assumption; (lra || lia). }
  set (igs := map (fun y => (s_init (tg_state y), tg_group y)) Y).
  destruct (regroup (co_items cs2) igs) as (cc & Ecc & Hpc).
  { rewrite Esnd, HI. unfold igs. rewrite flat_mapped. cbn [snd]. unfold Y. clear. induction xs as [|x l IH]; [reflexivity|]. cbn [flat_map]. rewrite map_app, IH, flat_map_app. f_equal. cbn [tags flat_map tg_group snd]. rewrite app_nil_r, map_app, !sent_group_states. reflexivity. }
  { unfold igs. apply Forall_map. revert HY. apply Forall_impl. intros y Hy. apply Hy. }
  { unfold igs. rewrite map_map. cbn [fst snd]. apply (NoDup_map_inv snd). rewrite map_map. cbn [snd].
    assert (Eq : map (fun y => g_id (tg_group y)) Y = flat_map (fun n => [2 * n + 1; 2 * n + 2]) (map fst xs)).
    { unfold Y. clear. induction xs as [|x l IH]; [reflexivity|]. cbn [flat_map map]. rewrite map_app, IH. reflexivity. }
    rewrite Eq, Hxn, seq_double. apply seq_NoDup. }
  unfold igs in Hpc. rewrite map_map in Hpc. cbn [fst snd] in Hpc. destruct (Permutation_map_inv _ _ Hpc) as (Y2 & El & HpY).
  assert (Hag : all_groups cc = map tg_group Y2) by (rewrite all_groups_labelled, El, map_map; reflexivity).
  assert (HY2 : Forall (tag_good D (co_eps cs) (co_ncl cs) es chs) Y2) by (apply Forall_forall; intros y Hy; apply (proj1 (Forall_forall _ _) HY); apply (Permutation_in _ (Permutation_sym HpY)); exact Hy).
  destruct (tags_resolved D (co_eps cs) (co_ncl cs) es chs Y2 HL ltac:(lia) ltac:(lra) HY2) as (gs0 & gs & bs & R1 & R2 & R3 & R4 & R5).
  assert (Hst2 : forall it, In it (co_items cs2) -> exists y, In y Y /\ In (snd it) (group_states_of (tg_group y))).
  { intros it Hit. apply (in_map snd) in Hit. rewrite Esnd, HI in Hit. apply in_map_iff in Hit. destruct Hit as (s & Es & Hs). apply in_flat_map in Hs. destruct Hs as (x & Hx & Hs). apply in_app_iff in Hs. destruct Hs as [Hs|Hs].
    - exists (fst (fst (snd x)), 0%R, ov d w x, sent_group F (early d w x)). split; [unfold Y; apply in_flat_map; exists x; split; [exact Hx|now left]|]. cbn [tg_group snd]. rewrite sent_group_states, <- Es. now apply in_map.
    - exists (fst (fst (snd x)), 200%R, (1 - ov d w x)%R, sent_group F (late D chs d w x)). split; [unfold Y; apply in_flat_map; exists x; split; [exact Hx|right; now left]|]. cbn [tg_group snd]. rewrite sent_group_states, <- Es. now apply in_map. }
  assert (Hck : Forall (fun it => check_state (co_eps cs2) (co_ncl cs2) (snd it) = true) (co_items cs2)).
  { rewrite Ee2, En2. apply Forall_forall. intros it Hit. destruct (Hst2 it Hit) as (y & Hy & Hs). destruct (proj1 (Forall_forall _ _) HY y Hy) as (_ & _ & _ & K & _). apply (K _ Hs). }
  assert (Hall : all_have AuxPhotonResolution (co_items cs2) = true).
  { unfold all_have. apply forallb_forall. intros it Hit. destruct (Hst2 it Hit) as (y & Hy & Hs). destruct (proj1 (Forall_forall _ _) HY y Hy) as (((_ & K) & _) & _). cbn [snd] in K. unfold group_states_of in Hs. apply in_flat_map in Hs. destruct Hs as (c & Hc & Hs). unfold group_columns in Hc. apply in_map_iff in Hc. destruct Hc as (kc & <- & Hkc).
    destruct (proj1 (Forall_forall _ _) K kc Hkc) as (_ & _ & _ & Hstp). pose proof (proj1 (Forall_forall _ _) Hstp _ Hs) as Hr. unfold resolution_of in Hr. unfold dmem. destruct (dget aux_eqb AuxPhotonResolution (s_aux (snd it))); [reflexivity|discriminate]. }
  destruct (groups_measured rnd0 opt cl cs2 bs gs ltac:(rewrite ED2; lia) ltac:(now rewrite ED2)) as (cs3 & bos & E3 & ND3 & ED3 & Ee3 & En3 & HC3 & HW3 & HA3 & HS3 & _); try assumption.
  { now rewrite ED2, Ee2, En2. }
  { now rewrite ED2, Ee2, En2. }
  { now rewrite En2. }
  assert (E3' : measure_resolved rnd0 opt cl cs2 = Some cs3).
  { unfold measure_resolved, resolved_groups. rewrite Ecc, ED2, Ee2, En2, Hag, R1, R2. exact E3. }
  clear E3. rename E3' into E3.
  rewrite ED2, Ee2, En2 in *.
  assert (Hwf1 : Forall (fun it => (wf_state D (snd it) /\ s_comps (snd it) <> []) /\ check_state (co_eps cs) (co_ncl cs) (snd it) = true) (co_items cs1)).
  { apply Forall_forall. intros it Hit. apply (in_map snd) in Hit. rewrite HI in Hit. apply in_flat_map in Hit. destruct Hit as (x & Hx & Hs). exact (proj1 (Forall_forall _ _) (delayed_wf D (co_eps cs) (co_ncl cs) es chs d w ltac:(lra) x (proj1 (Forall_forall _ _) Hgood x Hx)) _ Hs). }
  assert (Hod : forall y b o, tag_bundle D es chs y b -> outcome_detection (dL D) (dN D) (map (ray_branch D) (bd_rays b)) opt o = outcome_detection (dL D) (dN D) (sent_branches D es chs (tg_time y) 1 (tg_state y)) opt o).
  { intros y b o (_ & _ & K & _). unfold outcome_detection. apply Rsum_ext. intros f Hf. apply filter_In in Hf. destruct Hf as [Hf _]. apply tuples_in in Hf. apply K. apply Hf. }
  exists cs3, bos. split.
  { apply (experiment_run D (co_ncl cs) (co_eps cs) full (add_quick_time_delay rnd' chs d w) (optic_gates es) nds opt cl ltac:(lia) HN Hpl (with_resolved rnd0 X) rnd cs cs1 cs3 E1).
    - split; [exact ND1|]. revert Hwf1. apply Forall_impl. intros it H. exact (proj1 H).
    - revert Hwf1. apply Forall_impl. intros it H. exact (proj2 H).
    - exact Hall.
    - exact E3. }
  split; [exact ND3|]. split; [exact ED3|]. split; [exact Ee3|]. split; [exact En3|]. split; [exact HC3|]. split; [exact HW3|]. split.
  - intros b' o Hbo. destruct (HA3 b' o Hbo) as (b & Hb & HA'). destruct (PropBridge.Forall2_in_r_ex _ _ _ _ R5 Hb) as (y & Hy & Hyb). pose proof (Hod y b o Hyb) as Hodb. destruct Hyb as (B1 & B2 & B3 & B4).
    apply (Permutation_in _ (Permutation_sym HpY)) in Hy. unfold Y in Hy. apply in_flat_map in Hy. destruct Hy as (x & Hx & Hy). assert (Hin : In (snd x) sgs) by (rewrite <- Hxs; now apply in_map).
    pose proof (in_map (fun sg => fst (fst sg)) _ _ Hin) as Hst. apply (Permutation_in _ HP) in Hst. apply in_map_iff in Hst. destruct Hst as (it & Eit & Hit).
    assert (Ey : tg_state y = snd it) by (rewrite Eit; destruct Hy as [<-|[<-|[]]]; reflexivity).
    exists it, (tg_time y), (tg_share y). rewrite Ey in *. split; [exact Hit|]. split; [rewrite (ao_label _ _ _ _ _ _ HA'); exact B1|]. split.
    { unfold ov in Hy. destruct Hy as [<-|[<-|[]]]; [left|right]; cbn [tg_time tg_share fst snd]; unfold ov; now rewrite Eit. }
    split; [rewrite (ao_weight _ _ _ _ _ _ HA'), B2, Hodb; reflexivity|].
    split; [exact (ao_outcome _ _ _ _ _ _ HA')|]. split; [exact (ao_norm _ _ _ _ _ _ HA')|].
    intros s Hs. destruct (ao_states _ _ _ _ _ _ HA' s Hs) as (z & Hz & Hw & _). destruct (B4 z Hz) as [Z1 Z2]. split; [|now rewrite <- Z2].
    destruct HC3 as (C1 & C2 & C3). rewrite ED3, Ee3, En3 in C3. assert (Hb' : In b' (map fst bos)) by exact (in_map fst _ _ Hbo).
    rewrite (proj1 (bundle_label_states D _ _ b' s (proj1 (Forall_forall _ _) C3 b' Hb') Hs)), (ao_label _ _ _ _ _ _ HA'). exact B1.
  - intros i o. rewrite HS3. rewrite Rsum_filter.
    set (val := fun y : tagged => if leqb (s_init (tg_state y)) i then (s_cum (tg_state y) * tg_share y * outcome_detection (dL D) (dN D) (sent_branches D es chs (tg_time y) 1 (tg_state y)) opt o)%R else 0%R).
    transitivity (Rsum Y2 val).
    { clear -R5 Hod. induction R5 as [|y b l l' Hy _ IH]; [reflexivity|]. rewrite !Rsum_cons, IH. f_equal. unfold val. pose proof (Hod y b o Hy) as E. destruct Hy as (B1 & B2 & _). rewrite B1, B2, E. reflexivity. }
    transitivity (Rsum Y val); [apply Rsum_perm; now symmetry|]. unfold Y. rewrite Rsum_flat_map.
    set (G := fun st : state => if leqb (s_init st) i then (s_cum st * quick_detection D es chs (gauss (delay_in d st) w) st opt o)%R else 0%R).
    transitivity (Rsum xs (fun x => G (fst (fst (snd x))))).
    { apply Rsum_ext. intros x _. unfold tags. rewrite !Rsum_cons. unfold val, G, quick_detection, ov. cbn [tg_state tg_share tg_time fst snd]. destruct (leqb (s_init (fst (fst (snd x)))) i); unfold Rsum; cbn [fold_right]; ring. }
    rewrite <- (Rsum_map snd xs (fun sg => G (fst (fst sg)))), Hxs. rewrite <- (Rsum_map (fun sg : state * nat * group => fst (fst sg)) sgs G).
    rewrite (Rsum_perm _ _ _ HP), Rsum_map. rewrite Rsum_filter. reflexivity.
Qed.
Print Assumptions C61_experiment.
(** The weights of the groups are probabilities. *)
Theorem C61_weights rnd0 X rnd rnd' D ncl eps full chs d w es nds opt cl cs :
  2 <= dL D /\ outcomes_clear (dL D) opt -> 2 <= dN D -> (0 < eps)%R -> Forall (optic_ok D) es -> place D (optic_gates es) = Some nds -> clear_amplitudes D eps es ->
  delay_exists d ncl -> NoDup cl -> Forall (fun ch => ch < ncl) cl ->
  co_D cs = D -> co_eps cs = eps -> co_ncl cs = ncl -> delayable cs -> Forall (fun it => sendable D (snd it)) (co_items cs) ->
  (forall it, In it (co_items cs) -> 2 <= length (s_comps (snd it)) -> no_certain_phase D es) ->
  exists cs' W, evaluate_circuit (with_resolved rnd0 X) rnd (experiment D ncl eps full (time_delay rnd' chs d w) nds opt cl) cs = Ok cs' /\
    group_weights (co_items cs') W /\
    forall i, weight_of W i = Rsum (filter (fun it => leqb (s_init (snd it)) i) (co_items cs)) (fun it => s_cum (snd it)).
Proof.
  intros HL HN He Hes Hpl Hthr Hd NDcl Hcl ED Ee En Hdl Hsend Hph.
  destruct (C61_experiment rnd0 X rnd rnd' D ncl eps full chs d w es nds opt cl cs HL HN He Hes Hpl Hthr Hd NDcl Hcl ED Ee En Hdl Hsend Hph)
    as (cs' & bos & E & _ & _ & _ & _ & _ & HG & _ & HS).
  exists cs', (map (fun bo => (bd_label (fst bo), bd_group (fst bo), bd_weight (fst bo))) bos). split; [exact E|]. split; [exact HG|].
  intro i. unfold weight_of. rewrite filter_map, Rsum_map. cbn [fst snd].
  set (O := nodup (list_eq_dec Nat.eq_dec) (map snd bos ++ map (readout opt) (tuples (dL D) (dN D)))).
  assert (NDO : NoDup O) by apply NoDup_nodup.
  assert (HO : forall f, In f (tuples (dL D) (dN D)) -> In (readout opt f) O) by (intros f Hf; apply nodup_In, in_or_app; right; now apply in_map).
  rewrite <- (Rsum_flat (filter (fun bo => leqb (bd_label (fst bo)) i) bos) (fun o bo => leqb (snd bo) o) O); [| |exact NDO].
  - transitivity (Rsum O (fun o => Rsum (filter (fun it => leqb (s_init (snd it)) i) (co_items cs))
           (fun it => s_cum (snd it) * quick_detection D es chs (gauss (delay_in d (snd it)) w) (snd it) opt o)%R)).
    + apply Rsum_ext. intros o _. rewrite <- HS. f_equal. clear. induction bos as [|bo l IH]; [reflexivity|]. cbn [filter]. destruct (leqb (bd_label (fst bo)) i); cbn [filter andb]; [|exact IH]. destruct (leqb (snd bo) o); [now rewrite IH|exact IH].
    + rewrite Rsum_swap. apply Rsum_ext. intros it Hit. apply filter_In in Hit. destruct Hit as [Hit _]. rewrite Rsum_scal_l.
      destruct (proj1 (Forall_forall _ _) (proj2 Hdl) it Hit) as (Hpl' & Hne & _).
      assert (T : forall t, Rsum O (outcome_detection (dL D) (dN D) (sent_branches D es chs t 1 (snd it)) opt) = 1%R).
      { intro t. apply (C49_outcomes_total D es chs t 1 (snd it) opt O Hes R1_neq_R0 ltac:(rewrite <- ED; apply Hpl') (proj1 (Forall_forall _ _) Hsend it Hit) Hne NDO HO). }
      replace (Rsum O _) with 1%R; [ring|]. unfold quick_detection. rewrite Rsum_plus, !Rsum_scal_l, !T. ring.
  - intros bo Hbo. apply filter_In in Hbo. destruct Hbo as [Hbo _]. exists (snd bo). split; [apply nodup_In, in_or_app; left; now apply in_map|]. split; [apply leqb_same|]. intros o' _ E'. apply leqb_spec in E'. now symmetry.
Qed.
(** Two photons that start on different sides of the delay meet with the visibility [ov], up to the
    overlap of pulses 200 widths apart. *)
Theorem C61_two_photons D es chs ov st nm amp p a b opt o f c d :
  s_comps st = [(nm, (amp, p))] -> channels_of (values_of_name D nm) = [a; b] -> channels_of f = [c; d] -> channel_in chs a <> channel_in chs b ->
  In f (tuples (dL D) (dN D)) -> (forall f', In f' (tuples (dL D) (dN D)) -> readout opt f' = o <-> f' = f) ->
  let U := transfer (dN D) es in let v := (ov + (1 - ov) * gauss 200 1)%R in
  quick_detection D es chs ov st opt o =
  ((Cnorm2 (U c a * U d b)%C + Cnorm2 (U c b * U d a)%C + 2 * v * Re (U c a * U d b * Cconj (U c b * U d a))%C)
   / (INR (factorials (values_of_name D nm)) * INR (factorials f)))%R.
Proof.
  intros Ec Ea Ef Hch Hf Hu U v. unfold quick_detection.
  assert (HO : forall t, outcome_detection (dL D) (dN D) (sent_branches D es chs t 1 st) opt o = detection (sent_branches D es chs t 1 st) f).
  { intro t. unfold outcome_detection. rewrite Rsum_filter, (Rsum_single _ f); [|apply tuples_nodup|exact Hf|].
    - rewrite (proj2 (leqb_spec _ _)); [reflexivity|]. now apply Hu.
    - intros f' Hf' Hn. destruct (leqb _ _) eqn:E; [|reflexivity]. apply leqb_spec in E. apply Hu in E; [congruence|exact Hf']. }
  rewrite !HO, !(C49_two_photons D es chs _ 1 st nm amp p a b f c d R1_neq_R0 Ec Ea Ef). fold U.
  assert (HG : forall t, overlap_between chs t 1 a b = gauss t 1) by (intro t; unfold overlap_between; destruct (channel_in chs a), (channel_in chs b); cbn; congruence).
  rewrite !HG, gauss_zero. unfold v, Rdiv. ring.
Qed.
(** One photon in a superposition of two channels. *)
Theorem C61_one_photon D es chs t w st n1 x p1 n2 y p2 a b f c :
  s_comps st = [(n1, (x, p1)); (n2, (y, p2))] -> channels_of (values_of_name D n1) = [a] -> channels_of (values_of_name D n2) = [b] -> channels_of f = [c] ->
  channel_in chs a <> channel_in chs b -> w <> 0%R ->
  let U := transfer (dN D) es in
  detection (sent_branches D es chs t w st) f =
  (Cnorm2 (x * U c a)%C + Cnorm2 (y * U c b)%C + 2 * exp (- ln 2 * (t ^ 2 / (2 * w ^ 2))) * Re (x * U c a * Cconj (y * U c b))%C)%R.
Proof.
  intros Ec Ea Eb Ef Hch Hw U. unfold sent_branches, weighted_components. rewrite Ec. cbn [map]. cbn [fst snd]. unfold sent_photons. rewrite Ea, Eb. cbn [map].
  assert (Pf : NamesSpec.photons f = 1) by (rewrite <- channels_length, Ef; reflexivity).
  assert (F1 : forall v c, channels_of v = [c] -> factorials v = 1).
  { intros u k E. rewrite <- (channels_occ u (length u) eq_refl), E. apply factorials_small. unfold occupation. apply Forall_map, Forall_forall. intros i _. cbn. destruct (Nat.eq_dec k i); lia. }
  rewrite (F1 _ _ Ea), (F1 _ _ Eb).
  set (P := Photon (fun c0 : nat => transfer (dN D) es c0 a) _). set (Q := Photon (fun c0 : nat => transfer (dN D) es c0 b) _).
  set (g := exp (- ln 2 * (t ^ 2 / (2 * w ^ 2)))).
  assert (HG : pulse_overlap (ph_timing P) (ph_timing Q) = g).
  { unfold P, Q, g, pulse_overlap. cbn [ph_timing fst snd]. f_equal. destruct (channel_in chs a), (channel_in chs b); try congruence; field; repeat split; try assumption; pose proof (Rsqr_pos_lt _ Hw) as Z; rewrite Rsqr_pow2 in Z; lra. }
  assert (HB : (0 <= g <= 1)%R).
  { rewrite <- HG. destruct (pulse_overlap_range (ph_timing P) (ph_timing Q)) as [A B]. split; [lra|]. apply B. now left. }
  unfold detection, interference, fitting. cbn [filter br_photons length]. rewrite Pf, Ef, (F1 _ _ Ef). cbn [Nat.eqb seq permutations inserts flat_map map app].
  rewrite !Csum_cons, !Csum_nil. unfold path, indistinct, nth_photon. cbn [combine nth br_photons br_amplitude br_boson]. unfold Cprod, Rprod. cbn [fold_right fst snd nth].
  rewrite !pulse_overlap_same, (pulse_overlap_sym (ph_timing Q)), HG, !Rmult_1_r. change (INR 1) with 1%R. rewrite sqrt_1.
  assert (W1 : ph_wave P c = U c a) by reflexivity. assert (W2 : ph_wave Q c = U c b) by reflexivity. rewrite W1, W2. clear W1 W2.
  set (z := (x * U c a)%C). set (z' := (y * U c b)%C). destruct (two_wave_real z z' g HB) as [R1 R2].
  match goal with |- (Cmod ?e / _)%R = _ => replace e with (RtoC (Cnorm2 z + Cnorm2 z' + 2 * g * Re (z * Cconj z')%C))%C end.
  - rewrite Cmod_R, Rabs_right by (apply Rle_ge, R2). field.
  - rewrite <- R1. assert (D1 : forall q, (q / RtoC 1)%C = q) by (intro q; field; intro X; apply RtoC_inj in X; lra). rewrite !D1, !Cmult_1_r, !Cplus_0_r. fold z z'. ring.
Qed.
(** ** The experiment on a beam splitter *)
Lemma splitter_numbers v u : length v = 2 -> length u = 2 -> NamesSpec.photons v = NamesSpec.photons u -> NamesSpec.photons v < 3 ->
  number_amplitude (transfer 2 splitter) v u = RtoC 0 \/ Cnorm2 (number_amplitude (transfer 2 splitter) v u) = (1 / 4)%R \/
  Cnorm2 (number_amplitude (transfer 2 splitter) v u) = (1 / 2)%R \/ number_amplitude (transfer 2 splitter) v u = RtoC 1.
Proof.
  intros Lv Lu E Hp. pose proof r2_sq as E2. assert (S2 : (sqrt 2 * sqrt 2 = 2)%R) by (apply sqrt_sqrt; lra). assert (P2 : (0 < sqrt 2)%R) by (apply sqrt_lt_R0; lra).
  destruct v as [|v0 [|v1 [|? v]]]; try discriminate Lv. destruct u as [|u0 [|u1 [|? u]]]; try discriminate Lu. cbn in E, Hp. rewrite ?Nat.add_0_r in E, Hp.
  assert (C : v0 = 0 /\ v1 = 0 \/ v0 = 0 /\ v1 = 1 \/ v0 = 1 /\ v1 = 0 \/ v0 = 2 /\ v1 = 0 \/ v0 = 1 /\ v1 = 1 \/ v0 = 0 /\ v1 = 2) by lia.
  assert (C' : u0 = 0 /\ u1 = 0 \/ u0 = 0 /\ u1 = 1 \/ u0 = 1 /\ u1 = 0 \/ u0 = 2 /\ u1 = 0 \/ u0 = 1 /\ u1 = 1 \/ u0 = 0 /\ u1 = 2) by lia.
  assert (N : forall z, Cnorm2 (RtoC z) = (z * z)%R) by (intro z; apply Cnorm2_RtoC).
  assert (D1 : forall z k, k <> 0%R -> (RtoC z / RtoC k)%C = RtoC (z / k)) by (intros; symmetry; now apply RtoC_div).
  destruct C as [[-> ->]|[[-> ->]|[[-> ->]|[[-> ->]|[[-> ->]|[-> ->]]]]]]; destruct C' as [[-> ->]|[[-> ->]|[[-> ->]|[[-> ->]|[[-> ->]|[-> ->]]]]]]; try (exfalso; lia);
    unfold number_amplitude, permanent; cbn [NamesSpec.photons Nat.add seq permutations flat_map inserts map app channels_of length nth repeat];
    rewrite !Csum_cons, !Csum_nil; cbn [combine Cprod fold_right fst snd nth]; rewrite ?splitter_transfer by lia; unfold optic_transfer, plate;
    cbn [fst snd Nat.eqb m00 m01 m10 m11 factorials fact Nat.mul Nat.add INR]; rewrite ?sqrt_1; change (1 + 1)%R with 2%R; rewrite <- ?RtoC_mult, <- ?RtoC_plus; rewrite D1 by (apply Rgt_not_eq, Rmult_lt_0_compat; lra); rewrite N.
  all: assert (I2 : (/ sqrt 2 * / sqrt 2 = 1 / 2)%R) by (rewrite <- Rinv_mult, S2; lra).
  all: match goal with |- RtoC (?X / ?k) = _ \/ _ =>
         first [replace X with 1%R by lra|replace X with (- 1)%R by lra|replace X with 0%R by lra|replace X with r2 by lra|replace X with (- r2)%R by lra];
         first [replace k with 1%R by lra|replace k with 2%R by lra|replace k with (sqrt 2) by lra] end.
  all: unfold Rdiv at 1 2 3 4 6 7; rewrite ?Rinv_1; first [now left; f_equal; lra|now right; right; right; f_equal; lra|right; left; lra|right; right; left; lra|idtac].
Qed.
Lemma splitter_clear : clear_amplitudes D22 (1 / 4) splitter.
Proof.
  intros v u Lv Lu E Hp. change (dN D22) with 2 in *. change (dL D22) with 3 in *. destruct (splitter_numbers v u Lv Lu E Hp) as [H|[H|[H|H]]]; [now left|right; lra|right; lra|right]. rewrite H, Cnorm2_RtoC. lra.
Qed.
Lemma splitter_phase : no_certain_phase D22 splitter.
Proof.
  intros v u Lv Lu E Hp H1. change (dN D22) with 2 in *. change (dL D22) with 3 in *. destruct (splitter_numbers v u Lv Lu E Hp) as [H|[H|[H|H]]]; [|lra|lra|exact H]. rewrite H, Cnorm2_RtoC in H1. lra.
Qed.
(** The weights an experiment with two channels gives the outcome [o], whatever the label. *)
Definition measured_weight (bos : list (bundle * list nat)) (o : list nat) : R := Rsum (filter (fun bo => leqb (snd bo) o) bos) (fun bo => bd_weight (fst bo)).
Definition measured (cs' : coll) (bos : list (bundle * list nat)) : Prop :=
  carries cs' (map fst bos) /\
  group_weights (co_items cs') (map (fun bo => (bd_label (fst bo), bd_group (fst bo), bd_weight (fst bo))) bos) /\
  forall b o, In (b, o) bos -> forall st, In st (bundle_states b) -> written [0; 1] o [0%R; 0%R] (s_classical st).
Section Runs.
Variables (rnd0 : nat -> nat) (X : externals) (rnd rnd' : nat -> nat) (nds : list onode) (t w : R) (st : state) (k : ident).
Hypothesis Hpl : place D22 (optic_gates splitter) = Some nds.
Hypothesis Hcum : s_cum st = 1%R.
Hypothesis Hcl : s_classical st = [0%R; 0%R].
Hypothesis Hdl : delayable (Coll D22 2 (1 / 4) [(k, st)]).
Hypothesis Hs : sendable D22 st.
Lemma only_label bos o i : (forall b o, In (b, o) bos -> bd_label b = i) ->
  filter (fun bo : bundle * list nat => leqb (bd_label (fst bo)) i && leqb (snd bo) o) bos = filter (fun bo => leqb (snd bo) o) bos.
Proof.
  intro H. apply filter_ext_in. intros [b o'] Hin. cbn [fst snd]. rewrite (H b o' Hin), leqb_same. reflexivity.
Qed.
Lemma splitter_quick : exists cs' bos,
  evaluate_circuit (with_resolved rnd0 X) rnd (experiment D22 2 (1 / 4) true (time_delay rnd' [0] (Delay t) w) nds [0; 1] [0; 1]) (Coll D22 2 (1 / 4) [(k, st)]) = Ok cs' /\
  measured cs' bos /\ forall o, measured_weight bos o = quick_detection D22 splitter [0] (gauss t w) st [0; 1] o.
Proof.
  destruct (C61_experiment rnd0 X rnd rnd' D22 2 (1 / 4) true [0] (Delay t) w splitter nds [0; 1] [0; 1] (Coll D22 2 (1 / 4) [(k, st)])) as (cs' & bos & E & _ & _ & _ & _ & HC & HW & HB & HS); try reflexivity; try assumption.
  - split; [cbn; lia|left; cbn; lia].
  - lra.
  - exact splitter_ok.
  - exact splitter_clear.
  - repeat constructor; cbn; intuition lia.
  - repeat constructor.
  - constructor; [exact Hs|constructor].
  - intros it _ _. exact splitter_phase.
  - exists cs', bos. split; [exact E|]. split; [split; [exact HC|split; [exact HW|]]|].
    + intros b o Hin s Hst. destruct (HB b o Hin) as (it & ? & ? & [<-|[]] & _ & _ & _ & _ & _ & H). cbn [snd] in H. rewrite Hcl in H. apply (H s Hst).
    + intro o. specialize (HS (s_init st) o). rewrite only_label in HS; [|intros b o' Hin; destruct (HB b o' Hin) as (it & ? & ? & [<-|[]] & H & _); exact H].
      unfold measured_weight. rewrite HS. unfold Rsum. cbn [co_items filter snd]. rewrite leqb_same. cbn [map fold_right snd delay_in]. rewrite Hcum. ring.
Qed.
Lemma splitter_full : exists cs' bos,
  evaluate_circuit (with_resolved rnd0 X) rnd (experiment D22 2 (1 / 4) true (time_delay_full rnd' [0] (Delay t) w) nds [0; 1] [0; 1]) (Coll D22 2 (1 / 4) [(k, st)]) = Ok cs' /\
  measured cs' bos /\ forall o, measured_weight bos o = outcome_detection 3 2 (sent_branches D22 splitter [0] t w st) [0; 1] o.
Proof.
  destruct (C49_experiment rnd0 X rnd rnd' D22 2 (1 / 4) true [0] (Delay t) w splitter nds [0; 1] [0; 1] (Coll D22 2 (1 / 4) [(k, st)])) as (cs' & bos & E & _ & _ & _ & _ & HC & HW & HB & HS); try reflexivity; try assumption.
  - split; [cbn; lia|left; cbn; lia].
  - lra.
  - exact splitter_ok.
  - intros c j Hc Hj. right. change (dN D22) with 2 in *. rewrite splitter_transfer by assumption. pose proof r2_sq as Q. unfold optic_transfer, plate. cbn [fst snd m00 m01 m10 m11].
    destruct c as [|[|c]], j as [|[|j]]; try lia; cbn [Nat.eqb]; rewrite Cnorm2_RtoC; nra.
  - repeat constructor.
  - repeat constructor; cbn; intuition lia.
  - repeat constructor.
  - constructor; [exact Hs|constructor].
  - exists cs', bos. split; [exact E|]. split; [split; [exact HC|split; [exact HW|]]|].
    + intros b o Hin s Hst. destruct (HB b o Hin) as (it & [<-|[]] & _ & _ & _ & _ & H). cbn [snd] in H. rewrite Hcl in H. apply (H s Hst).
    + intro o. specialize (HS (s_init st) o). rewrite only_label in HS; [|intros b o' Hin; destruct (HB b o' Hin) as (it & [<-|[]] & H & _); exact H].
      unfold measured_weight. rewrite HS. unfold Rsum. cbn [co_items filter snd]. rewrite leqb_same. cbn [map fold_right snd delay_in]. rewrite Hcum. change (dL D22) with 3. change (dN D22) with 2. ring.
Qed.
End Runs.
(** Two photons on a beam splitter. *)
Example C61_hong_ou_mandel_runs rnd0 X rnd rnd' t w : exists nds cs' bos, place D22 (optic_gates splitter) = Some nds /\
  evaluate_circuit (with_resolved rnd0 X) rnd (experiment D22 2 (1 / 4) true (time_delay rnd' [0] (Delay t) w) nds [0; 1] [0; 1]) hom_coll = Ok cs' /\ measured cs' bos /\
  let v := (gauss t w + (1 - gauss t w) * gauss 200 1)%R in
  measured_weight bos [1; 1] = ((1 - v) / 2)%R /\ measured_weight bos [2; 0] = ((1 + v) / 4)%R /\ measured_weight bos [0; 2] = ((1 + v) / 4)%R.
Proof.
  assert (exists nds, place D22 (optic_gates splitter) = Some nds) as [nds Hpl] by (cbn; eexists; reflexivity). exists nds.
  destruct (splitter_quick rnd0 X rnd rnd' nds t w hom_state [49; 49] Hpl eq_refl eq_refl hom_delayable (Forall_inv hom_sendable)) as (cs' & bos & E & HM & HW).
  exists cs', bos. split; [exact Hpl|]. split; [exact E|]. split; [exact HM|]. cbv zeta. rewrite !HW. unfold quick_detection. change (dL D22) with 3. change (dN D22) with 2.
  destruct (hom_outcomes 0 1 R1_neq_R0) as (A1 & A2 & A3). destruct (hom_outcomes 200 1 R1_neq_R0) as (B1 & B2 & B3). rewrite A1, A2, A3, B1, B2, B3, gauss_zero. repeat split; field.
Qed.
(** One photon in both arms. *)
Definition wave_state : state := State [49] 1 [(name_string D22 [1; 0], (RtoC r2, (1 / 2)%R)); (name_string D22 [0; 1], (RtoC r2, (1 / 2)%R))] [0%R; 0%R] [] [].
Lemma r2_nonzero : RtoC r2 <> RtoC 0.
Proof. intro H. apply RtoC_inj in H. pose proof r2_sq as Q. rewrite H in Q. lra. Qed.
Lemma wave_norm : state_norm2 wave_state = 1%R.
Proof. unfold state_norm2, Rsum. cbn [wave_state s_comps map fold_right fst snd]. rewrite !Cnorm2_RtoC. pose proof r2_sq. lra. Qed.
Lemma wave_delayable : delayable (Coll D22 2 (1 / 4) [([49], wave_state)]).
Proof.
  split; [cbn; lra|]. apply Forall_cons; [|constructor]. cbn [snd co_D co_eps co_ncl]. split; [|split; [discriminate|]].
  - split; [|split; [|split]].
    + split; [constructor; [intros [H|[]]; discriminate H|constructor; [intros []|constructor]]|]. intros nm [<-|[<-|[]]]; [exists [1; 0]|exists [0; 1]]; (split; [split; [reflexivity|repeat constructor]|reflexivity]).
    + intros x [].
    + apply check_state_iff. cbn. split; [lra|]. split; [|reflexivity]. repeat apply Forall_cons; [cbn; lra|cbn; lra|constructor].
    + cbn. lra.
  - intros _. split; [|exact wave_norm]. repeat apply Forall_cons; [exact r2_nonzero|exact r2_nonzero|constructor].
Qed.
Lemma wave_sendable : sendable D22 wave_state.
Proof.
  split; [|split].
  - pose proof r2_sq as Q. intros nm a p [Z|[Z|[]]]; (assert (a = RtoC r2 /\ p = (1 / 2)%R) as [-> ->] by (split; congruence)); rewrite Cnorm2_RtoC; lra.
  - exact wave_norm.
  - repeat apply Forall_cons; [| |constructor]; cbn [fst]; rewrite values_of_name_string by (repeat constructor); cbn; lia.
Qed.
Lemma wave_outcome t w : w <> 0%R -> outcome_detection 3 2 (sent_branches D22 splitter [0] t w wave_state) [0; 1] [1; 0] = ((1 + exp (- ln 2 * (t ^ 2 / (2 * w ^ 2)))) / 2)%R.
Proof.
  intro Hw. unfold outcome_detection. rewrite Rsum_filter, (Rsum_single _ [1; 0]); [|apply tuples_nodup|apply tuples_in; split; [reflexivity|repeat constructor]|].
  - cbn [readout map nth]. rewrite leqb_same.
    rewrite (C61_one_photon D22 splitter [0] t w wave_state _ _ _ _ _ _ 0 1 [1; 0] 0 eq_refl ltac:(rewrite values_of_name_string by (repeat constructor); reflexivity) ltac:(rewrite values_of_name_string by (repeat constructor); reflexivity) eq_refl ltac:(discriminate) Hw).
    change (dN D22) with 2. rewrite !splitter_transfer by lia. unfold optic_transfer, plate. cbn [fst snd Nat.eqb m00 m01 m10 m11]. rewrite Cconj_mult, !Cconj_RtoC, <- !RtoC_mult, !Cnorm2_RtoC.
    pose proof r2_sq as Q. cbn [Re RtoC fst]. change (Re (RtoC (r2 * r2 * (r2 * r2)))) with (r2 * r2 * (r2 * r2))%R. rewrite !Q. field.
  - intros f Hf Hn. apply tuples_in in Hf. destruct f as [|x [|y [|z f]]]; try (exfalso; destruct Hf as [Hf _]; discriminate Hf). cbn [readout map nth]. destruct (leqb [x; y] [1; 0]) eqn:El; [|reflexivity]. apply leqb_spec in El. congruence.
Qed.
Lemma half_overlap : exp (- ln 2 * (sqrt 2 ^ 2 / (2 * 1 ^ 2))) = (1 / 2)%R.
Proof.
  replace (sqrt 2 ^ 2)%R with 2%R by (rewrite <- (sqrt_sqrt 2) at 1 by lra; ring). replace (- ln 2 * (2 / (2 * 1 ^ 2)))%R with (- ln 2)%R by field. rewrite exp_Ropp, exp_ln by lra. lra.
Qed.
Lemma quarter_overlap : gauss (sqrt 2) 1 = (1 / 4)%R.
Proof.
  unfold gauss. replace (-1 * ln 2 * (sqrt 2 / 1) ^ 2)%R with (- ln 2 + - ln 2)%R; [rewrite exp_plus, exp_Ropp, exp_ln by lra; lra|]. replace ((sqrt 2 / 1) ^ 2)%R with 2%R by (rewrite <- (sqrt_sqrt 2) at 1 by lra; field). ring.
Qed.
Lemma far_overlap : (exp (- ln 2 * (200 ^ 2 / (2 * 1 ^ 2))) < 1 / 4)%R.
Proof.
  replace (1 / 4)%R with (exp (- ln 2 + - ln 2)) by (rewrite exp_plus, exp_Ropp, exp_ln by lra; lra). apply exp_increasing. pose proof ln_lt_2. nra.
Qed.
(** The quick time delay is said to approximate the full time delay. For two photons it does, but one
    photon in two arms keeps a visibility of 1/4 where the full time delay leaves 1/2. *)
Theorem C61_quick_is_full_refuted rnd0 X rnd rnd' : exists nds cs1 bos1 cs2 bos2, place D22 (optic_gates splitter) = Some nds /\
  let cs := Coll D22 2 (1 / 4) [([49], wave_state)] in
  evaluate_circuit (with_resolved rnd0 X) rnd (experiment D22 2 (1 / 4) true (time_delay_full rnd' [0] (Delay (sqrt 2)) 1) nds [0; 1] [0; 1]) cs = Ok cs1 /\ measured cs1 bos1 /\
  evaluate_circuit (with_resolved rnd0 X) rnd (experiment D22 2 (1 / 4) true (time_delay rnd' [0] (Delay (sqrt 2)) 1) nds [0; 1] [0; 1]) cs = Ok cs2 /\ measured cs2 bos2 /\
  measured_weight bos1 [1; 0] = (3 / 4)%R /\ (measured_weight bos2 [1%nat; 0%nat] < 3 / 4 - 1 / 50)%R.
Proof.
  assert (exists nds, place D22 (optic_gates splitter) = Some nds) as [nds Hpl] by (cbn; eexists; reflexivity). exists nds.
  destruct (splitter_full rnd0 X rnd rnd' nds (sqrt 2) 1 wave_state [49] Hpl eq_refl eq_refl wave_delayable wave_sendable) as (cs1 & bos1 & E1 & M1 & W1).
  destruct (splitter_quick rnd0 X rnd rnd' nds (sqrt 2) 1 wave_state [49] Hpl eq_refl eq_refl wave_delayable wave_sendable) as (cs2 & bos2 & E2 & M2 & W2).
  exists cs1, bos1, cs2, bos2. split; [exact Hpl|]. split; [exact E1|]. split; [exact M1|]. split; [exact E2|]. split; [exact M2|]. rewrite W1, W2. unfold quick_detection. change (dL D22) with 3. change (dN D22) with 2.
  rewrite !wave_outcome by apply R1_neq_R0. rewrite half_overlap, quarter_overlap. pose proof far_overlap as F.
  replace (- ln 2 * (0 ^ 2 / (2 * 1 ^ 2)))%R with 0%R by field. rewrite exp_0. split; [field|]. nra.
Qed.
Print Assumptions C61_quick_is_full_refuted.
