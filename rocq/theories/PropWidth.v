(** C54: setting the pulse width. Read with ColumnModel.v (model), TemporalSpec.v and WidthSpec.v
    (vocabulary). *)
From Coq Require Import Reals List Arith Lia Lra Bool Permutation.
From Coquelicot Require Import Complex.
From Verif Require Import Prelude NamesModel NamesSpec NamesProofs FockModel FockProofs StateModel StateSpec StateProofs ApplyProofs
  CollectionModel EvalModel PropMeasure PropCollection PropEval PropBridge PropPRMeasure OperatorModel ColumnModel ColumnSpec ColumnProofs PropColumn
  GroupProofs TemporalSpec TemporalProofs ResolvedProofs PropTemporal PropDelays WidthSpec.
Import ListNotations.

(** C54: no channels. *)
Theorem C54_no_channel : forall rnd w cs, set_pulse_width rnd [] w cs = Some cs.
Proof. reflexivity. Qed.

Lemma same_set_spec a b : same_set a b = true <-> (forall x, In x a <-> In x b).
Proof.
  unfold same_set. rewrite andb_true_iff, !forallb_forall. split.
  - intros [H1 H2] x. split; intro Hx; [apply H1 in Hx|apply H2 in Hx]; apply existsb_exists in Hx; destruct Hx as (y & Hy & E); apply Nat.eqb_eq in E; now subst.
  - intros H. split; intros x Hx; apply existsb_exists; exists x; (split; [now apply H|apply Nat.eqb_refl]).
Qed.
Lemma widened_set w st : width_set w st (widened w st).
Proof.
  unfold width_set, widened, with_photon, with_resolution, photon_of, resolution_of, no_resolution. cbn [with_aux s_init s_cum s_comps s_classical s_results s_aux].
  do 5 (split; [reflexivity|]). split; [intros k Hk; apply (dget_dset_other aux_eqb aux_eqb_spec); congruence|].
  destruct (dget aux_eqb AuxPhotonResolution (s_aux st)) as [[| r |]|] eqn:E; cbn [or_else].
  1,3,4: eexists 0%R, (Resolution None None None None None None); (split; [rewrite (dget_dset_same aux_eqb aux_eqb_spec); reflexivity|]); right; (split; [intros r'; congruence|]); split; reflexivity.
  eexists _, r. split; [rewrite (dget_dset_same aux_eqb aux_eqb_spec); reflexivity|]. left. split; [reflexivity|]. destruct (r_photon r); reflexivity.
Qed.
(** C54: all channels. Every state gets the pulse width, nothing else changes. *)
Theorem C54_all_channels : forall rnd chs w cs, chs <> [] -> (forall c, In c chs <-> c < dN (co_D cs)) ->
  exists cs', set_pulse_width rnd chs w cs = Some cs' /\ co_D cs' = co_D cs /\ co_ncl cs' = co_ncl cs /\ co_eps cs' = co_eps cs /\
    Forall2 (fun it it' => fst it' = fst it /\ width_set w (snd it) (snd it')) (co_items cs) (co_items cs').
Proof.
  intros rnd chs w cs Hne H. unfold set_pulse_width. destruct chs as [|c0 l]; [contradiction|].
  rewrite (proj2 (same_set_spec _ _)) by (intros x; rewrite H, in_seq; lia).
  eexists. split; [reflexivity|]. do 3 (split; [reflexivity|]). cbn [with_items co_items]. induction (co_items cs) as [|it its IH]; cbn [map]; constructor; [|exact IH].
  split; [reflexivity|apply widened_set].
Qed.

Lemma lit_dec chs vs : {lit chs vs} + {~ lit chs vs}.
Proof.
  destruct (existsb (fun c => negb (nth c vs 0 =? 0)) chs) eqn:E; [left|right].
  - apply existsb_exists in E. destruct E as (c & Hc & E). exists c. split; [exact Hc|]. apply negb_true_iff, Nat.eqb_neq in E. exact E.
  - intros (c & Hc & Hn). assert (T : existsb (fun c => negb (nth c vs 0 =? 0)) chs = true) by (apply existsb_exists; exists c; split; [exact Hc|]; now apply negb_true_iff, Nat.eqb_neq). congruence.
Qed.
Lemma touches_lit D chs st vs a p : valid D vs -> s_comps st = [(name_string D vs, (a, p))] -> touches D chs st = true <-> lit chs vs.
Proof.
  intros Hv Hs. unfold touches. rewrite (first_values_one D st vs a p Hv Hs), existsb_exists. split; intros (c & Hc & E); exists c; (split; [exact Hc|]).
  - now apply negb_true_iff, Nat.eqb_neq in E.
  - now apply negb_true_iff, Nat.eqb_neq.
Qed.
(** What the gate does to one state of single photons. *)
Definition width_result (D : dims) (chs : list nat) (w : R) (s : state) : state :=
  if touches D chs s then widened w s else with_photon s (or_else (photon_of s) (0%R, 1%R)).

Lemma shows_photon D st pt : shows D st pt -> photon_of st = Some (pt_timing pt).
Proof. intros (_ & _ & _ & _ & _ & E). unfold photon_of, resolution_of. rewrite E. reflexivity. Qed.
Lemma shows_with D st pt i : shows D st pt -> shows D (with_photon st i) (Part (pt_label pt) (pt_classical pt) (pt_cum pt) (pt_group pt) (pt_weight pt) (pt_column pt) (pt_amplitude pt) (pt_boson pt) i (pt_photons pt)).
Proof.
  intros (H1 & H2 & H3 & H4 & H5 & E). unfold shows, with_photon, with_resolution, resolution_of. cbn [with_aux s_init s_classical s_cum s_comps s_aux pt_label pt_classical pt_cum pt_photons pt_column pt_amplitude pt_boson pt_group pt_weight pt_timing].
  do 5 (split; [assumption|]). rewrite (dget_dset_same aux_eqb aux_eqb_spec), E. reflexivity.
Qed.
Lemma width_result_shows D chs w st pt : shows D st pt -> exists pt', shows D (width_result D chs w st) pt' /\ rewidthed chs w pt pt'.
Proof.
  intros H. pose proof (shows_photon D st pt H) as Hp. pose proof H as (_ & _ & _ & (a & p & Hs) & Hv & _). pose proof (touches_lit D chs st _ a p Hv Hs) as T.
  unfold width_result, widened. rewrite Hp. cbn [or_else]. destruct (touches D chs st).
  - eexists. split; [apply shows_with; exact H|]. unfold rewidthed. cbn. repeat split; try reflexivity. intros K. elim K. now apply T.
  - eexists. split; [apply shows_with; exact H|]. unfold rewidthed. cbn. repeat split; try reflexivity. intros K. apply T in K. discriminate.
Qed.

Lemma set_selected rnd chs w cs gs : chs <> [] -> Forall (fun c => c < dN (co_D cs)) chs -> ~ (forall c, c < dN (co_D cs) -> In c chs) ->
  Forall (fun it => check_state (co_eps cs) (co_ncl cs) (snd it) = true) (co_items cs) ->
  resolved_groups cs = Some gs -> Forall (fun st => check_state (co_eps cs) (co_ncl cs) st = true) (flat_map group_states_of gs) ->
  exists cs', set_pulse_width rnd chs w cs = Some cs' /\ co_D cs' = co_D cs /\ co_eps cs' = co_eps cs /\ co_ncl cs' = co_ncl cs /\ NoDup (dkeys (co_items cs')) /\
    map snd (co_items cs') = map (width_result (co_D cs) chs w) (flat_map group_states_of gs).
Proof.
  intros Hne Hch Hnot Hck E HF. unfold set_pulse_width. destruct chs as [|c0 l] eqn:Ech; [contradiction|]. rewrite <- Ech in *.
  destruct (same_set chs (seq 0 (dN (co_D cs)))) eqn:Es.
  { elim Hnot. intros c Hc. apply (proj1 (same_set_spec _ _) Es). apply in_seq. lia. }
  replace (forallb (fun c => c <? dN (co_D cs)) chs) with true by (symmetry; apply forallb_forall; intros c Hc; apply Nat.ltb_lt; exact (proj1 (Forall_forall _ _) Hch c Hc)).
  rewrite E.
  rewrite (option_list_map_some _ (width_result (co_D cs) chs w)).
  2:{ intros st Hst. pose proof (proj1 (Forall_forall _ _) HF st Hst) as K. unfold copy_state, make_state. rewrite K. cbn [option_map]. unfold width_result. reflexivity. }
  unfold collect, copy_collection. rewrite copy_items_ok by exact Hck. eexists. split; [reflexivity|]. cbn [with_items co_items co_D co_eps co_ncl].
  do 3 (split; [reflexivity|]). split; [apply states_random_nodup; constructor|]. rewrite states_random_map. reflexivity.
Qed.

Lemma forall2_map_ex {A B} (P : A -> B -> Prop) (Q : B -> B -> Prop) (f : A -> A) l l' :
  (forall x y, P x y -> exists y', P (f x) y' /\ Q y y') -> Forall2 P l l' -> exists l'', Forall2 P (map f l) l'' /\ Forall2 Q l' l''.
Proof.
  intros H HF. induction HF as [|x y l l' HP HF (l'' & IH1 & IH2)]; [exists []; split; constructor|].
  destruct (H x y HP) as (y' & H1 & H2). exists (y' :: l''). cbn [map]. split; constructor; assumption.
Qed.
Lemma forall2_perm {A B} (P : A -> B -> Prop) l1 l2 : Permutation l1 l2 -> forall l1', Forall2 P l1 l1' -> exists l2', Permutation l1' l2' /\ Forall2 P l2 l2'.
Proof.
  induction 1 as [|x l1 l2 HP IH|x y l|l1 l2 l3 HP1 IH1 HP2 IH2]; intros l1' HF.
  - inversion HF. exists []. split; constructor.
  - inversion HF as [|? y ? ly Hxy HF']; subst. destruct (IH ly HF') as (l2' & H1 & H2). exists (y :: l2'). split; [now constructor|now constructor].
  - inversion HF as [|? z ? lz Hz HF']; subst. inversion HF' as [|? u ? lu Hu HF'']; subst. exists (u :: z :: lu). split; [constructor|]. constructor; [exact Hu|]. now constructor.
  - destruct (IH1 l1' HF) as (l2' & H1 & H2). destruct (IH2 l2' H2) as (l3' & H3 & H4). exists l3'. split; [etransitivity; eassumption|exact H4].
Qed.

(** C54: selected channels after a time delay. The photons in these channels get the pulse width,
    all time delays are kept. *)
Theorem C54_after_delay : forall rnd1 rnd2 chs1 d w1 chs w cs, 1 <= dN (co_D cs) -> delayable cs -> Forall (fun it => probs_ok (snd it)) (co_items cs) ->
  delay_exists d (co_ncl cs) -> Forall (fun c => c < dN (co_D cs)) chs1 ->
  chs <> [] -> Forall (fun c => c < dN (co_D cs)) chs -> ~ (forall c, c < dN (co_D cs) -> In c chs) ->
  exists cs1 cs2 pts1 pts1' pts2, add_time_delay rnd1 chs1 d w1 cs = Some cs1 /\ set_pulse_width rnd2 chs w cs1 = Some cs2 /\
    Forall2 (shows (co_D cs)) (map snd (co_items cs1)) pts1 /\ Forall2 (shows (co_D cs)) (map snd (co_items cs2)) pts2 /\
    Permutation pts1 pts1' /\ Forall2 (rewidthed chs w) pts1' pts2.
Proof.
  intros rnd1 rnd2 chs1 d w1 chs w cs HN Hdl Hpr Hd Hc1 Hne Hc2 Hnot.
  destruct (base_groups cs HN Hdl Hpr) as (igs & E & Hp & Hnd). pose proof (base_check cs Hdl) as Hck.
  destruct (delay_groups rnd1 cs igs chs1 d w1 Hd Hc1 Hck E Hp Hnd) as [cs1 [E1 [F1 [F2 [F3 [_ [G1 [G2 G3]]]]]]]]. cbv zeta in *.
  set (igs1 := map (fun ig => (fst ig, delayed_group (co_D cs) chs1 d w1 (snd ig))) igs) in *.
  rewrite <- F1, <- F2, <- F3 in G2. pose proof (photon_items_check _ _ _ _ _ G1 G2) as Hck1.
  destruct (resolved_again cs1 igs1) as [igs1' [E2 P2]]; [rewrite F1; exact HN|exact G1|exact G2|exact G3|].
  destruct (C43_delay_states rnd1 chs1 d w1 cs HN Hdl Hd Hc1) as (cs1' & sks & idss & pts1 & E1' & _ & _ & _ & _ & HS & _).
  assert (cs1' = cs1) by congruence. subst cs1'.
  assert (PS : Permutation (map snd (co_items cs1)) (flat_map group_states_of (map snd igs1'))).
  { rewrite G1. rewrite (flat_map_concat_map group_states_of), map_map, <- flat_map_concat_map. symmetry. exact (Permutation_flat_map (fun ig => group_states_of (snd ig)) P2). }
  destruct (set_selected rnd2 chs w cs1 (map snd igs1')) as (cs2 & E3 & _ & _ & _ & _ & K); auto.
  - rewrite F1; exact Hc2.
  - rewrite F1; exact Hnot.
  - apply Forall_forall. intros st Hst. apply (Permutation_in _ (Permutation_sym PS)) in Hst. apply in_map_iff in Hst. destruct Hst as (it & <- & Hit). exact (proj1 (Forall_forall _ _) Hck1 it Hit).
  - destruct (forall2_perm (shows (co_D cs)) _ _ PS pts1 HS) as (pts1' & PP & HS').
    destruct (forall2_map_ex (shows (co_D cs)) (rewidthed chs w) (width_result (co_D cs) chs w) _ _ (width_result_shows (co_D cs) chs w) HS') as (pts2 & HS2 & HW).
    exists cs1, cs2, pts1, pts1', pts2. split; [exact E1|]. split; [exact E3|]. split; [exact HS|]. split; [rewrite K, F1; exact HS2|]. split; [exact PP|exact HW].
Qed.

(** States that were not photon resolved carry no timing after the decomposition. *)
Lemma plain_untimed cs gs : 1 <= dN (co_D cs) -> delayable cs -> resolved_groups cs = Some gs -> Forall (fun st => photon_of st = None) (flat_map group_states_of gs).
Proof.
  intros HN Hdl E. pose proof (delayable_good cs Hdl) as Hgood. destruct Hdl as [He _].
  destruct (plain_groups (co_D cs) (co_eps cs) (co_ncl cs) (co_items cs) He Hgood) as [cc [sks [gs0 [E1 [E2 [Hp [Hnd HF]]]]]]].
  pose proof (good_perm _ _ _ _ _ Hp Hgood) as Hg2. unfold resolved_groups in E. rewrite E1, E2, (resolved_groups_plain _ _ _ sks gs0 HN He Hg2 HF) in E. injection E as <-.
  apply Forall_forall. intros st Hst. apply in_flat_map in Hst. destruct Hst as (g & Hg & Hst). apply in_map_iff in Hg. destruct Hg as (g0 & <- & Hg0).
  destruct (Forall2_in_r_ex _ _ _ _ HF Hg0) as [sk [Hin Hsf]]. pose proof (proj1 (Forall_forall _ _) Hg2 sk Hin) as Hg1. cbn beta in Hg1.
  destruct (split_reads (co_D cs) (co_eps cs) (co_ncl cs) sk g0 He Hg1 Hsf) as [Hr _].
  unfold group_states_of in Hst. apply in_flat_map in Hst. destruct Hst as (c & Hc & Hst). unfold group_columns in Hc. cbn [g_cols] in Hc. rewrite map_map in Hc. apply in_map_iff in Hc.
  destruct Hc as (kc & <- & Hkc). cbn [snd] in Hst. assert (Hcin : In (snd kc) (group_columns g0)) by (apply in_map; exact Hkc).
  destruct (proj1 (Forall_forall _ _) Hr _ Hcin) as [s [vs [a [p [K1 [K2 [K3 [K4 [K5 [K6 [K7 _]]]]]]]]]]].
  unfold resolved_column, make_column in Hst. cbn [col_states] in Hst. rewrite K1 in Hst. apply in_map_iff in Hst. destruct Hst as (s0 & <- & Hs0). rewrite photon_stamp.
  cbn [flat_map] in Hs0. rewrite app_nil_r in Hs0. unfold parts_of, parts in Hs0.
  assert (G : forall x, photon_of (with_comps s x) = None) by (intros x; exact K7).
  destruct (0 <? sum_values _); [apply in_map_iff in Hs0; destruct Hs0 as (x & <- & _); apply G|destruct Hs0 as [<-|[]]; apply G].
Qed.
Lemma touches_with D chs st i : touches D chs (with_photon st i) = touches D chs st.
Proof. reflexivity. Qed.
Lemma one_photon_nth n c c' : c < n -> nth c' (one_photon n c) 0 <> 0 <-> c' = c.
Proof.
  intros Hc. unfold one_photon. destruct (Nat.lt_ge_cases c' n) as [H|H].
  - rewrite (nth_indep _ 0 (if 0 =? c then 1 else 0)) by (rewrite map_length, seq_length; exact H). rewrite (map_nth (fun i => if i =? c then 1 else 0)), seq_nth by exact H. cbn [plus].
    destruct (Nat.eqb_spec c' c); split; congruence || lia.
  - rewrite nth_overflow by (rewrite map_length, seq_length; exact H). split; [congruence|lia].
Qed.

Definition rw (chs : list nat) (w : R) (pt : part) : part :=
  Part (pt_label pt) (pt_classical pt) (pt_cum pt) (pt_group pt) (pt_weight pt) (pt_column pt) (pt_amplitude pt) (pt_boson pt)
    (if lit_dec chs (pt_photons pt) then (fst (pt_timing pt), w) else pt_timing pt) (pt_photons pt).
Lemma rewidthed_rw chs w pt pt' : rewidthed chs w pt pt' -> pt' = rw chs w pt.
Proof.
  destruct pt, pt'. unfold rewidthed, rw. cbn. intros (H1 & H2 & -> & -> & -> & -> & -> & -> & -> & -> & ->). f_equal. destruct (lit_dec chs pt_photons); auto.
Qed.
Lemma forall2_rw chs w l l' : Forall2 (rewidthed chs w) l l' -> l' = map (rw chs w) l.
Proof. induction 1 as [|x y l l' H HF IH]; [reflexivity|]. cbn [map]. now rewrite <- IH, <- (rewidthed_rw _ _ _ _ H). Qed.
Lemma channels_of_bound vs c : In c (channels_of vs) -> c < length vs.
Proof. unfold channels_of. intros H. apply in_flat_map in H. destruct H as (i & Hi & H). apply repeat_spec in H. apply in_seq in Hi. lia. Qed.
Lemma lit_one chs n c : c < n -> lit chs (one_photon n c) <-> channel_in chs c = true.
Proof.
  intros Hc. unfold lit, channel_in. rewrite existsb_exists. split; intros (x & Hx & E); exists x; (split; [exact Hx|]).
  - apply one_photon_nth in E; [|exact Hc]. subst. apply Nat.eqb_refl.
  - apply Nat.eqb_eq in E. subst. now apply one_photon_nth.
Qed.
Lemma lit_none chs n : ~ lit chs (repeat 0 n).
Proof. intros (c & _ & H). apply H. apply nth_repeat. Qed.
Lemma rw_delay D chs w k st x : length (values_of_name D (fst (snd x))) = dN D ->
  map (rw chs w) (delay_parts D [] 0 1 k st x) = width_parts D chs w k st x.
Proof.
  intros HL. unfold delay_parts, width_parts. pose proof (channels_of_bound (values_of_name D (fst (snd x)))) as HB. rewrite HL in HB.
  destruct (channels_of (values_of_name D (fst (snd x)))) as [|c0 l].
  - cbn [map]. unfold rw. cbn. destruct (lit_dec _ _) as [H|_]; [elim (lit_none _ _ H)|reflexivity].
  - rewrite map_map. apply map_ext_in. intros c Hc. specialize (HB c Hc). unfold rw. cbn [pt_label pt_classical pt_cum pt_group pt_weight pt_column pt_amplitude pt_boson pt_timing pt_photons fst channel_in existsb].
    f_equal. pose proof (lit_one chs (dN D) c HB) as T. destruct (lit_dec _ _) as [H|H]; destruct (channel_in chs c); try reflexivity; [apply T in H; discriminate|elim H; now apply T].
Qed.
Lemma component_length D st ids x : wf_state D st -> In x (numbered ids st) -> length (values_of_name D (fst (snd x))) = dN D.
Proof.
  intros [_ W] Hx. unfold numbered in Hx. destruct x as [i [nm a]]. apply in_combine_r in Hx. cbn [fst snd].
  assert (Hin : In nm (map fst (s_comps st))).
  { unfold weighted_components in Hx. destruct (s_comps st) as [|[n1 q1] [|c2 l]]; [destruct Hx|destruct Hx as [E|[]]; injection E as <- <-; left; reflexivity|].
    apply in_map_iff in Hx. destruct Hx as ([n2 q2] & E & Hx). cbn [fst snd] in E. assert (nm = n2) by congruence. subst. apply (in_map fst) in Hx. exact Hx. }
  destruct (W nm Hin) as (vs & Hv & ->). rewrite (values_of_name_string D vs (proj2 Hv)). apply Hv.
Qed.
(** C54: selected channels of a collection that is not photon resolved. Every photon gets a state
    without delay; the pulse width is the given one in the selected channels and 1 elsewhere. *)
Theorem C54_selected : forall rnd chs w cs, 1 <= dN (co_D cs) -> delayable cs -> Forall (fun it => probs_ok (snd it)) (co_items cs) ->
  chs <> [] -> Forall (fun c => c < dN (co_D cs)) chs -> ~ (forall c, c < dN (co_D cs) -> In c chs) ->
  exists cs' sks idss pts, set_pulse_width rnd chs w cs = Some cs' /\ NoDup (map fst (co_items cs')) /\
    Permutation (map fst sks) (map snd (co_items cs)) /\ NoDup (map (fun sk => (s_init (fst sk), snd sk)) sks) /\
    Forall2 column_numbers (map fst sks) idss /\
    Forall2 (shows (co_D cs)) (map snd (co_items cs')) pts /\
    Permutation pts (flat_map (fun x => flat_map (width_parts (co_D cs) chs w (snd (fst x)) (fst (fst x))) (numbered (snd x) (fst (fst x)))) (combine sks idss)).
Proof.
  intros rnd chs w cs HN Hdl Hpr Hne Hch Hnot.
  destruct (base_groups cs HN Hdl Hpr) as (igs & E & Hp & Hnd). pose proof (base_check cs Hdl) as Hck.
  destruct (set_selected rnd chs w cs (map snd igs)) as (cs' & E3 & _ & _ & _ & ND & K); auto.
  { apply Forall_forall. intros st Hst. apply in_flat_map in Hst. destruct Hst as [g [Hg Hst]]. apply in_map_iff in Hg. destruct Hg as [ig [<- Hig]].
    destruct (proj1 (Forall_forall _ _) Hp ig Hig) as [_ Hps]. unfold group_states_of in Hst. apply in_flat_map in Hst. destruct Hst as [c [Hc Hst]].
    exact (proj1 (proj1 (Forall_forall _ _) (proj1 (Forall_forall _ _) Hps c Hc) st Hst)). }
  destruct (C43_delay_states rnd [] (Delay 0) 1 cs HN Hdl I (Forall_nil _)) as (cs0 & sks & idss & pts0 & E0 & _ & P1 & P2 & P3 & HS & PP).
  assert (S0 : map snd (co_items cs0) = map (fun st => with_photon st (0%R, 1%R)) (flat_map group_states_of (map snd igs))).
  { destruct (one_delay cs 1 Hdl rnd [] (Delay 0) I (Forall_nil _) igs E Hp Hnd) as (cs0' & E0' & S0). assert (cs0' = cs0) by congruence. subst cs0'. rewrite S0.
    rewrite (flat_map_concat_map group_states_of), map_map, <- flat_map_concat_map. apply map_ext_in. intros st Hst.
    assert (U : photon_of st = None).
    { pose proof (plain_untimed cs (map snd igs) HN Hdl E) as U. rewrite Forall_forall in U. apply U. rewrite flat_map_concat_map, map_map, <- flat_map_concat_map. exact Hst. }
    unfold delay_result. rewrite U. reflexivity. }
  destruct (forall2_map_ex (shows (co_D cs)) (rewidthed chs w) (width_result (co_D cs) chs w) _ _ (width_result_shows (co_D cs) chs w) HS) as (pts & HS2 & HW).
  exists cs', sks, idss, pts. split; [exact E3|]. split; [exact ND|]. split; [exact P1|]. split; [exact P2|]. split; [exact P3|]. split.
  - rewrite K. rewrite S0, map_map in HS2. erewrite map_ext_in; [exact HS2|]. intros st Hst. cbn beta.
    assert (U : photon_of st = None) by exact (proj1 (Forall_forall _ _) (plain_untimed cs (map snd igs) HN Hdl E) st Hst).
    unfold width_result. rewrite touches_with. unfold widened. rewrite U, photon_with. cbn [or_else fst]. destruct (touches (co_D cs) chs st); now rewrite with_photon_twice.
  - rewrite (forall2_rw _ _ _ _ HW). rewrite (Permutation_map (rw chs w) PP).
    assert (Q : forall l : list ((state * nat) * list nat), (forall x, In x l -> wf_state (co_D cs) (fst (fst x))) ->
      map (rw chs w) (flat_map (fun x => flat_map (delay_parts (co_D cs) [] (delay_in (Delay 0) (fst (fst x))) 1 (snd (fst x)) (fst (fst x))) (numbered (snd x) (fst (fst x)))) l)
      = flat_map (fun x => flat_map (width_parts (co_D cs) chs w (snd (fst x)) (fst (fst x))) (numbered (snd x) (fst (fst x)))) l).
    { induction l as [|x l IH]; intros HW'; [reflexivity|]. cbn [flat_map]. rewrite map_app, IH by (intros y Hy; apply HW'; right; exact Hy). f_equal.
      assert (Hx : forall y, In y (numbered (snd x) (fst (fst x))) -> length (values_of_name (co_D cs) (fst (snd y))) = dN (co_D cs)) by (intros y; apply component_length, HW'; left; reflexivity).
      revert Hx. generalize (numbered (snd x) (fst (fst x))). induction l0 as [|y l0 IH0]; intros Hx; [reflexivity|]. cbn [flat_map]. rewrite map_app, IH0 by (intros z Hz; apply Hx; right; exact Hz).
      f_equal. apply rw_delay. apply Hx. left. reflexivity. }
    rewrite Q; [reflexivity|]. intros [sk ids] Hx. apply in_combine_l in Hx. cbn [fst]. apply (in_map fst) in Hx. apply (Permutation_in _ P1) in Hx. apply in_map_iff in Hx. destruct Hx as (it & <- & Hit).
    exact (proj1 (proj1 (proj1 (Forall_forall _ _) (proj2 Hdl) it Hit))).
Qed.

(** C54 (using the pulse width): once the width of all channels is set for states that were not photon
    resolved, the decomposition into interference groups fails: every time delay, setting the width of
    some channels, and the photon-resolved measurement raise. *)
Theorem C54_all_channels_unusable_refuted : forall rnd rnd' chs w cs cs', chs <> [] -> (forall c, In c chs <-> c < dN (co_D cs)) ->
  co_items cs <> [] -> Forall (fun it => dget aux_eqb AuxPhotonResolution (s_aux (snd it)) = None) (co_items cs) ->
  set_pulse_width rnd chs w cs = Some cs' ->
  (forall chs' d w', add_time_delay rnd' chs' d w' cs' = None) /\
  (forall chs' d w', add_quick_time_delay rnd' chs' d w' cs' = None) /\
  (forall chs' w', Forall (fun c => c < dN (co_D cs)) chs' -> chs' <> [] -> ~ (forall c, c < dN (co_D cs) -> In c chs') -> set_pulse_width rnd' chs' w' cs' = None) /\
  (forall opt cl, measure_resolved rnd' opt cl cs' = None).
Proof.
  intros rnd rnd' chs w cs cs' Hne Hch Hit HF E. destruct (C54_all_channels rnd chs w cs Hne Hch) as (cs2 & E2 & HD & _ & _ & H2). assert (cs2 = cs') by congruence. subst cs2.
  assert (N : columns_of (co_items cs') = None).
  { unfold columns_of. destruct (co_items cs) as [|it its]; [contradiction|]. inversion H2 as [|? it' ? its' (_ & Hw) Hl Ex El]; subst. cbn [map fold_left].
    assert (Z : place_state (Some []) (snd it') = None).
    { unfold place_state. destruct Hw as (_ & _ & _ & _ & _ & _ & t & r & Er & [[K _]|[_ [-> _]]]); [pose proof (Forall_inv HF) as Q; cbn beta in Q; congruence|].
      unfold resolution_of. rewrite Er. reflexivity. }
    rewrite Z. clear. induction (map snd its') as [|x l IH]; [reflexivity|]. exact IH. }
  assert (NR : resolved_groups cs' = None) by (unfold resolved_groups; now rewrite N).
  split; [intros; unfold add_time_delay; now rewrite NR|]. split; [intros; unfold add_quick_time_delay; now rewrite N|]. split.
  - intros chs' w' Hc Hn Hnot. unfold set_pulse_width. destruct chs' as [|c0 l] eqn:Ec; [contradiction|]. rewrite <- Ec in *. rewrite HD.
    destruct (same_set chs' (seq 0 (dN (co_D cs)))) eqn:Es; [elim Hnot; intros c Hcc; apply (proj1 (same_set_spec _ _) Es); apply in_seq; lia|]. rewrite NR. now destruct (forallb _ _).
  - intros opt cl. unfold measure_resolved. rewrite NR. reflexivity.
Qed.

(** The hypotheses are met by two photons in two channels. *)
Example C54_case : forall rnd w, exists cs', set_pulse_width rnd [0; 1] w pair_coll = Some cs' /\ co_items pair_coll <> [] /\
  Forall (fun it => dget aux_eqb AuxPhotonResolution (s_aux (snd it)) = None) (co_items pair_coll) /\
  1 <= dN (co_D pair_coll) /\ delayable pair_coll /\ Forall (fun it => probs_ok (snd it)) (co_items pair_coll) /\
  Forall (fun c => c < dN (co_D pair_coll)) [1] /\ ~ (forall c, c < dN (co_D pair_coll) -> In c [1]).
Proof.
  intros rnd w. destruct (C54_all_channels rnd [0; 1] w pair_coll) as (cs' & E & _); [discriminate|cbn; intros c; split; [intros [<-|[<-|[]]]; lia|destruct c as [|[|c]]; [left|right; left|lia]; reflexivity]|].
  exists cs'. split; [exact E|]. split; [discriminate|]. split; [apply Forall_cons; [reflexivity|constructor]|]. split; [cbn; lia|]. destruct pair_delayable as [H1 H2]. split; [exact H1|]. split; [exact H2|].
  split; [apply Forall_cons; [cbn; lia|constructor]|]. intros H. destruct (H 0) as [K|[]]; [cbn; lia|discriminate].
Qed.
