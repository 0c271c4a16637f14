(** Proofs about interference experiments. *)
From Coq Require Import Reals List Arith Lia Lra Bool Permutation.
From Coquelicot Require Import Complex.
From Verif Require Import Prelude NamesModel NamesSpec NamesProofs FockModel FockSpec FockProofs GateProofs PropFock StateModel StateSpec StateProofs ApplyProofs MeasureSpec MeasureProofs
  CollectionModel EvalModel EvalSpec EvalProofs WfProofs PropMeasure PropCollection PropEval PropBridge PropPRMeasure PropPROptics OperatorModel ColumnModel ColumnSpec ColumnProofs PropColumn
  GroupProofs TemporalSpec TemporalProofs ResolvedProofs PropTemporal PropDelays InterferenceSpec ArrangementProofs InterferenceProofs MeasuredProofs PropInterference ExperimentSpec.
Import ListNotations.

(** ** The states after the delay *)
Definition prepared_photons (D : dims) (chs : list nat) (t w : R) (vs : values) : list (bool * values * (R * R)) :=
  match channels_of vs with
  | [] => [(false, repeat 0 (dN D), (0%R, w))]
  | l => map (fun c => (true, one_photon (dN D) c, ((if channel_in chs c then - t else 0)%R, w))) l
  end.
Definition prepared_state (D : dims) (c : column) (b : R) (p : R) (s : state) (a : C) (y : bool * values * (R * R)) : state :=
  stamp (col_id c) (col_amp c) b (col_group c) p (with_photon (with_comps s [(name_string D (snd (fst y)), (a, Cnorm2 a))]) (snd y)).
Definition column_boson (D : dims) (c : column) : R := sqrt (INR (factorials (col_vals D c))).
Definition first_state (c : column) : state := match col_states c with s :: _ => s | [] => State [] 0 [] [] [] [] end.
Definition delayed_ray (D : dims) (chs : list nat) (t w : R) (st : state) (c : column) : ray :=
  Ray (col_id c) (col_amp c) (column_boson D c)
    (map (fun y => (fst (fst y), prepared_state D c (column_boson D c) (s_cum st) (first_state c) (first_amp (first_state c)) y, snd y)) (prepared_photons D chs t w (col_vals D c))).

Lemma delayed_column_states D eps ncl chs d w st t c : 1 <= dN D -> Forall (fun ch => ch < dN D) chs -> delay_of d st = Some t -> col_reads D eps ncl st c ->
  option_list (map (delayed_state D chs d w) (col_states (resolved_column D c))) = Some (map (fun x => snd (fst x)) (ry_states (delayed_ray D chs t w st c))).
Proof.
  intros HN Hchs Hd [s [vs [a [p [K1 [K2 [K3 [K4 [K5 [K6 [K7 [K8 [K9 [K10 [K11 [K12 K13]]]]]]]]]]]]]]]]. unfold resolved_column, make_column, delayed_ray, column_boson, first_state. cbn [col_states ry_states]. rewrite K1, K13. cbn [flat_map map]. rewrite app_nil_r.
  assert (Hfv : first_values D s = vs) by exact (first_values_one D s vs a p K2 K3). unfold product; cbn [fold_right]. rewrite Hfv, Nat.mul_1_r, K10, Rmult_1_l, K11.
  assert (Hall : forallb (fun ch => ch <? dN D) chs = true).
  { apply forallb_forall. intros x Hx. apply Nat.ltb_lt. exact (proj1 (Forall_forall _ _) Hchs x Hx). }
  unfold parts_of. rewrite Hfv. assert (Hfa : first_amp s = a) by (unfold first_amp; rewrite K3; reflexivity). rewrite Hfa.
  set (b := sqrt (INR (factorials vs))).
  assert (Hone : forall vs', let x := with_comps s [(name_string D vs', (a, Cnorm2 a))] in
     delayed_state D chs d w (stamp (col_id c) (col_amp c) b (col_group c) (s_cum st) x)
       = Some (stamp (col_id c) (col_amp c) b (col_group c) (s_cum st) (with_photon x ((if touches D chs x then - t else 0)%R, w)))).
  { intros vs'. cbv zeta. unfold delayed_state. rewrite Hall.
    assert (Hdl : delay_of d (stamp (col_id c) (col_amp c) b (col_group c) (s_cum st) (with_comps s [(name_string D vs', (a, Cnorm2 a))])) = Some t).
    { destruct d as [z|z]; cbn in *; [exact Hd|rewrite K5; exact Hd]. }
    rewrite Hdl. rewrite with_photon_stamp, photon_stamp. change (photon_of (with_comps s [(name_string D vs', (a, Cnorm2 a))])) with (photon_of s). rewrite K7. cbn [or_else fst].
    change (touches D chs (stamp (col_id c) (col_amp c) b (col_group c) (s_cum st) (with_comps s [(name_string D vs', (a, Cnorm2 a))]))) with (touches D chs (with_comps s [(name_string D vs', (a, Cnorm2 a))])).
    do 4 f_equal. destruct (touches D chs _); ring. }
  cbv zeta in Hone. unfold parts, prepared_photons. destruct (0 <? sum_values vs) eqn:E.
  - apply Nat.ltb_lt in E. rewrite sum_values_photons in E. pose proof (valid_photon_L D vs K2 E) as HL.
    assert (Hlt : forall ch, In ch (channels_of vs) -> ch < dN D).
    { intros ch Hch. rewrite <- channels_of_spec, photon_channels_pc in Hch. apply pc_in in Hch. rewrite (proj1 K2) in Hch. lia. }
    assert (Hne : channels_of vs <> []).
    { intro Z. rewrite <- channels_of_spec, photon_channels_pc in Z. apply (f_equal (@length _)) in Z. rewrite pc_length in Z. cbn in Z. lia. }
    rewrite channels_of_spec.
    assert (G : forall l, (forall ch, In ch l -> ch < dN D) ->
      option_list (map (delayed_state D chs d w) (map (stamp (col_id c) (col_amp c) b (col_group c) (s_cum st))
                     (map (fun c0 => with_comps s [(name_string D (unit_values (dN D) c0), (a, Cnorm2 a))]) l)))
      = Some (map (fun y => prepared_state D c b (s_cum st) s a y) (map (fun ch => (true, one_photon (dN D) ch, ((if channel_in chs ch then - t else 0)%R, w))) l))).
    { induction l as [|ch l IH]; intro Hl; [reflexivity|]. assert (Hch : ch < dN D) by (apply Hl; left; reflexivity).
      cbn [map option_list]. rewrite IH by (intros; apply Hl; right; assumption). rewrite Hone.
      rewrite (touches_unit D chs _ (dN D) ch Hch) by (apply first_values_with; apply unit_valid; exact HL). rewrite one_photon_spec by exact Hch. reflexivity. }
    rewrite (G (channels_of vs) Hlt). f_equal. rewrite (map_map (fun y => (fst (fst y), _, snd y))). destruct (channels_of vs) as [|x l]; [congruence|reflexivity].
  - apply Nat.ltb_ge in E. rewrite sum_values_photons in E.
    assert (Hz : channels_of vs = []) by (rewrite <- channels_of_spec; apply length_zero_iff_nil; rewrite photon_channels_pc, pc_length; lia).
    rewrite Hz. pose proof (zeros_valid D (valid_L D vs HN K2)) as Hzv.
    cbn [map option_list]. rewrite Hone. rewrite (touches_zero D chs _ (dN D)) by (apply first_values_with; exact Hzv). reflexivity.
Qed.

(** The amplitude of a single component; 1 for several components. *)
Definition lone (st : state) : C := match s_comps st with [(_, (a, _))] => a | _ => RtoC 1 end.
Lemma split_columns_read D eps ncl sk g c : (0 <= eps)%R -> good_state D eps ncl (fst sk) -> split_facts eps ncl sk g -> In c (group_columns g) ->
  col_reads D eps ncl (fst sk) c /\ col_group c = snd sk /\ col_amp c <> RtoC 0 /\ first_amp (first_state c) = lone (fst sk) /\
  In (col_vals D c, col_amp c) (map (fun x => (values_of_name D (fst x), snd x)) (weighted_components (fst sk))).
Proof.
  intros He Hg Hs Hin. destruct (split_reads D eps ncl sk g He Hg Hs) as [Hr Hp]. pose proof (proj1 (Forall_forall _ _) Hr c Hin) as Hc. split; [exact Hc|].
  destruct Hs as (Hid & _ & Hok & _ & Hess). split.
  { unfold group_columns in Hin. apply in_map_iff in Hin. destruct Hin as [kc [<- Hin]]. destruct (proj1 (Forall_forall _ _) (proj2 Hok) kc Hin) as (_ & -> & _). exact Hid. }
  pose proof (in_map (fun c => (col_vals D c, col_amp c)) _ _ Hin) as Hin'. apply (Permutation_in _ Hp) in Hin'. cbn beta in Hin'.
  split.
  { apply in_map_iff in Hin'. destruct Hin' as ([nm a] & E & Hw). cbn [fst snd] in E. injection E as _ <-. destruct Hg as [_ (_ & Hne & Hamp)].
    unfold weighted_components in Hw. destruct (s_comps (fst sk)) as [|c1 [|c2 cs]] eqn:Ec; [destruct Hw| |].
    - destruct c1. destruct Hw as [Hw|[]]. intro Z. rewrite Z in Hw. apply (f_equal snd) in Hw. cbn [snd] in Hw. apply RtoC_inj in Hw. lra.
    - destruct (Hamp ltac:(cbn; lia)) as [Hnz _]. destruct c1 as [n1 q1]. apply in_map_iff in Hw. destruct Hw as ([nm' q] & E & Hq). apply (f_equal snd) in E. cbn [fst snd] in E. rewrite <- E. exact (proj1 (Forall_forall _ _) Hnz _ Hq). }
  split; [|exact Hin'].
  assert (Hi : In (column_ess c) (map column_ess (group_columns g))) by (apply in_map; exact Hin). apply (Permutation_in _ Hess) in Hi. apply in_map_iff in Hi.
  destruct Hi as [x [Hx1 Hx2]]. destruct Hc as (s & vs & a & p & K1 & K2 & K3 & _). unfold first_state. rewrite K1. pose proof (f_equal snd Hx1) as Hs. unfold column_ess in Hs; cbn [snd] in Hs. rewrite K1 in Hs. cbn [map] in Hs. assert (Hs' : snd x = core_of s) by congruence.
  unfold choices in Hx2. unfold lone. destruct (s_comps (fst sk)) as [|[n1 [a1 p1]] [|c2 cs]] eqn:Ec; [destruct Hx2| |].
  - destruct Hx2 as [<-|[]]. cbn [snd] in Hs'. unfold first_amp. rewrite <- (core_comps _ _ Hs'), Ec. reflexivity.
  - apply in_map_iff in Hx2. destruct Hx2 as [c0 [<- _]]. cbn [snd] in Hs'. assert (Hcs : s_comps s = unit_comp (fst c0)) by exact (eq_sym (f_equal (fun k => s_comps (fst k)) Hs')). unfold first_amp. rewrite Hcs. destruct n1; reflexivity.
Qed.
Lemma lone_unit D st : sendable D st -> Cnorm2 (lone st) = 1%R.
Proof.
  intros (_ & Hn & _). unfold lone. unfold state_norm2 in Hn. destruct (s_comps st) as [|[n1 [a1 p1]] [|c2 cs]]; try (rewrite Cnorm2_RtoC; ring).
  unfold Rsum in Hn; cbn in Hn. lra.
Qed.

(** What is known of the states of a prepared ray. *)
Lemma prepared_in D chs t w vs y : valid D vs -> In y (prepared_photons D chs t w vs) ->
  (fst (fst y) = true /\ exists c, c < dN D /\ 2 <= dL D /\ snd (fst y) = one_photon (dN D) c) \/ (fst (fst y) = false /\ snd (fst y) = repeat 0 (dN D)).
Proof.
  intros Hv Hy. unfold prepared_photons in Hy. destruct (channels_of vs) as [|c l] eqn:E; [right; destruct Hy as [<-|[]]; split; reflexivity|].
  left. rewrite <- E in Hy. apply in_map_iff in Hy. destruct Hy as (ch & <- & Hch). split; [reflexivity|]. exists ch. cbn [fst snd].
  assert (Hp : 0 < NamesSpec.photons vs) by (rewrite <- (pc_length 0), <- photon_channels_pc, channels_of_spec, E; cbn; lia).
  split; [|split; [exact (valid_photon_L D vs Hv Hp)|reflexivity]].
  rewrite <- channels_of_spec, photon_channels_pc in Hch. apply pc_in in Hch. rewrite (proj1 Hv) in Hch. lia.
Qed.
Lemma prepared_lit D chs t w vs : length (filter (fun y : bool * values * (R * R) => fst (fst y)) (prepared_photons D chs t w vs)) = NamesSpec.photons vs.
Proof.
  assert (L : length (channels_of vs) = NamesSpec.photons vs) by (rewrite <- channels_of_spec, photon_channels_pc; apply pc_length).
  unfold prepared_photons. destruct (channels_of vs) as [|c l] eqn:E; [exact L|]. rewrite <- L, filter_map, map_length. cbn [fst]. clear. induction (c :: l) as [|z r IH]; [reflexivity|]. cbn [filter length]. now rewrite IH.
Qed.
Definition delayed_bundle (D : dims) (chs : list nat) (d : delay) (w : R) (sg : (state * nat) * group) : bundle :=
  Bundle (s_init (fst (fst sg))) (snd (fst sg)) (s_cum (fst (fst sg)))
    (map (delayed_ray D chs (delay_in d (fst (fst sg))) w (fst (fst sg))) (group_columns (snd sg))).
Lemma prepared_state_facts D eps ncl st c b y : (0 <= eps)%R -> col_reads D eps ncl st c -> Cnorm2 (first_amp (first_state c)) = 1%R ->
  let x := prepared_state D c b (s_cum st) (first_state c) (first_amp (first_state c)) y in
  check_state eps ncl x = true /\ probs_ok x /\ s_init x = s_init st /\ s_classical x = s_classical st /\ s_results x = s_results st /\
  s_comps x = [(name_string D (snd (fst y)), (first_amp (first_state c), 1%R))] /\
  dget aux_eqb AuxPhotonResolution (s_aux x) = Some (AuxResolution (Resolution (Some (col_id c)) (Some (col_amp c)) (Some b) (Some (col_group c)) (Some (s_cum st)) (Some (snd y)))).
Proof.
  intros He (s & vs & a & p & K1 & K2 & K3 & K4 & K5 & K6 & K7 & K8 & K9 & _) Hn. cbv zeta. unfold first_state in *. rewrite K1 in *. unfold prepared_state. split.
  { rewrite stamp_check. change (check_state eps ncl (with_comps s [(name_string D (snd (fst y)), (first_amp s, Cnorm2 (first_amp s)))]) = true). apply check_state_iff. apply check_state_iff in K9. destruct K9 as (C1 & _ & C3). cbn [with_comps s_cum s_comps s_classical]. split; [exact C1|]. split; [|exact C3].
    apply Forall_cons; [cbn [snd]; rewrite Hn; lra|constructor]. }
  split.
  { intros nm z q Hin. destruct Hin as [E|[]]. congruence. }
  split; [exact K4|]. split; [exact K5|]. split; [exact K8|]. split; [rewrite stamp_comps; cbn; rewrite Hn; reflexivity|].
  unfold stamp, with_resolution. cbn [s_aux with_aux]. rewrite (dget_dset_same aux_eqb aux_eqb_spec), photon_with. reflexivity.
Qed.
Lemma delayed_bundle_ok D eps ncl chs d w sk g : 1 <= dN D -> (0 <= eps)%R -> good_state D eps ncl (fst sk) -> sendable D (fst sk) -> split_facts eps ncl sk g ->
  bundle_ok D eps ncl (delayed_bundle D chs d w (sk, g)).
Proof.
  intros HN He Hg Hsend Hs. pose proof (fun c => split_columns_read D eps ncl sk g c He Hg Hs) as HC.
  split; [|split].
  - cbn. intro Z. apply map_eq_nil in Z. exact (split_facts_nonempty D eps ncl sk g Hg Hs Z).
  - cbn [delayed_bundle bd_rays fst snd]. rewrite map_map. cbn [delayed_ray ry_number]. change (NoDup (map col_id (group_columns g))). rewrite (group_keys g) by apply Hs. apply Hs.
  - cbn [delayed_bundle bd_rays fst snd]. apply Forall_map. apply Forall_forall. intros c Hin. destruct (HC c Hin) as (Hr & Hgrp & Hamp & Hfa & Hw).
    assert (Hn : Cnorm2 (first_amp (first_state c)) = 1%R) by (rewrite Hfa; now apply (lone_unit D)).
    assert (Hv : valid D (col_vals D c)) by (destruct Hr as (s & vs & a & p & _ & K2 & _ & _ & _ & _ & _ & _ & _ & _ & _ & _ & ->); exact K2).
    unfold ray_ok. cbn [delayed_ray ry_amplitude ry_boson ry_states ry_number bd_label bd_group bd_weight]. split; [exact Hamp|]. split.
    { unfold column_boson. apply sqrt_lt_R0. apply lt_0_INR. apply factorials_pos. }
    split.
    { intro Z. apply map_eq_nil in Z. unfold prepared_photons in Z. destruct (channels_of (col_vals D c)); discriminate. }
    split.
    { unfold ray_branch. cbn [br_photons]. rewrite map_length. unfold delayed_ray; cbn [ry_states]. rewrite filter_map, map_length. cbn [fst]. rewrite prepared_lit.
      apply in_map_iff in Hw. destruct Hw as ([nm a] & E & Hw). cbn [fst snd] in E. injection E as <- _. destruct Hsend as (_ & _ & Hph).
      assert (Hnm : exists q, In (nm, q) (s_comps (fst sk))).
      { unfold weighted_components in Hw. destruct (s_comps (fst sk)) as [|[n1 q1] [|c2 cs]]; [destruct Hw| |].
        - destruct Hw as [Hw|[]]. exists q1. left. congruence.
        - apply in_map_iff in Hw. destruct Hw as ([n2 q2] & E & H2). cbn [fst snd] in E. exists q2. replace nm with n2 by congruence. exact H2. }
      destruct Hnm as [q Hq]. exact (proj1 (Forall_forall _ _) Hph _ Hq). }
    apply Forall_map. apply Forall_forall. intros y Hy. cbv zeta. cbn [fst snd].
    destruct (prepared_state_facts D eps ncl (fst sk) c (column_boson D c) y He Hr Hn) as (F1 & F2 & F3 & F4 & F5 & F6 & F7). rewrite Hgrp in F7.
    split; [exact F1|]. split; [exact F2|]. split; [exact F3|]. split; [|exact F7].
    destruct (prepared_in D chs _ w (col_vals D c) y Hv Hy) as [(Eb & ch & Hch & HL & Ey)|[Eb Ey]]; rewrite Eb.
    + rewrite Ey in F6. split; [rewrite F6; discriminate|]. split; [rewrite F6; apply NoDup_cons; [intros []|constructor]|]. split.
      * intros nm Hnm. rewrite F6 in Hnm. destruct Hnm as [<-|[]]. exists ch. split; [exact Hch|reflexivity].
      * rewrite F6. cbn. lia.
    + rewrite Ey in F6. eexists. exact F6.
Qed.
Lemma flat_mapped {A B E} (f : B -> list E) (g : A -> B) l : flat_map f (map g l) = flat_map (fun x => f (g x)) l.
Proof. induction l as [|x l IH]; [reflexivity|]. cbn [map flat_map]. now rewrite IH. Qed.
Lemma option_list_flat {A B} (F : B -> option B) (f : A -> list B) (h : A -> list B) l : (forall x, In x l -> option_list (map F (f x)) = Some (h x)) ->
  option_list (map F (flat_map f l)) = Some (flat_map h l).
Proof.
  induction l as [|x l IH]; intro H; [reflexivity|]. cbn [flat_map]. rewrite map_app. apply option_list_app; [apply H; left; reflexivity|apply IH; intros; apply H; right; assumption].
Qed.
Lemma delay_of_in d ncl eps D st : delay_exists d ncl -> good_state D eps ncl st -> delay_of d st = Some (delay_in d st).
Proof.
  intros Hd Hg. destruct d as [t|c]; [reflexivity|]. cbn in *. destruct Hg as [(_ & _ & Hck & _) _]. apply check_state_iff in Hck. destruct Hck as (_ & _ & <-). apply nth_error_nth'. exact Hd.
Qed.
Lemma delay_carries rnd chs d w cs : 1 <= dN (co_D cs) -> delayable cs -> Forall (fun it => sendable (co_D cs) (snd it)) (co_items cs) ->
  delay_exists d (co_ncl cs) -> Forall (fun c => c < dN (co_D cs)) chs ->
  exists cs' sgs, add_time_delay rnd chs d w cs = Some cs' /\ NoDup (map fst (co_items cs')) /\ co_D cs' = co_D cs /\ co_eps cs' = co_eps cs /\ co_ncl cs' = co_ncl cs /\
    Permutation (map (fun sg => fst (fst sg)) sgs) (map snd (co_items cs)) /\
    Forall (fun sg => good_state (co_D cs) (co_eps cs) (co_ncl cs) (fst (fst sg)) /\ sendable (co_D cs) (fst (fst sg)) /\ split_facts (co_eps cs) (co_ncl cs) (fst sg) (snd sg)) sgs /\
    carries cs' (map (delayed_bundle (co_D cs) chs d w) sgs).
Proof.
  intros HN Hdl Hsend Hd Hchs. pose proof (delayable_good cs Hdl) as Hgood. destruct Hdl as [He _].
  destruct (plain_groups (co_D cs) (co_eps cs) (co_ncl cs) (co_items cs) He Hgood) as [cc [sks [gs [E1 [E2 [Hp [Hnd HF]]]]]]].
  pose proof (good_perm _ _ _ _ _ Hp Hgood) as Hg2.
  assert (Hs2 : Forall (fun sk => sendable (co_D cs) (fst sk)) sks).
  { apply Forall_forall. intros sk Hin. apply (in_map fst) in Hin. apply (Permutation_in _ Hp) in Hin. apply in_map_iff in Hin. destruct Hin as [it [<- Hin]]. exact (proj1 (Forall_forall _ _) Hsend it Hin). }
  assert (Hlen : length sks = length gs) by (clear -HF; induction HF; [reflexivity|cbn; congruence]).
  assert (Hgs : map snd (combine sks gs) = gs) by (clear -Hlen; revert gs Hlen; induction sks as [|x l IH]; intros [|y l'] Hl; try discriminate; [reflexivity|]; cbn [combine map snd]; f_equal; apply IH; cbn in Hl; lia).
  assert (Hsk : map fst (combine sks gs) = sks) by (clear -Hlen; revert gs Hlen; induction sks as [|x l IH]; intros [|y l'] Hl; try discriminate; [reflexivity|]; cbn [combine map fst]; f_equal; apply IH; cbn in Hl; lia).
  set (sgs := combine sks gs) in *.
  assert (HA : Forall (fun sg => good_state (co_D cs) (co_eps cs) (co_ncl cs) (fst (fst sg)) /\ sendable (co_D cs) (fst (fst sg)) /\ split_facts (co_eps cs) (co_ncl cs) (fst sg) (snd sg)) sgs).
  { apply Forall_forall. intros sg Hin. pose proof (in_map fst _ _ Hin) as Hin'. rewrite Hsk in Hin'. destruct (forall2_combine _ _ _ HF sg Hin) as [HS _].
    split; [exact (proj1 (Forall_forall _ _) Hg2 _ Hin')|]. split; [exact (proj1 (Forall_forall _ _) Hs2 _ Hin')|exact HS]. }
  set (sts := flat_map bundle_states (map (delayed_bundle (co_D cs) chs d w) sgs)).
  assert (E3 : option_list (map (delayed_state (co_D cs) chs d w) (flat_map group_states_of
      (map (fun g => Group (g_id g) (g_cum g) (map (fun kc => (fst kc, resolved_column (co_D cs) (snd kc))) (g_cols g))) gs))) = Some sts).
  { rewrite <- Hgs, map_map, flat_mapped. unfold sts. rewrite flat_mapped.
    apply option_list_flat. intros [sk g] Hin. destruct (proj1 (Forall_forall _ _) HA _ Hin) as (H1 & H2 & H3). cbn [fst snd] in *.
    rewrite group_states_map. change (map snd (g_cols g)) with (group_columns g). unfold bundle_states. cbn [delayed_bundle bd_rays fst snd]. rewrite flat_mapped.
    apply option_list_flat. intros c Hc. apply (delayed_column_states (co_D cs) (co_eps cs) (co_ncl cs)); auto.
    - now apply (delay_of_in d (co_ncl cs) (co_eps cs) (co_D cs)).
    - exact (proj1 (split_columns_read _ _ _ sk g c He H1 H3 Hc)). }
  destruct (collect_ok (co_D cs) rnd cs sts Hgood) as [cs' [E4 [E5 [E6 [E7 [E8 E9]]]]]].
  exists cs', sgs. unfold add_time_delay, resolved_groups. rewrite E1, E2, (resolved_groups_plain _ _ _ sks gs HN He Hg2 HF), E3.
  split; [exact E4|]. split; [exact E6|]. split; [exact E7|]. split; [exact E8|]. split; [exact E9|]. split.
  { rewrite <- (map_map fst fst), Hsk. exact Hp. }
  split; [exact HA|]. split; [exact E5|]. split.
  - rewrite map_map. cbn [delayed_bundle bd_label bd_group]. rewrite <- (map_map fst (fun sk : state * nat => (s_init (fst sk), snd sk))), Hsk. exact Hnd.
  - rewrite E7, E8, E9. apply Forall_map. revert HA. apply Forall_impl. intros [sk g] (H1 & H2 & H3). apply delayed_bundle_ok; assumption.
Qed.
