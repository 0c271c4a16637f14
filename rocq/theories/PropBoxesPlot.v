(** Property theorems C55, continued: the correlations of a measured experiment as shown by
    plot_correlations. *)
From Coq Require Import Reals List Arith Lia Lra Bool Permutation Sorted.
From Coquelicot Require Import Complex.
From Verif Require Import Prelude NamesModel NamesSpec NamesProofs FockModel FockSpec FockProofs StateModel StateSpec StateProofs
  CollectionModel CollectionSpec EvalModel EvalSpec MeasureSpec PropBridge PropEval
  PRModel PRSpec PropPR PropPRMeasure PropPROptics BoxesModel BoxesSpec PropBoxes PlotModel PlotSpec PlotProofs PropCorrelation.
Import ListNotations.

(** One template state; classical channels [cl] read the optical channels [opt]. The correlation
    plotted between the classical channels number m and m' of [cl] is the one of the boxes between
    the optical channels they read. *)
Theorem C55_plotted rnd0 X rnd rnd' rid D ncl eps full boxes elems nds opt cl cs it rest rndp ord mms :
  let c := experiment D ncl eps full (create_no_signalling_boxes rnd' rid boxes) nds opt cl in
  let settings := fold_left followed_by elems (map (fun pr => Pair (snd pr) no_setting no_setting) boxes) in
  2 <= dL D -> 2 <= dN D -> dLeft D = true -> (0 < eps)%R -> good_pairs D boxes -> boxes <> [] -> Forall (element_ok boxes) elems ->
  FockModel.place D (map (fun e => (snd e, element_channels boxes e)) elems) = Some nds ->
  (forall n, In n opt -> n < dN D) -> (forall n, In n cl -> n < ncl) -> NoDup cl -> length opt = length cl ->
  (forall o w, In o (all_outcomes (length boxes)) -> length w = length boxes -> Forall (fun i => i < 4) w ->
     settings_amplitude settings o w = RtoC 0 \/ (eps <= Cnorm2 (settings_amplitude settings o w))%R) ->
  co_D cs = D -> co_eps cs = eps -> co_ncl cs = ncl -> co_items cs = it :: rest ->
  check_state eps ncl (snd it) = true -> (0 < s_cum (snd it) <= 1)%R -> NoDup (map fst (s_aux (snd it))) ->
  (forall x, ~ In (AuxPhotonResolution, x) (s_aux (snd it))) ->
  (exists vs p, valid D vs /\ s_comps (snd it) = [(name_string D vs, (RtoC 1, p))]) ->
  counts D ncl (seq 0 ncl) (snd it) -> listing ord ->
  Forall (fun mm => fst mm < length cl /\ snd mm < length cl) mms ->
  exists cs' xs, evaluate_circuit (with_pr rnd0 X) rnd c cs = Ok cs' /\
    plot_correlations rndp ord cs' (map (fun mm => (nth (fst mm) cl 0, nth (snd mm) cl 0)) mms) [] = Some [(s_init (snd it), xs)] /\
    Forall2 (fun mm x => box_correlation boxes settings (nth (fst mm) opt 0) (nth (snd mm) opt 0) x) mms xs.
Proof.
  intros c settings HL HN Hleft Heps Hg Hne He Ep Hopt Hcl NDcl Hlen Hthr ED Eeps Encl E Hck Hcum NDa Hres (vs & p & Hv & Ec) Hcnt Hord Hmm.
  destruct (C55_experiment rnd0 X rnd rnd' rid D ncl eps full boxes elems nds opt cl cs it rest HL HN Heps Hg Hne He Ep Hopt Hcl NDcl Hthr ED Eeps Encl E Hck ltac:(lra) NDa Hres vs p Hv Ec)
    as (cs' & os & Ev & ND & (ED' & Eeps' & Encl') & Hperm & HF).
  fold c in Ev. fold settings in HF.
  assert (Hok : Forall pair_ok settings).
  { unfold settings. apply (fold_followed_ok boxes _ He). apply Forall_map. destruct Hg as [Hg _]. eapply Forall_impl; [|exact Hg]. cbn beta. intros pr [_ Hq]. split; [exact Hq|]. split; apply no_setting_unitary. }
  assert (Lset : length settings = length boxes) by (unfold settings; rewrite followed_by_length, map_length; reflexivity).
  assert (Eq : map p_q settings = map snd boxes) by (unfold settings; rewrite followed_by_q, map_map; reflexivity).
  set (pl := fun o => config_component boxes (digits_of o) vs).
  assert (Hpl : forall o, In o (all_outcomes (length boxes)) -> configured boxes (map (fun st => 2 * fst st + snd st) o) vs (pl o)).
  { intros o Ho. destruct (digits_spec _ _ Ho) as (L1 & F1 & _). apply (config_component_configured D); auto. }
  assert (Hvl : forall o, In o (all_outcomes (length boxes)) -> valid D (pl o)).
  { intros o Ho. destruct (digits_spec _ _ Ho) as (L1 & F1 & _). apply config_component_valid; auto. }
  set (w := s_cum (snd it)) in *. set (l := s_init (snd it)) in *.
  assert (HF' : Forall2 (fun o s => In o (all_outcomes (length boxes)) /\ s_cum s = (outcome_value settings o * w)%R /\ s_init s = l /\
     (forall a, In a (s_aux s) -> In a (s_aux (snd it))) /\ written cl (readout opt (pl o)) (s_classical (snd it)) (s_classical s)) os (map snd (co_items cs'))).
  { assert (Ho : Forall (fun o => In o (all_outcomes (length boxes))) os) by (apply Forall_forall; intros o Ho; apply (Permutation_in _ Hperm Ho)).
    eapply Forall2_impl; [|apply (Forall2_in_l _ _ _ _ Ho HF)]. cbn beta. intros o s (Hin & x & vs' & H1 & H2 & H3 & H4 & H5 & _ & H7).
    rewrite (outcome_unique _ _ _ Hok H1) in H2. rewrite (configured_unique D boxes _ vs _ _ Hg H5 (Hpl o Hin)) in H7. split; [exact Hin|]. split; [exact H2|]. split; [exact H3|]. split; [|exact H7].
    intros a Ha. now apply H4 in Ha. }
  set (sts := map snd (co_items cs')) in *.
  assert (Lc : length (s_classical (snd it)) = ncl) by apply Hcnt.
  assert (Hos : os <> []).
  { intros ->. apply Permutation_length in Hperm. assert (H0 : In (repeat (0, 0)%nat (length boxes)) (all_outcomes (length boxes))).
    { apply all_outcomes_spec. split; [apply repeat_length|]. apply Forall_forall. intros z Hz. apply repeat_spec in Hz. subst z. split; cbn; lia. }
    destruct (all_outcomes (length boxes)); [destruct H0|discriminate]. }
  assert (Hall : forall s, In s sts -> s_init s = l /\ (forall x, ~ In (AuxPhotonResolution, x) (s_aux s)) /\ counts D ncl (seq 0 ncl) s).
  { intros s Hs. destruct (Forall2_in_r_ex _ _ _ s HF' Hs) as (o & _ & (Hin & _ & H3 & H4 & H7)). split; [exact H3|]. split; [intros x Hx; apply (Hres x); now apply H4|].
    destruct H7 as (L7 & W7 & K7). split; [congruence|]. destruct Hcnt as (_ & ws & Fw & Ew).
    exists (map (fun k => match find (fun mc => snd mc =? k) (combine (readout opt (pl o)) cl) with Some mc => fst mc | None => nth k ws 0 end) (seq 0 ncl)).
    assert (Lw : length ws = ncl) by (apply (f_equal (@length R)) in Ew; unfold classical_read in Ew; rewrite !map_length, seq_length in Ew; congruence).
    destruct (Hvl o Hin) as [Lv Fv]. rewrite Forall_forall in Fv.
    split.
    - apply Forall_forall. intros z Hz. apply in_map_iff in Hz. destruct Hz as (k & <- & Hk). apply in_seq in Hk.
      destruct (find _ _) as [mc|] eqn:Ef.
      + apply find_some in Ef. destruct Ef as [Ef _]. destruct mc as [m k']. apply in_combine_l in Ef. unfold readout in Ef. apply in_map_iff in Ef. destruct Ef as (ch & <- & Hch). cbn [fst]. apply Fv, nth_In. rewrite Lv. now apply Hopt.
      + rewrite Forall_forall in Fw. apply Fw, nth_In. lia.
    - unfold classical_read. rewrite map_map. apply map_ext_in. intros k Hk. apply in_seq in Hk. destruct (find _ _) as [mc|] eqn:Ef.
      + apply find_some in Ef. destruct Ef as [Ef Ek]. apply Nat.eqb_eq in Ek. destruct mc as [m k']. cbn [fst snd] in *. subst k'.
        destruct (In_nth _ _ (0, 0) Ef) as (i & Hi & Ei). rewrite combine_length in Hi. rewrite combine_nth in Ei by (unfold readout; rewrite map_length; lia). injection Ei as Em Ek.
        rewrite <- Ek, <- Em. apply W7; lia.
      + rewrite K7.
        * assert (E1 : nth k (classical_read (seq 0 ncl) (snd it)) (nth 0 (s_classical (snd it)) 0%R) = nth k (s_classical (snd it)) 0%R).
          { unfold classical_read. rewrite (map_nth (fun c0 => nth c0 (s_classical (snd it)) 0%R)). now rewrite seq_nth by lia. }
          rewrite <- E1, Ew. rewrite (nth_indep _ _ (INR 0)) by (rewrite map_length; lia). apply map_nth.
        * intros Hin'. destruct (In_nth _ _ 0 Hin') as (i & Hi & Ei).
          assert (Hc' : In (nth i (readout opt (pl o)) 0, k) (combine (readout opt (pl o)) cl)).
          { rewrite <- Ei. rewrite <- (combine_nth (readout opt (pl o)) cl i 0 0) by (unfold readout; rewrite map_length; lia). apply nth_In. rewrite combine_length. unfold readout. rewrite map_length. lia. }
          pose proof (find_none _ _ Ef _ Hc') as Hf. cbn [snd] in Hf. now rewrite Nat.eqb_refl in Hf. }
  assert (Hitems : forall it', In it' (co_items cs') -> In (snd it') sts) by (intros it' H; now apply in_map).
  assert (Hex : exists it', In it' (co_items cs')).
  { destruct (co_items cs') as [|it' r] eqn:Eit; [|exists it'; now left]. exfalso. unfold sts in HF'. cbn [map] in HF'. inversion HF'. now subst. }
  assert (Htot : Rsum os (outcome_value settings) = 1%R).
  { rewrite (Rsum_perm _ _ _ Hperm), <- Lset. apply (C42_total settings _ Hok). intros o Ho. rewrite Lset in Ho.
    apply (Permutation_in _ (Permutation_sym Hperm)) in Ho. clear - HF Ho Hok. induction HF as [|o' s os out (x & vs' & H1 & _) _ IH]; [destruct Ho|]. destruct Ho as [->|Ho]; [|now apply IH].
    unfold outcome_value. rewrite <- (outcome_unique _ _ _ Hok H1). exact H1. }
  assert (Hlw : label_weight l sts = w).
  { transitivity (w * Rsum os (outcome_value settings))%R; [|rewrite Htot; ring]. unfold label_weight. clear - HF'. induction HF' as [|o s os out (_ & H2 & H3 & _) _ IH]; [cbn; ring|].
    rewrite !Rsum_cons, IH, H3, (keq_refl leqb leqb_spec), H2. ring. }
  destruct (C51_correlations rndp ord cs' (map (fun mm => (nth (fst mm) cl 0, nth (snd mm) cl 0)) mms) []) as (d & Ed & NDd & Hd & Hval); auto.
  - rewrite ED'. lia.
  - now rewrite ED'.
  - destruct Hex as (it' & Hit'). exists it'. split; [exact Hit'|]. now apply (Hall (snd it')), Hitems.
  - rewrite ED', Encl'. apply Forall_forall. intros it' Hit'. apply (Hall (snd it')). now apply Hitems.
  - rewrite Encl'. apply Forall_map. eapply Forall_impl; [|exact Hmm]. cbn beta. intros mm [H1 H2]. cbn [fst snd]. split; apply Hcl, nth_In; assumption.
  - intros it' Hit'. destruct (Hall (snd it') (Hitems _ Hit')) as [-> _]. fold sts. rewrite Hlw. lra.
  - fold sts in Hval.
    assert (Ed' : exists xs, d = [(l, xs)]).
    { destruct Hex as (it' & Hit'). assert (Hl : In l (map fst d)) by (apply Hd; exists it'; split; [exact Hit'|split; [now left|apply Hall; now apply Hitems]]).
      destruct d as [|[l1 xs1] d']; [destruct Hl|]. assert (H1 : l1 = l). { destruct (proj1 (Hd l1) (or_introl eq_refl)) as (it2 & H2 & _ & <-). apply Hall. now apply Hitems. }
      subst l1. destruct d' as [|[l2 xs2] d']; [now exists xs1|]. exfalso. cbn [map fst] in NDd. inversion NDd as [|? ? Hn _]; subst. apply Hn. left.
      destruct (proj1 (Hd l2)) as (it2 & H2 & _ & <-); [cbn; tauto|]. symmetry. symmetry. apply Hall. now apply Hitems. }
    destruct Ed' as (xs & ->). exists cs', xs. split; [exact Ev|]. split; [exact Ed|]. specialize (Hval l xs (or_introl eq_refl)). rewrite map_map in Hval. cbn [fst snd] in Hval. rewrite Hlw in Hval. subst xs.
    clear Ed NDd Hd. induction Hmm as [|mm mms [Hm Hm'] _ IH]; cbn [map]; constructor; [|exact IH].
    apply (mean_box_correlation D boxes settings w pl vs os); auto; [lra|now rewrite Lset|].
    unfold Rdiv. rewrite Rmult_assoc, Rinv_l, Rmult_1_r by lra. clear - HF' Hm Hm' Hlen. unfold agree_weight, differ_weight.
    induction HF' as [|o s os sts (_ & H2 & H3 & _ & (_ & W7 & _)) _ IH]; [cbn; ring|]. rewrite !Rsum_cons, <- IH, H3, (keq_refl leqb leqb_spec).
    assert (R1 : forall m, m < length cl -> nth (nth m cl 0) (s_classical s) 0%R = INR (nth (nth m opt 0) (pl o) 0%nat)).
    { intros m H. rewrite W7 by (auto; unfold readout; rewrite map_length; lia). f_equal. unfold readout. rewrite (nth_indep _ 0 (nth 0 (pl o) 0)) by (rewrite map_length; lia). exact (map_nth (fun c0 => nth c0 (pl o) 0) opt 0 m). }
    unfold agree. rewrite !R1 by assumption. destruct (Req_EM_T _ _) as [Ea|Ea].
    + apply INR_eq in Ea. rewrite Ea, Nat.eqb_refl, H2. ring.
    + destruct (Nat.eqb_spec (nth (nth (fst mm) opt 0) (pl o) 0) (nth (nth (snd mm) opt 0) (pl o) 0)) as [Eb|_]; [exfalso; apply Ea; now rewrite Eb|]. rewrite H2. ring.
Qed.
Print Assumptions C55_plotted.
