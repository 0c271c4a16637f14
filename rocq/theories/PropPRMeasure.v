(** Property theorems C42, continued: from the states of a collection to the measured states. *)
From Coq Require Import Reals List Arith Lia Lra Bool Permutation.
From Coquelicot Require Import Complex.
From Verif Require Import Prelude NamesModel NamesSpec NamesProofs FockModel FockSpec FockProofs GateProofs StateModel StateSpec StateProofs
  ApplyProofs CollectionModel CollectionSpec EvalModel EvalSpec EvalProofs MeasureSpec MeasureProofs WfProofs PropState PropMeasure PropEval PropReshape PropBridge OperatorModel OperatorSpec PropOperator PRModel PRSpec PropPR.
Import ListNotations.

Lemma sqrt_pow_half d : sqrt ((1 / 2) ^ d) = (sqrt (1 / 2) ^ d)%R.
Proof.
  induction d as [|d IH]; [apply sqrt_1|]. cbn [pow]. rewrite sqrt_mult, IH; [reflexivity|lra|apply pow_le; lra].
Qed.
Lemma amplitude_settings ps : forall o w, length o = length ps -> length w = length ps ->
  amplitude_of ps o w = (settings_amplitude ps o w * RtoC (sqrt ((1 / 2) ^ length ps)))%C.
Proof.
  induction ps as [|p ps IH]; intros [|[s t] o] [|i w] Ho Hw; try discriminate; [cbn; rewrite sqrt_1; ring|]. cbn [amplitude_of settings_amplitude length].
  rewrite IH by (cbn in *; lia). rewrite !sqrt_pow_half. cbn [pow]. rewrite RtoC_mult. ring.
Qed.

(** ** The configurations per outcome *)
Definition entry (nm : name) (x : state * pr_info) : list (list nat * C) :=
  match dget leqb nm (s_comps (fst x)) with
  | Some c => [(pr_config (snd x), (fst c * RtoC (sqrt (s_cum (fst x))))%C)]
  | None => []
  end.
Definition opt_list {A} (l : list A) : option (list A) := match l with [] => None | _ => Some l end.
Definition or_empty {A} (o : option (list A)) : list A := match o with Some l => l | None => [] end.

Lemma group_components cfg cum : forall (comps : list (name * (C * R))) groups, NoDup (map fst comps) -> NoDup (dkeys groups) ->
  (forall nm d, In nm (map fst comps) -> dget leqb nm groups = Some d -> ~ In cfg (map fst d)) ->
  NoDup (dkeys (fold_left (group_component cfg cum) comps groups)) /\
  forall nm, dget leqb nm (fold_left (group_component cfg cum) comps groups) =
    match dget leqb nm comps with
    | None => dget leqb nm groups
    | Some c => Some (or_empty (dget leqb nm groups) ++ [(cfg, (fst c * RtoC (sqrt cum))%C)])
    end.
Proof.
  intros cs. induction cs as [|[n1 c1] cs IH]; intros g ND NDg Hf; cbn [fold_left]; [split; [exact NDg|reflexivity]|].
  cbn [map fst] in ND. inversion ND as [|? ? Hn1 ND']; subst.
  assert (H1 : group_component cfg cum g (n1, c1) = dset leqb n1 (or_empty (dget leqb n1 g) ++ [(cfg, (fst c1 * RtoC (sqrt cum))%C)]) g).
  { unfold group_component. cbn [fst snd]. destruct (dget leqb n1 g) as [d|] eqn:E; [|reflexivity]. cbn [or_empty].
    rewrite (dset_fresh leqb leqb_spec cfg); [reflexivity|]. apply (Hf n1); [now left|exact E]. }
  rewrite H1. destruct (IH (dset leqb n1 (or_empty (dget leqb n1 g) ++ [(cfg, (fst c1 * RtoC (sqrt cum))%C)]) g)) as [I1 I2]; auto.
  - now apply (dset_NoDup leqb leqb_spec).
  - intros nm d Hin. rewrite (dget_dset_other leqb leqb_spec) by (intros ->; contradiction). apply Hf. now right.
  - split; [exact I1|]. intros nm. rewrite I2. cbn [dget]. destruct (leqb nm n1) eqn:E.
    + apply leqb_spec in E. subst nm. assert (E0 : dget leqb n1 cs = None) by now apply (dget_none_iff leqb leqb_spec). rewrite E0. now rewrite (dget_dset_same leqb leqb_spec).
    + assert (Hne : nm <> n1) by (intros ->; rewrite (keq_refl leqb leqb_spec) in E; discriminate). now rewrite (dget_dset_other leqb leqb_spec) by exact Hne.
Qed.

Lemma group_configurations_spec : forall l, Forall (fun x => pr_info_of (fst x) = Some (snd x) /\ NoDup (map fst (s_comps (fst x)))) l ->
  NoDup (map (fun x => pr_config (snd x)) l) ->
  exists groups, group_configurations (map fst l) = Some groups /\ NoDup (dkeys groups) /\
    forall nm, dget leqb nm groups = opt_list (flat_map (entry nm) l).
Proof.
  intros l. induction l as [|x l IH] using rev_ind; intros HF ND; [exists []; split; [reflexivity|split; [constructor|reflexivity]]|].
  apply Forall_app in HF. destruct HF as [HF Hx]. inversion Hx as [|? ? [Hi Hc] _]; subst. rewrite map_app in ND. cbn [map] in ND.
  assert (NDl : NoDup (map (fun x => pr_config (snd x)) l)) by (apply NoDup_remove_1 in ND; now rewrite app_nil_r in ND).
  assert (Hnx : ~ In (pr_config (snd x)) (map (fun x => pr_config (snd x)) l)) by (apply NoDup_remove_2 in ND; now rewrite app_nil_r in ND).
  destruct (IH HF NDl) as (groups & E & NDg & Hg).
  assert (Hfresh : forall nm d, In nm (map fst (s_comps (fst x))) -> dget leqb nm groups = Some d -> ~ In (pr_config (snd x)) (map fst d)).
  { intros nm d _ Ed Hin. rewrite Hg in Ed. apply Hnx. assert (Ed' : d = flat_map (entry nm) l) by (destruct (flat_map (entry nm) l); [discriminate|now injection Ed]). subst d.
    apply in_map_iff in Hin. destruct Hin as ([cfg a] & Ec & Hin). cbn in Ec. subst cfg. apply in_flat_map in Hin. destruct Hin as (y & Hy & Hin). apply in_map_iff. exists y. split; [|exact Hy].
    unfold entry in Hin. destruct (dget leqb nm (s_comps (fst y))); [|destruct Hin]. destruct Hin as [Hin|[]]. now injection Hin. }
  destruct (group_components (pr_config (snd x)) (s_cum (fst x)) (s_comps (fst x)) groups Hc NDg Hfresh) as [G1 G2].
  exists (fold_left (group_component (pr_config (snd x)) (s_cum (fst x))) (s_comps (fst x)) groups). split.
  - unfold group_configurations in *. rewrite map_app, fold_left_app. cbn [map fold_left].
    etransitivity; [|reflexivity]. match goal with |- match ?a with _ => _ end = _ => replace a with (Some groups) by (symmetry; exact E) end. now rewrite Hi.
  - split; [exact G1|]. intros nm. rewrite G2, Hg, flat_map_app. cbn [flat_map]. rewrite app_nil_r. unfold entry at 4.
    destruct (dget leqb nm (s_comps (fst x))) as [c|]; [|now rewrite app_nil_r].
    destruct (flat_map (entry nm) l) as [|y r] eqn:Ef; cbn [opt_list or_empty app]; reflexivity.
Qed.

(** ** The measured states of one input state *)
Lemma values_valid_name D vs : valid D vs -> 1 <= dL D -> values_of_name D (name_string D vs) = vs.
Proof. intros Hv HL. apply values_of_name_string; auto. apply Hv. Qed.
Lemma write_values cl : forall opt vs old,
  fold_left (fun l (p : nat * nat) => set_nth l (fst p) (INR (nth (snd p) vs 0%nat))) (combine cl opt) old = write_classical cl (readout opt vs) old.
Proof.
  unfold write_classical, readout. induction cl as [|c cl IH]; intros [|o opt] vs old; try reflexivity. cbn [combine map fold_left fst snd]. apply IH.
Qed.
Lemma Forall2_combine {A B} (P : A -> B -> Prop) l m : Forall2 P l m -> Forall (fun x => P (fst x) (snd x)) (combine l m).
Proof. induction 1; cbn; constructor; auto. Qed.
Lemma name_inj D us vs : valid D us -> valid D vs -> name_string D us = name_string D vs -> us = vs.
Proof. intros [_ Hu] [_ Hv]. now apply name_string_inj. Qed.

Lemma measured_group D eps ncl ps id label weight place opt cl sts : 1 <= dL D ->
  pr_ready D eps ncl ps id label weight place sts ->
  (forall c, In c opt -> c < dN D) -> (forall c, In c cl -> c < ncl) -> NoDup cl ->
  exists st rest os out, sts = st :: rest /\ pr_measure_group D eps ncl opt cl sts = Some out /\
    Permutation os (all_outcomes (length ps)) /\ Forall2 (pr_reported D ps label weight opt cl place st) os out.
Proof.
  intros HL [ [Hps Hok] Hw Hplace (ws & NDw & Hws & HF) ] Hopt Hcl NDcl.
  set (info := fun w => PRInfo id w (map p_q ps) label weight).
  assert (Hinfo : forall w st, In (w, st) (combine ws sts) -> pr_info_of st = Some (info w)).
  { intros w st Hin. apply Forall2_combine in HF. rewrite Forall_forall in HF. destruct (HF _ Hin) as (Ha & ND & _). cbn [fst snd] in *. unfold pr_info_of.
    rewrite (dget_in aux_eqb aux_eqb_spec _ _ _ ND Ha). reflexivity. }
  assert (Llen : length ws = length sts) by (clear - HF; induction HF; cbn; lia).
  set (l := map (fun x : list nat * state => (snd x, info (fst x))) (combine ws sts)).
  assert (El : map fst l = sts).
  { unfold l. rewrite map_map. cbn. clear - Llen. revert sts Llen. induction ws as [|w ws IH]; intros [|st sts] E; try discriminate; [reflexivity|]. cbn. f_equal. apply IH. now injection E. }
  assert (Ec : map (fun x => pr_config (snd x)) l = ws).
  { unfold l. rewrite map_map. cbn. clear - Llen. revert sts Llen. induction ws as [|w ws IH]; intros [|st sts] E; try discriminate; [reflexivity|]. cbn. f_equal. apply IH. now injection E. }
  destruct (group_configurations_spec l) as (groups & Eg & NDg & Hg).
  { unfold l. apply Forall_forall. intros x Hx. apply in_map_iff in Hx. destruct Hx as ([w st] & <- & Hin). cbn [fst snd]. split; [now apply Hinfo|].
    apply Forall2_combine in HF. rewrite Forall_forall in HF. destruct (HF _ Hin) as (_ & _ & _ & [ND _] & _). exact ND. }
  { rewrite Ec. exact NDw. }
  rewrite El in Eg.
  (* the dictionary of an outcome *)
  assert (Hdict : forall o, In o (all_outcomes (length ps)) -> amplitudes_in ps o (flat_map (entry (name_string D (place o))) l)).
  { intros o Ho. pose proof Ho as Ho'. apply all_outcomes_spec in Ho'. destruct Ho' as [Lo _].
    assert (Hfst : forall w, In w (map fst (flat_map (entry (name_string D (place o))) l)) -> In w ws).
    { intros w H. rewrite <- Ec. apply in_map_iff in H. destruct H as ([w' a] & E & H). cbn in E. subst w'. apply in_flat_map in H. destruct H as (x & Hx & H). apply in_map_iff. exists x. split; [|exact Hx].
      unfold entry in H. destruct (dget _ _ _); [|destruct H]. destruct H as [H|[]]. now injection H. }
    split; [|split].
    - clear - Ec NDw. rewrite <- Ec in NDw. clear Ec. induction l as [|x l IH]; [constructor|]. cbn [map flat_map] in *. inversion NDw; subst. unfold entry at 1.
      destruct (dget _ _ _); cbn [app map fst]; [|now apply IH]. constructor; [|now apply IH]. intros Hin. apply in_map_iff in Hin. destruct Hin as ([w a] & E & Hin). cbn in E.
      match goal with H : ~ In _ _ |- _ => apply H end. apply in_flat_map in Hin. destruct Hin as (y & Hy & Hin). apply in_map_iff. exists y. split; [|exact Hy].
      unfold entry in Hin. destruct (dget _ _ _); [|destruct Hin]. destruct Hin as [Hin|[]]. injection Hin as Hin _. congruence.
    - intros w a H. assert (Hwin : In w ws) by (apply Hfst; change w with (fst (w, a)); now apply in_map). apply Hws in Hwin. destruct Hwin as [Lw Fw]. split; [exact Lw|]. split; [exact Fw|].
      apply in_flat_map in H. destruct H as (x & Hx & H). unfold l in Hx. apply in_map_iff in Hx. destruct Hx as ([w' st] & <- & Hin). unfold entry in H. cbn [fst snd info pr_config] in H.
      apply Forall2_combine in HF. rewrite Forall_forall in HF. destruct (HF _ Hin) as (_ & _ & _ & _ & Hcum & _ & Hamp). cbn [fst snd] in *. specialize (Hamp o Ho). unfold amp_of, amplitude in Hamp.
      destruct (dget leqb (name_string D (place o)) (s_comps st)) as [c|]; [|destruct H]. destruct H as [H|[]]. injection H as H1 H2. subst w' a. rewrite Hamp, Hcum. symmetry. now apply amplitude_settings.
    - intros w Lw Fw Hn. assert (Hwin : In w ws) by (apply Hws; auto). assert (Hst : exists st, In (w, st) (combine ws sts)).
      { clear - Hwin Llen. revert sts Llen. induction ws as [|w' ws IH]; intros [|st sts] E; try discriminate; [destruct Hwin|]. destruct Hwin as [->|Hin]; [exists st; now left|]. destruct (IH Hin sts) as (st' & H); [now injection E|]. exists st'. now right. }
      destruct Hst as (st & Hin). apply Forall2_combine in HF. rewrite Forall_forall in HF. destruct (HF _ Hin) as (_ & _ & _ & _ & _ & _ & Hamp). cbn [fst snd] in *. specialize (Hamp o Ho).
      rewrite amplitude_settings by auto. rewrite <- Hamp. unfold amp_of, amplitude. destruct (dget leqb (name_string D (place o)) (s_comps st)) as [c|] eqn:E; [|ring]. exfalso. apply Hn.
      apply in_map_iff. exists (w, (fst c * RtoC (sqrt (s_cum st)))%C). split; [reflexivity|]. apply in_flat_map. exists (st, info w). split; [unfold l; apply in_map_iff; exists (w, st); auto|].
      unfold entry. cbn [fst snd]. rewrite E. now left. }
  assert (Hne : forall o, In o (all_outcomes (length ps)) -> flat_map (entry (name_string D (place o))) l <> []).
  { intros o Ho E. pose proof (Hdict o Ho) as Hd. rewrite E in Hd. destruct (C42_probability ps o [] 1 Hps Hok Ho Hd) as (x & _ & Hx). discriminate. }
  (* names of the groups are the places of the outcomes *)
  assert (Hkey : forall nm, In nm (dkeys groups) -> exists o, In o (all_outcomes (length ps)) /\ nm = name_string D (place o)).
  { intros nm Hin. destruct (dget leqb nm groups) as [d|] eqn:E; [|apply (dget_none_iff leqb leqb_spec) in E; contradiction].
    rewrite Hg in E. destruct (flat_map (entry nm) l) as [|y r] eqn:Ef; [discriminate|]. assert (Hy : In y (flat_map (entry nm) l)) by (rewrite Ef; now left).
    apply in_flat_map in Hy. destruct Hy as (x & Hx & Hy). unfold l in Hx. apply in_map_iff in Hx. destruct Hx as ([w st] & <- & Hin2). unfold entry in Hy. cbn [fst] in Hy.
    match type of Hy with context [match ?t with _ => _ end] => destruct t as [c|] eqn:Ed end; [|destruct Hy]. apply (dget_some_in leqb leqb_spec) in Ed.
    apply Forall2_combine in HF. rewrite Forall_forall in HF. destruct (HF _ Hin2) as (_ & _ & _ & [_ Hwf] & _ & Hpl & _). cbn [fst snd] in *.
    assert (Hnm : In nm (map fst (s_comps st))) by (change nm with (fst (nm, c)); now apply in_map). destruct (Hwf nm Hnm) as (vs & Hvs & ->).
    destruct (Hpl vs Hvs Hnm) as (o & Ho & ->). exists o. auto. }
  (* outcomes in the order of the groups *)
  assert (Hos : exists os, Permutation os (all_outcomes (length ps)) /\ groups = map (fun o => (name_string D (place o), flat_map (entry (name_string D (place o))) l)) os).
  { assert (Hall : forall gs : list (name * list (list nat * C)), (forall g, In g gs -> In g groups) -> exists os, (forall o, In o os -> In o (all_outcomes (length ps))) /\ gs = map (fun o => (name_string D (place o), flat_map (entry (name_string D (place o))) l)) os).
    { induction gs as [|[nm d] gs IH]; intros Hgs; [exists []; split; [intros o []|reflexivity]|]. destruct IH as (os & H1 & H2); [intros; apply Hgs; now right|].
      assert (Hin : In (nm, d) groups) by (apply Hgs; now left). destruct (Hkey nm) as (o & Ho & ->); [change nm with (fst (nm, d)); now apply in_map|].
      pose proof (dget_in leqb leqb_spec _ _ _ NDg Hin) as E. rewrite Hg in E. exists (o :: os). split; [intros o' [<-|H]; auto|]. cbn [map]. rewrite <- H2. f_equal. f_equal.
      destruct (flat_map (entry (name_string D (place o))) l); [discriminate|now injection E]. }
    destruct (Hall groups (fun g H => H)) as (os & H1 & H2). exists os. split; [|exact H2].
    apply NoDup_Permutation.
    - rewrite H2 in NDg. unfold dkeys in NDg. rewrite map_map in NDg. cbn [fst] in NDg. eapply NoDup_map_inv. exact NDg.
    - clear. generalize (length ps). induction n as [|n IH]; [repeat constructor; intros []|]. apply NoDup_prefixed; [|exact IH]. repeat constructor; cbn; intuition discriminate.
    - intros o. split; [apply H1|]. intros Ho. assert (Hin : In (name_string D (place o)) (dkeys groups)).
      { destruct (dget leqb (name_string D (place o)) groups) as [d|] eqn:E; [apply (dget_some_in leqb leqb_spec) in E; unfold dkeys; change (name_string D (place o)) with (fst (name_string D (place o), d)); now apply in_map|].
        exfalso. rewrite Hg in E. apply (Hne o Ho). destruct (flat_map _ l); [reflexivity|discriminate]. }
      rewrite H2 in Hin. unfold dkeys in Hin. rewrite map_map in Hin. cbn [fst] in Hin. apply in_map_iff in Hin. destruct Hin as (o' & E & Ho').
      assert (Ev : place o' = place o) by (apply (name_inj D); [apply (Hplace o' o'); auto|apply (Hplace o o); auto|exact E]).
      destruct (Hplace o' o (H1 _ Ho') Ho) as [_ Hinj]. rewrite <- (Hinj Ev). exact Ho'. }
  destruct Hos as (os & Hperm & Egroups).
  destruct sts as [|st rest]; [exfalso|].
  { assert (H0 : In (repeat 0 (length ps)) ws) by (apply Hws; split; [apply repeat_length|]; apply Forall_forall; intros x Hx; apply repeat_spec in Hx; lia). destruct ws; [destruct H0|discriminate]. }
  exists st, rest, os. destruct ws as [|w0 ws]; [discriminate|]. assert (Hi0 : pr_info_of st = Some (info w0)) by (apply Hinfo; now left).
  assert (Hchk : check_state eps ncl st = true) by (inversion HF as [|? ? ? ? H1 _]; subst; apply H1). clear HF Hws NDw Ec.
  set (px := fun o => fold_right (fun z r => pair_value (fst z) (snd z) * r)%R 1%R (combine ps o)).
  assert (Hin_os : forall o, In o os -> In o (all_outcomes (length ps))) by (intros o Ho; apply (Permutation_in _ Hperm Ho)).
  assert (Ehisto : pr_histogram (st :: rest) = Some (map (fun o => (name_string D (place o), (px o * weight)%R)) os)).
  { unfold pr_histogram. rewrite Hi0, Eg. cbn [info pr_quantumness pr_weight]. rewrite Egroups, map_map. cbn [fst snd].
    apply option_list_all. intros o Ho. rewrite (outcome_probability_value ps o) by auto. reflexivity. }
  assert (Hhas : forall o, In o (all_outcomes (length ps)) -> outcome_has ps o (px o)).
  { intros o Ho. destruct (C42_probability ps o _ 1 Hps Hok Ho (Hdict o Ho)) as (x & Hx & _). pose proof (outcome_unique _ _ _ Hok Hx) as E. unfold px. rewrite <- E. exact Hx. }
  unfold pr_measure_group. rewrite Hi0, Ehisto. cbn [info pr_label]. rewrite map_map.
  assert (Lc : length (s_classical st) = ncl).
  { unfold check_state in Hchk. apply andb_prop in Hchk. destruct Hchk as [_ Hc]. now apply Nat.eqb_eq in Hc. }
  set (res := fun o => let cl' := write_classical cl (readout opt (place o)) (s_classical st) in
     State label (px o * weight)%R [(name_string D (place o), (RtoC 1, 1%R))] cl' (s_results st ++ [(cl', (px o * weight)%R)]) (ddel aux_eqb AuxPopescuRohrlich (s_aux st))).
  exists (map res os). split; [reflexivity|]. split.
  - apply option_list_all. intros o Ho. apply Hin_os in Ho. unfold pr_measured_state. cbn [fst snd].
    unfold copy_state, make_state. assert (Ec : check_state eps ncl (with_aux (with_init st label) (ddel aux_eqb AuxPopescuRohrlich (s_aux st))) = true) by exact Hchk. rewrite Ec.
    destruct (C42_range ps o (px o) Hok Ho (Hhas o Ho)) as [[R0 _] R1]. unfold set_cumulative.
    destruct (Rle_dec 0 (px o * weight)) as [_|H]; [|exfalso; apply H; nra]. destruct (Rle_dec (px o * weight) 1) as [_|H]; [|exfalso; apply H; nra].
    assert (E1 : forallb (fun c => c <? ncl) (map fst (combine cl opt)) = true).
    { apply forallb_forall. intros c Hc. apply in_map_iff in Hc. destruct Hc as ([a b] & E & Hc). cbn in E. subst a. apply in_combine_l in Hc. apply Nat.ltb_lt. auto. }
    assert (E2 : forallb (fun c => c <? dN D) (map snd (combine cl opt)) = true).
    { apply forallb_forall. intros c Hc. apply in_map_iff in Hc. destruct Hc as ([a b] & E & Hc). cbn in E. subst b. apply in_combine_r in Hc. apply Nat.ltb_lt. auto. }
    rewrite E1, E2. cbn [andb]. f_equal. unfold res. cbn [s_classical s_init s_cum s_results s_aux with_cum with_aux with_init]. rewrite write_values.
    rewrite (values_valid_name D (place o)) by (auto; apply (Hplace o o); auto). reflexivity.
  - split; [exact Hperm|]. clear Hperm Ehisto Egroups. induction os as [|o os IH]; cbn [map]; constructor; [|apply IH; intros; apply Hin_os; now right].
    exists (px o). split; [apply Hhas, Hin_os; now left|]. unfold res. cbn [s_cum s_init s_comps s_classical s_results s_aux].
    split; [reflexivity|]. split; [reflexivity|]. split; [reflexivity|]. split; [apply write_classical_written; [exact NDcl|intros c Hc; rewrite Lc; auto]|]. split; [reflexivity|].
    intros a. unfold ddel. rewrite filter_In. split; intros [Ha Hb]; (split; [exact Ha|]).
    + intros E. rewrite E in Hb. discriminate.
    + destruct a as [k v]. cbn [fst] in *. destruct k; try reflexivity. now contradiction Hb.
Qed.

(** ** The collection *)
Lemma pr_groups_app id l : forall gs, Forall (fun st => exists i, pr_info_of st = Some i /\ pr_id i = id) l -> ~ In id (dkeys gs) -> l <> [] ->
  fold_left (fun (acc : option (list (ident * list state))) (st : state) =>
    match acc, pr_info_of st with
    | Some gs, Some i => Some (match dget leqb (pr_id i) gs with Some l => dset leqb (pr_id i) (l ++ [st]) gs | None => dset leqb (pr_id i) [st] gs end)
    | _, _ => None
    end) l (Some gs) = Some (gs ++ [(id, l)]).
Proof.
  intros gs HF Hn Hne. destruct l as [|st l]; [contradiction|]. inversion HF as [|? ? (i & Ei & Hid) HF']; subst. cbn [fold_left]. rewrite Ei.
  assert (E0 : dget leqb (pr_id i) gs = None) by now apply (dget_none_iff leqb leqb_spec). rewrite E0. rewrite (dset_fresh leqb leqb_spec) by exact Hn.
  clear HF Hne. change (st :: l) with ([st] ++ l). generalize [st]. clear st Ei E0. rename HF' into HF. revert Hn. set (id := pr_id i) in *. clearbody id. clear i. intros Hn.
  induction l as [|st l IH]; intros m; [now rewrite app_nil_r|]. inversion HF as [|? ? (i & Ei & Hid) HF']; subst. cbn [fold_left]. rewrite Ei.
  assert (E1 : dget leqb (pr_id i) (gs ++ [(pr_id i, m)]) = Some m).
  { assert (ND : dget leqb (pr_id i) (gs ++ [(pr_id i, m)]) = Some m); [|exact ND]. clear - Hn. induction gs as [|[k v] gs IH]; cbn [app dget].
    - now rewrite (keq_refl leqb leqb_spec).
    - cbn in Hn. destruct (leqb (pr_id i) k) eqn:E; [apply leqb_spec in E; exfalso; apply Hn; now left|]. apply IH. intros H. apply Hn. now right. }
  match goal with |- context [dget ?a ?b ?c] => replace (dget a b c) with (Some m) by (symmetry; exact E1) end.
  assert (E2 : dset leqb (pr_id i) (m ++ [st]) (gs ++ [(pr_id i, m)]) = gs ++ [(pr_id i, m ++ [st])]).
  { clear - Hn. induction gs as [|[k v] gs IH]; cbn [app dset].
    - now rewrite (keq_refl leqb leqb_spec).
    - cbn in Hn. destruct (leqb (pr_id i) k) eqn:E; [apply leqb_spec in E; exfalso; apply Hn; now left|]. f_equal. apply IH. intros H. apply Hn. now right. }
  match goal with |- context [dset ?a ?b ?v ?c] => replace (dset a b v c) with (gs ++ [(pr_id i, m ++ [st])]) by (symmetry; exact E2) end.
  rewrite IH by assumption. now rewrite <- app_assoc.
Qed.
Lemma pr_groups_concat gs : NoDup (map fst gs) -> Forall (fun g => snd g <> [] /\ Forall (fun st => exists i, pr_info_of st = Some i /\ pr_id i = fst g) (snd g)) gs ->
  pr_groups (concat (map snd gs)) = Some gs.
Proof.
  unfold pr_groups. intros ND HF. change gs with ([] ++ gs) at 2. assert (Hdis : forall id, In id (map fst gs) -> ~ In id (dkeys (@nil (ident * list state)))) by (intros ? ? []).
  assert (ND0 : NoDup (map fst gs)) by exact ND. clear ND. revert Hdis. generalize (@nil (ident * list state)) as pre. induction gs as [|[id l] gs IH]; intros pre Hdis; [cbn; now rewrite app_nil_r|].
  inversion HF as [|? ? [Hne Hl] HF']; subst. cbn [fst snd] in *. cbn [map concat fst snd]. rewrite fold_left_app. inversion ND0; subst.
  rewrite (pr_groups_app id l pre Hl) by (auto; apply Hdis; now left).
  assert (Hd' : forall id', In id' (map fst gs) -> ~ In id' (dkeys (pre ++ [(id, l)]))).
  { intros id' Hid' Hin. unfold dkeys in Hin. rewrite map_app in Hin. apply in_app_or in Hin. destruct Hin as [Hin|[E|[]]].
    - revert Hin. apply Hdis. now right.
    - cbn in E. subst. contradiction. }
  etransitivity; [apply IH; assumption|]. now rewrite <- app_assoc.
Qed.
Lemma states_random_map rnd l : forall seed its, map snd (fst (add_states_random rnd seed l its)) = map snd its ++ l.
Proof.
  unfold add_states_random. induction l as [|st l IH]; intros seed its; [cbn; now rewrite app_nil_r|]. cbn [fold_left fst snd].
  destruct (add_state_random rnd seed st its) as [its' seed'] eqn:E. rewrite IH. pose proof (add_state_random_app rnd seed st its) as H. rewrite E in H. cbn [fst] in H. rewrite H, map_app, <- app_assoc. reflexivity.
Qed.
Lemma states_random_nodup rnd l : forall seed its, NoDup (dkeys its) -> NoDup (dkeys (fst (add_states_random rnd seed l its))).
Proof.
  unfold add_states_random. induction l as [|st l IH]; intros seed its ND; [exact ND|]. cbn [fold_left fst snd].
  destruct (add_state_random rnd seed st its) as [its' seed'] eqn:E. apply IH. pose proof (add_state_random_nodup rnd seed st its ND) as H. now rewrite E in H.
Qed.

(** One input state of the gate, behind the optical elements. *)
Record pr_group := Group { g_ps : list pr_pair; g_id : ident; g_label : ident; g_weight : R; g_place : list (nat * nat) -> values; g_states : list state }.
Definition group_ready (D : dims) (eps : R) (ncl : nat) (g : pr_group) : Prop :=
  pr_ready D eps ncl (g_ps g) (g_id g) (g_label g) (g_weight g) (g_place g) (g_states g).

Lemma ready_group_infos D eps ncl g : group_ready D eps ncl g -> g_states g <> [] /\ Forall (fun st => exists i, pr_info_of st = Some i /\ pr_id i = g_id g) (g_states g).
Proof.
  intros [ [Hps Hok] Hw Hplace (ws & NDw & Hws & HF) ]. split.
  - intros E. rewrite E in HF. inversion HF; subst. assert (H0 : In (repeat 0 (length (g_ps g))) []) by (apply Hws; split; [apply repeat_length|]; apply Forall_forall; intros x Hx; apply repeat_spec in Hx; lia). destruct H0.
  - clear - HF. induction HF as [|w st ws sts (Ha & ND & _) _ IH]; constructor; [|exact IH]. eexists. split; [unfold pr_info_of; rewrite (dget_in aux_eqb aux_eqb_spec _ _ _ ND Ha); reflexivity|reflexivity].
Qed.

(** Measuring such a collection gives, for every input state of the gate, one state for every
    outcome: its weight is the weight of the input state times the probability of the outcome, its
    component is the outcome, its classical values are those of the outcome. *)
Theorem C42_measurement rnd0 X rnd c k opt cl cs gs : wf_circuit c -> k < length (c_nodes c) -> node_at c k = NMeasure opt cl ->
  (forall n, In n opt -> n < dN (c_D c)) -> (forall n, In n cl -> n < c_ncl c) -> NoDup cl ->
  co_D cs = c_D c -> co_eps cs = c_eps c -> co_ncl cs = c_ncl c ->
  Forall (group_ready (c_D c) (c_eps c) (c_ncl c)) gs -> NoDup (map g_id gs) ->
  map snd (co_items cs) = concat (map g_states gs) ->
  (exists it, In it (co_items cs) /\ forall x, ~ In (AuxPhotonResolution, x) (s_aux (snd it))) ->
  exists cs' outs, evaluate_nodes (with_pr rnd0 X) rnd c [k] cs = Ok cs' /\ NoDup (map fst (co_items cs')) /\
    (co_D cs' = c_D c /\ co_eps cs' = c_eps c /\ co_ncl cs' = c_ncl c) /\ map snd (co_items cs') = concat outs /\
    Forall2 (fun g out => exists st os, In st (g_states g) /\ Permutation os (all_outcomes (length (g_ps g))) /\
       Forall2 (pr_reported (c_D c) (g_ps g) (g_label g) (g_weight g) opt cl (g_place g) st) os out) gs outs.
Proof.
  intros Hc Hk En Hopt Hcl NDcl ED Eeps Encl HG NDid Hst Hres. pose proof Hc as (HL & _).
  assert (HI : Forall (fun g => g_states g <> [] /\ Forall (fun st => exists i, pr_info_of st = Some i /\ pr_id i = g_id g) (g_states g)) gs).
  { eapply Forall_impl; [|exact HG]. intros g Hg. eapply ready_group_infos. exact Hg. }
  assert (EG : pr_groups (map snd (co_items cs)) = Some (map (fun g => (g_id g, g_states g)) gs)).
  { rewrite Hst. replace (map g_states gs) with (map snd (map (fun g => (g_id g, g_states g)) gs)) by (rewrite map_map; reflexivity). apply pr_groups_concat.
    - rewrite map_map. exact NDid.
    - apply Forall_forall. intros x Hx. apply in_map_iff in Hx. destruct Hx as (g & <- & Hin). cbn [fst snd]. rewrite Forall_forall in HI. now apply HI. }
  assert (EO : exists outs, option_list (map (fun g => pr_measure_group (c_D c) (c_eps c) (c_ncl c) opt cl (g_states g)) gs) = Some outs /\
    Forall2 (fun g out => exists st os, In st (g_states g) /\ Permutation os (all_outcomes (length (g_ps g))) /\
       Forall2 (pr_reported (c_D c) (g_ps g) (g_label g) (g_weight g) opt cl (g_place g) st) os out) gs outs).
  { clear - HG HL Hopt Hcl NDcl. induction HG as [|g gs Hg _ (outs & E & HF)]; [exists []; split; [reflexivity|constructor]|].
    destruct (measured_group (c_D c) (c_eps c) (c_ncl c) _ _ _ _ _ opt cl _ HL Hg Hopt Hcl NDcl) as (st & rest & os & out & E1 & E2 & HP & HR).
    exists (out :: outs). cbn [map option_list]. rewrite E2, E. split; [reflexivity|]. constructor; [|exact HF]. exists st, os. split; [rewrite E1; now left|auto]. }
  destruct EO as (outs & EO & HO).
  exists (with_items cs (fst (add_states_random rnd0 0 (concat outs) []))), outs. split.
  - rewrite evaluate_single by (rewrite ?En; auto). unfold run_node. rewrite En, (all_have_false _ _ Hres).
    assert (EA : all_have AuxPopescuRohrlich (co_items cs) = true).
    { unfold all_have. apply forallb_forall. intros it Hit. assert (Hin : In (snd it) (concat (map g_states gs))) by (rewrite <- Hst; now apply in_map).
      apply in_concat in Hin. destruct Hin as (l & Hl & Hin). apply in_map_iff in Hl. destruct Hl as (g & <- & Hg). rewrite Forall_forall in HI. destruct (HI _ Hg) as [_ Hi]. rewrite Forall_forall in Hi.
      destruct (Hi _ Hin) as (i & Ei & _). unfold pr_info_of in Ei. unfold dmem. destruct (dget aux_eqb AuxPopescuRohrlich (s_aux (snd it))); [reflexivity|discriminate]. }
    rewrite EA. cbn [with_pr x_pr]. unfold pr_measure.
    match goal with |- context [pr_groups ?x] => replace (pr_groups x) with (Some (map (fun g => (g_id g, g_states g)) gs)) by (symmetry; exact EG) end.
    rewrite map_map. cbn [snd]. rewrite ED, Eeps, Encl. rewrite EO. reflexivity.
  - cbn [with_items co_items]. split; [apply states_random_nodup; constructor|]. split; [now split|]. split; [apply states_random_map|exact HO].
Qed.

(** The weights of the measured states add up to those of the input states of the gate. *)
Theorem C42_measured_weight rnd0 X rnd c k opt cl cs gs cs' : wf_circuit c -> k < length (c_nodes c) -> node_at c k = NMeasure opt cl ->
  (forall n, In n opt -> n < dN (c_D c)) -> (forall n, In n cl -> n < c_ncl c) -> NoDup cl ->
  co_D cs = c_D c -> co_eps cs = c_eps c -> co_ncl cs = c_ncl c ->
  Forall (group_ready (c_D c) (c_eps c) (c_ncl c)) gs -> NoDup (map g_id gs) ->
  map snd (co_items cs) = concat (map g_states gs) ->
  (exists it, In it (co_items cs) /\ forall x, ~ In (AuxPhotonResolution, x) (s_aux (snd it))) ->
  evaluate_nodes (with_pr rnd0 X) rnd c [k] cs = Ok cs' ->
  Rsum (co_items cs') (fun it => s_cum (snd it)) = Rsum gs g_weight.
Proof.
  intros Hc Hk En Hopt Hcl NDcl ED Eeps Encl HG NDid Hst Hres E.
  destruct (C42_measurement rnd0 X rnd c k opt cl cs gs Hc Hk En Hopt Hcl NDcl ED Eeps Encl HG NDid Hst Hres) as (cs1 & outs & E1 & _ & _ & E2 & HF).
  rewrite E in E1. injection E1 as ->. transitivity (Rsum (map snd (co_items cs1)) s_cum); [now rewrite Rsum_map|]. rewrite E2.
  clear - HF HG. induction HF as [|g out gs outs (st & os & _ & HP & HR) _ IH]; [reflexivity|]. inversion HG as [|? ? Hg HG']; subst. cbn [concat]. rewrite Rsum_app, Rsum_cons, IH by assumption. f_equal.
  destruct Hg as [ [_ Hok] _ _ _ ].
  assert (EX : Rsum out s_cum = Rsum os (fun o => fold_right (fun z r => pair_value (fst z) (snd z) * r)%R 1%R (combine (g_ps g) o) * g_weight g)%R).
  { clear - HR Hok. induction HR as [|o s os out (x & Hx & Ec & _) _ IH]; [reflexivity|]. rewrite !Rsum_cons, IH, Ec. f_equal. f_equal. now apply outcome_unique. }
  rewrite EX, (Rsum_perm _ _ _ HP).
  transitivity (g_weight g * Rsum (all_outcomes (length (g_ps g))) (fun o => fold_right (fun z r => pair_value (fst z) (snd z) * r)%R 1%R (combine (g_ps g) o)))%R; [rewrite <- Rsum_scal_l; apply Rsum_ext; intros; ring|].
  rewrite (C42_total (g_ps g)); [ring|exact Hok|]. intros o Ho.
  destruct (all_outcomes_spec (length (g_ps g)) o) as [Hs _]. destruct (Hs Ho) as [Lo _].
  replace (fold_right _ 1%R (combine (g_ps g) o)) with (fold_right Rmult 1%R (map (fun x : pr_pair * (nat * nat) => pair_value (fst x) (snd x)) (combine (g_ps g) o))).
  2:{ clear. induction (combine (g_ps g) o) as [|x l IH]; [reflexivity|]. cbn [map fold_right]. now rewrite IH. }
  constructor; [exact Lo|]. assert (HC : Forall (fun x => pair_ok (fst x)) (combine (g_ps g) o)).
  { apply Forall_forall. intros [p st'] Hx. apply in_combine_l in Hx. rewrite Forall_forall in Hok. cbn. auto. }
  clear - HC. induction HC as [|x l Hx _ IH]; cbn [map]; constructor; auto. apply pair_probability_value. apply Hx.
Qed.

(** ** The gate *)
Lemma config_values_spec i : i < 4 -> config_values i = [1 - i / 2; i / 2; 1 - i mod 2; i mod 2].
Proof. intros H. destruct i as [|[|[|[|i]]]]; try reflexivity. lia. Qed.
Lemma config_component_length pairs : forall w vs, length (config_component pairs w vs) = length vs.
Proof.
  unfold config_component. induction pairs as [|p pairs IH]; intros [|i w] vs; try reflexivity. cbn [combine fold_left fst snd]. rewrite IH. apply replace_values_length.
Qed.
Lemma config_component_other pairs c : forall w vs, ~ In c (concat (map fst pairs)) -> nth c (config_component pairs w vs) 0 = nth c vs 0.
Proof.
  unfold config_component. induction pairs as [|p pairs IH]; intros [|i w] vs Hc; try reflexivity. cbn [combine fold_left fst snd map concat] in *. rewrite in_app_iff in Hc.
  rewrite IH by (intros H; apply Hc; now right). apply replace_values_other. intros H. apply Hc. now left.
Qed.
Lemma config_component_at pairs : forall w vs, NoDup (concat (map fst pairs)) -> Forall (fun p => length (fst p) = 4) pairs -> length w = length pairs ->
  Forall (fun i => i < 4) w -> (forall c, In c (concat (map fst pairs)) -> c < length vs) ->
  forall j p, nth_error pairs j = Some p -> selected (fst p) (config_component pairs w vs) = config_values (nth j w 0).
Proof.
  unfold config_component. induction pairs as [|p pairs IH]; intros [|i w] vs ND HF Hl Hw Hc j p' Ej; try discriminate; [destruct j; discriminate|].
  cbn [combine fold_left fst snd map concat] in *. inversion HF; inversion Hw; subst. destruct j as [|j].
  - cbn in Ej. injection Ej as <-. cbn [nth]. 
    transitivity (selected (fst p) (replace_values (fst p) (config_values i) vs)).
    + unfold selected. apply map_ext_in. intros c Hin. fold (config_component pairs w (replace_values (fst p) (config_values i) vs)). apply config_component_other.
      clear - ND Hin. induction (fst p) as [|x l IH]; [destruct Hin|]. cbn [app] in ND. inversion ND; subst. destruct Hin as [->|Hin]; [|now apply IH]. intros H. apply H1. apply in_or_app. now right.
    + apply selected_replace.
      * clear - ND. induction (fst p) as [|x l IH]; [constructor|]. cbn [app] in ND. inversion ND; subst. constructor; [intros H; apply H1; apply in_or_app; now left|now apply IH].
      * rewrite config_values_spec by assumption. cbn [length]. congruence.
      * apply Forall_forall. intros c Hin. apply Hc. apply in_or_app. now left.
  - cbn [nth_error nth] in *. apply IH; auto.
    + clear - ND. induction (fst p) as [|x l IH]; [exact ND|]. cbn [app] in ND. inversion ND; subst. now apply IH.
    + intros c Hin. rewrite replace_values_length. apply Hc. apply in_or_app. now right.
Qed.
Lemma config_component_configured D pairs w vs : good_pairs D pairs -> valid D vs -> length w = length pairs -> Forall (fun i => i < 4) w ->
  configured pairs w vs (config_component pairs w vs).
Proof.
  intros (HF & ND & Hc) [Lv _] Hl Hw. split; [apply config_component_length|]. split; [|intros c H; now apply config_component_other].
  intros j ah av bh bv q Ej. assert (HF4 : Forall (fun p : list nat * R => length (fst p) = 4) pairs) by (eapply Forall_impl; [|exact HF]; now intros ? []).
  assert (Hc' : forall c, In c (concat (map fst pairs)) -> c < length vs) by (intros c H; rewrite Lv; now apply Hc).
  pose proof (config_component_at pairs w vs ND HF4 Hl Hw Hc' j _ Ej) as E.
  rewrite config_values_spec in E.
  - unfold selected in E. cbn [fst map] in E. injection E as E1 E2 E3 E4. auto.
  - rewrite Forall_forall in Hw. apply Hw. apply nth_In. rewrite Hl. apply nth_error_Some. now rewrite Ej.
Qed.
Lemma config_component_valid D pairs : 2 <= dL D -> forall w vs, Forall (fun i => i < 4) w -> valid D vs -> valid D (config_component pairs w vs).
Proof.
  intros HL. unfold config_component. induction pairs as [|p pairs IH]; intros [|i w] vs Hw Hv; try exact Hv. cbn [combine fold_left fst snd]. inversion Hw; subst. apply IH; [assumption|].
  apply replace_values_valid; [exact Hv|]. rewrite config_values_spec by assumption. assert (i / 2 < 2) by (apply Nat.div_lt_upper_bound; lia). assert (i mod 2 < 2) by (apply Nat.mod_upper_bound; lia).
  repeat constructor; lia.
Qed.
Lemma single_component nm a : components_of_list [(nm, a)] = [(nm, (a, Cnorm2 a))].
Proof. reflexivity. Qed.

Lemma dset_keeps {V} (k : auxkey) (v : V) l a : NoDup (map fst l) -> fst a <> k -> (In a (dset aux_eqb k v l) <-> In a l).
Proof.
  intros ND Hk. destruct a as [k' v']. cbn [fst] in Hk. split; intros H.
  - assert (ND' : NoDup (dkeys (dset aux_eqb k v l))) by (apply (dset_NoDup aux_eqb aux_eqb_spec); exact ND).
    pose proof (dget_in aux_eqb aux_eqb_spec _ _ _ ND' H) as E. rewrite (dget_dset_other aux_eqb aux_eqb_spec) in E by auto.
    now apply (dget_some_in aux_eqb aux_eqb_spec).
  - apply (dget_some_in aux_eqb aux_eqb_spec). rewrite (dget_dset_other aux_eqb aux_eqb_spec) by auto. now apply (dget_in aux_eqb aux_eqb_spec).
Qed.
Lemma component_of_name D st c : wf_state D st -> In c (s_comps st) -> exists vs, valid D vs /\ fst c = name_string D vs.
Proof. intros [_ H] Hc. apply H. now apply in_map. Qed.

Lemma contains_valid D vs : valid D vs -> contains_values D vs = true.
Proof.
  intros [Hl Hf]. unfold contains_values. apply andb_true_iff. split; [now apply Nat.eqb_eq|]. apply forallb_forall. intros v Hv. rewrite Forall_forall in Hf. apply Nat.ltb_lt. now apply Hf.
Qed.
Lemma pr_state_prepared D eps ncl rid pairs st w : 2 <= dL D -> good_pairs D pairs -> wf_state D st -> check_state eps ncl st = true ->
  length w = length pairs -> Forall (fun i => i < 4) w ->
  exists s, pr_state D eps ncl rid pairs st w = Some s /\ prepared D pairs rid st w s.
Proof.
  intros HL Hp Hwf Hck Lw Fw. pose proof Hp as (HF & ND & Hc). unfold pr_state, copy_state, make_state. rewrite Hck.
  assert (EF : forallb (fun p : list nat * R => (length (fst p) <=? 4) && forallb (fun c => c <? dN D) (fst p)) pairs = true).
  { apply forallb_forall. intros p Hin. apply andb_true_iff. split.
    - rewrite Forall_forall in HF. destruct (HF _ Hin) as [-> _]. reflexivity.
    - apply forallb_forall. intros x Hx. apply Nat.ltb_lt. apply Hc. apply in_concat. exists (fst p). split; [now apply in_map|exact Hx]. }
  rewrite EF.
  destruct (option_list_exists (fun c : name * (C * R) => let vs := config_component pairs w (values_of_name D (fst c)) in
    if contains_values D vs then Some (name_string D vs, fst (snd c)) else None) (s_comps st)) as (comps & Ecomps).
  { intros c Hin. cbv zeta. destruct (component_of_name D st c Hwf Hin) as (vs & Hvs & ->). rewrite values_valid_name by (auto; lia).
    rewrite (contains_valid D) by (apply config_component_valid; auto). discriminate. }
  match goal with |- context [option_list ?x] => replace (option_list x) with (Some comps) by (symmetry; exact Ecomps) end. cbn [option_map].
  eexists. split; [reflexivity|]. unfold prepared. cbn [s_init s_cum s_classical s_results s_aux s_comps]. split; [reflexivity|]. split; [reflexivity|]. split; [reflexivity|]. split; [reflexivity|]. split.
  { apply (dget_some_in aux_eqb aux_eqb_spec). apply (dget_dset_same aux_eqb aux_eqb_spec). }
  split.
  { intros NDa. split; [apply (dset_NoDup aux_eqb aux_eqb_spec); exact NDa|]. intros a Ha. now apply dset_keeps. }
  intros vs a p Es Hvs. exists (config_component pairs w vs). split; [now apply config_component_valid|]. split; [now apply (config_component_configured D)|].
  rewrite Es in Ecomps. cbn [map fst snd option_list] in Ecomps. rewrite values_valid_name in Ecomps by (auto; lia). rewrite (contains_valid D) in Ecomps by (apply config_component_valid; auto).
  injection Ecomps as <-. reflexivity.
Qed.

(** The gate makes of every state of the collection one state for every configuration: the pair
    channels hold the photons of the configuration, the other channels and the classical values
    are kept, the weight is 2^-d and the configuration, the weight and the label of the input are
    kept as information. *)
Theorem C42_gate X rnd rnd' rid c k pairs cs : k < length (c_nodes c) ->
  node_at c k = popescu_rohrlich_correlation_gate rnd' rid pairs -> good_pairs (co_D cs) pairs -> 2 <= dL (co_D cs) ->
  Forall (fun it => wf_state (co_D cs) (snd it) /\ check_state (co_eps cs) (co_ncl cs) (snd it) = true) (co_items cs) ->
  exists cs' outs ws, evaluate_nodes X rnd c [k] cs = Ok cs' /\ NoDup (map fst (co_items cs')) /\
    co_D cs' = co_D cs /\ co_eps cs' = co_eps cs /\ co_ncl cs' = co_ncl cs /\
    map snd (co_items cs') = concat outs /\
    NoDup ws /\ (forall w, In w ws <-> length w = length pairs /\ Forall (fun i => i < 4) w) /\
    Forall2 (fun jit out => Forall2 (prepared (co_D cs) pairs (rid (fst jit)) (snd (snd jit))) ws out)
      (combine (seq 0 (length (co_items cs))) (co_items cs)) outs.
Proof.
  intros Hk En Hp HL HI.
  set (D := co_D cs) in *.
  assert (EO : exists outs, option_list (map (fun kit : nat * (ident * state) =>
        option_list (map (pr_state D (co_eps cs) (co_ncl cs) (rid (fst kit)) pairs (snd (snd kit))) (all_words (length pairs))))
      (combine (seq 0 (length (co_items cs))) (co_items cs))) = Some outs /\
     Forall2 (fun jit out => Forall2 (prepared D pairs (rid (fst jit)) (snd (snd jit))) (all_words (length pairs)) out)
      (combine (seq 0 (length (co_items cs))) (co_items cs)) outs).
  { assert (HI' : Forall (fun jit : nat * (ident * state) => wf_state D (snd (snd jit)) /\ check_state (co_eps cs) (co_ncl cs) (snd (snd jit)) = true)
      (combine (seq 0 (length (co_items cs))) (co_items cs))).
    { apply Forall_forall. intros [j it] Hin. apply in_combine_r in Hin. rewrite Forall_forall in HI. now apply HI. }
    clear HI. induction HI' as [|jit l [Hw Hck] _ (outs & E & HF)]; [exists []; split; [reflexivity|constructor]|].
    assert (E1 : exists out, option_list (map (pr_state D (co_eps cs) (co_ncl cs) (rid (fst jit)) pairs (snd (snd jit))) (all_words (length pairs))) = Some out /\
      Forall2 (prepared D pairs (rid (fst jit)) (snd (snd jit))) (all_words (length pairs)) out).
    { assert (HW : Forall (fun w => length w = length pairs /\ Forall (fun i => i < 4) w) (all_words (length pairs))) by (apply Forall_forall; intros w; apply all_words_spec).
      clear E HF. induction HW as [|w ws [Lw Fw] _ (out & E2 & HF2)]; [exists []; split; [reflexivity|constructor]|].
      destruct (pr_state_prepared D (co_eps cs) (co_ncl cs) (rid (fst jit)) pairs _ w HL Hp Hw Hck Lw Fw) as (s & Es & Hs).
      exists (s :: out). cbn [map option_list]. rewrite Es, E2. split; [reflexivity|now constructor]. }
    destruct E1 as (out & E1 & HF1). exists (out :: outs). cbn [map option_list]. rewrite E1, E. split; [reflexivity|now constructor]. }
  destruct EO as (outs & EO & HO). exists (with_items cs (fst (add_states_random rnd' 0 (concat outs) []))), outs, (all_words (length pairs)).
  split.
  { rewrite evaluate_single by (auto; now rewrite En). unfold run_node. rewrite En. unfold popescu_rohrlich_correlation_gate, pr_gate. fold D. rewrite EO. reflexivity. }
  cbn [with_items co_items co_D co_eps co_ncl]. split; [apply states_random_nodup; constructor|]. split; [reflexivity|]. split; [reflexivity|]. split; [reflexivity|]. split; [apply states_random_map|].
  split; [apply all_words_NoDup|]. split; [apply all_words_spec|exact HO].
Qed.

(** ** The gate directly followed by detectors *)
Definition digits_of (o : list (nat * nat)) : list nat := map (fun st => 2 * fst st + snd st) o.
Lemma digit_div s t : t < 2 -> (2 * s + t) / 2 = s.
Proof. intros. replace (2 * s + t) with (t + s * 2) by lia. rewrite Nat.div_add by lia. rewrite Nat.div_small by lia. lia. Qed.
Lemma digit_mod s t : t < 2 -> (2 * s + t) mod 2 = t.
Proof. intros. replace (2 * s + t) with (t + s * 2) by lia. rewrite Nat.mod_add by lia. now apply Nat.mod_small. Qed.
Lemma no_setting_unitary : unitary_setting no_setting.
Proof.
  intros [|[|s]] [|[|s']] H H'; try lia; apply C_eq; cbn; ring.
Qed.
Lemma no_settings_amplitude qs : forall o w, length o = length qs -> length w = length qs -> Forall (fun st => fst st < 2 /\ snd st < 2) o -> Forall (fun i => i < 4) w ->
  settings_amplitude (map (fun q => Pair q no_setting no_setting) qs) o w = (if list_eq_dec Nat.eq_dec w (digits_of o) then RtoC 1 else RtoC 0).
Proof.
  induction qs as [|q qs IH]; intros [|[s t] o] [|i w] Ho Hw Fo Fw; try discriminate; [reflexivity|]. inversion Fo as [|? ? [Hs Ht] Fo']; inversion Fw; subst. cbn [map settings_amplitude p_A p_B fst snd] in *.
  rewrite IH by (auto; cbn in *; lia). unfold no_setting.
  assert (Hd : i = 2 * (i / 2) + i mod 2) by (apply Nat.div_mod; lia).
  unfold digits_of in *. cbn [map fst snd].
  destruct (list_eq_dec Nat.eq_dec (i :: w) _) as [E|E].
  - assert (E1 : i = 2 * s + t) by (now apply (f_equal (hd 0)) in E). assert (E2 : w = map (fun st => 2 * fst st + snd st) o) by (now apply (f_equal (@tl nat)) in E). rewrite E1, digit_div, digit_mod, !Nat.eqb_refl by assumption. destruct (list_eq_dec _ _ _); [ring|contradiction].
  - destruct (s =? i / 2) eqn:E1; [|ring]. destruct (t =? i mod 2) eqn:E2; [|ring]. apply Nat.eqb_eq in E1, E2. destruct (list_eq_dec _ _ _) as [E3|]; [|ring].
    exfalso. apply E. rewrite E3. f_equal. lia.
Qed.
Lemma configured_unique D pairs w vs a b : good_pairs D pairs -> configured pairs w vs a -> configured pairs w vs b -> a = b.
Proof.
  intros (HF & _ & _) (La & Pa & Oa) (Lb & Pb & Ob). apply (nth_ext _ _ 0 0); [congruence|]. intros c Hc.
  destruct (in_dec Nat.eq_dec c (concat (map fst pairs))) as [Hin|Hn]; [|now rewrite Oa, Ob].
  apply in_concat in Hin. destruct Hin as (l & Hl & Hcl). apply in_map_iff in Hl. destruct Hl as ([chs q] & E & Hp). cbn [fst] in E. subst chs.
  rewrite Forall_forall in HF. destruct (HF _ Hp) as [Hlen _]. cbn [fst] in Hlen. destruct l as [|ah [|av [|bh [|bv [|? ?]]]]]; try discriminate.
  apply In_nth_error in Hp. destruct Hp as (j & Hj). destruct (Pa _ _ _ _ _ _ Hj) as (A1 & A2 & A3 & A4). destruct (Pb _ _ _ _ _ _ Hj) as (B1 & B2 & B3 & B4).
  destruct Hcl as [<-|[<-|[<-|[<-|[] ] ] ] ]; congruence.
Qed.
Lemma configured_inj D pairs w w' vs a : good_pairs D pairs -> length w = length pairs -> length w' = length pairs -> Forall (fun i => i < 4) w -> Forall (fun i => i < 4) w' ->
  configured pairs w vs a -> configured pairs w' vs a -> w = w'.
Proof.
  intros (HF & _ & _) Lw Lw' Fw Fw' (La & Pa & _) (Lb & Pb & _). apply (nth_ext _ _ 0 0); [congruence|]. intros j Hj.
  destruct (nth_error pairs j) as [ [chs q]|] eqn:E; [|apply nth_error_None in E; lia].
  rewrite Forall_forall in HF. destruct (HF _ (nth_error_In _ _ E)) as [Hlen _]. cbn [fst] in Hlen. destruct chs as [|ah [|av [|bh [|bv [|? ?]]]]]; try discriminate.
  destruct (Pa _ _ _ _ _ _ E) as (_ & A2 & _ & A4). destruct (Pb _ _ _ _ _ _ E) as (_ & B2 & _ & B4).
  rewrite (Nat.div_mod (nth j w 0) 2), (Nat.div_mod (nth j w' 0) 2) by lia. congruence.
Qed.
Lemma digits_spec d o : In o (all_outcomes d) -> length (digits_of o) = d /\ Forall (fun i => i < 4) (digits_of o) /\ length o = d /\ Forall (fun st => fst st < 2 /\ snd st < 2) o.
Proof.
  intros H. apply all_outcomes_spec in H. destruct H as [H1 H2]. unfold digits_of. rewrite map_length. split; [exact H1|]. split; [|now split].
  apply Forall_forall. intros i Hi. apply in_map_iff in Hi. destruct Hi as ([s t] & <- & Hin). rewrite Forall_forall in H2. destruct (H2 _ Hin). cbn in *. lia.
Qed.
Lemma digits_inj d o o' : In o (all_outcomes d) -> In o' (all_outcomes d) -> digits_of o = digits_of o' -> o = o'.
Proof.
  intros H H' E. apply digits_spec in H, H'. destruct H as (_ & _ & L & F), H' as (_ & _ & L' & F'). rewrite <- L in L'. clear L. revert o' L' F' E.
  induction F as [|[s t] o [Hs Ht] _ IH]; intros [|[s' t'] o'] L' F' E; try discriminate; [reflexivity|]. inversion F' as [|? ? [Hs' Ht'] F'']; subst. unfold digits_of in *. cbn [map fst snd] in *.
  assert (E1 : 2 * s + t = 2 * s' + t') by (now apply (f_equal (hd 0)) in E). assert (E2 : map (fun st => 2 * fst st + snd st) o = map (fun st => 2 * fst st + snd st) o') by (now apply (f_equal (@tl nat)) in E).
  f_equal; [f_equal; lia|]. apply IH; auto.
Qed.
Lemma digits_onto d w : length w = d -> Forall (fun i => i < 4) w -> exists o, In o (all_outcomes d) /\ digits_of o = w.
Proof.
  intros L F. exists (map (fun i => (i / 2, i mod 2)) w). split.
  - apply all_outcomes_spec. rewrite map_length. split; [exact L|]. apply Forall_forall. intros x Hx. apply in_map_iff in Hx. destruct Hx as (i & <- & Hi). rewrite Forall_forall in F. specialize (F _ Hi).
    cbn [fst snd]. split; [apply Nat.div_lt_upper_bound; lia|apply Nat.mod_upper_bound; lia].
  - unfold digits_of. rewrite map_map. transitivity (map (fun i => i) w); [|apply map_id]. apply map_ext. intros i. cbn [fst snd]. symmetry. apply Nat.div_mod. lia.
Qed.

(** The states the gate makes of one state with a single component are ready for the measurement:
    every outcome sees the photons of its configuration. *)
Theorem C42_gate_ready D eps ncl pairs rid st vs p ws out : 2 <= dL D -> (0 <= eps)%R -> good_pairs D pairs -> pairs <> [] ->
  s_comps st = [(name_string D vs, (RtoC 1, p))] -> valid D vs -> (0 <= s_cum st <= 1)%R -> length (s_classical st) = ncl -> NoDup (map fst (s_aux st)) ->
  NoDup ws -> (forall w, In w ws <-> length w = length pairs /\ Forall (fun i => i < 4) w) ->
  Forall2 (prepared D pairs rid st) ws out ->
  exists place, (forall o, In o (all_outcomes (length pairs)) -> configured pairs (map (fun st => 2 * fst st + snd st) o) vs (place o)) /\
    pr_ready D eps ncl (map (fun pr => Pair (snd pr) no_setting no_setting) pairs) rid (s_init st) (s_cum st) place out.
Proof.
  intros HL Heps Hp Hne Es Hvs Hcum Hncl NDa NDw Hws HF.
  assert (Hplace : forall o, In o (all_outcomes (length pairs)) -> configured pairs (digits_of o) vs (config_component pairs (digits_of o) vs)).
  { intros o Ho. apply digits_spec in Ho. destruct Ho as (L & F & _). now apply (config_component_configured D). }
  exists (fun o => config_component pairs (digits_of o) vs). split; [exact Hplace|]. constructor.
  - split; [intros E; apply Hne; now apply map_eq_nil in E|]. apply Forall_forall. intros x Hx. apply in_map_iff in Hx. destruct Hx as (pr & <- & Hin). destruct Hp as (HF4 & _). rewrite Forall_forall in HF4. destruct (HF4 _ Hin).
    split; [assumption|]. split; apply no_setting_unitary.
  - exact Hcum.
  - rewrite map_length. intros o o' Ho Ho'. pose proof (Hplace o Ho) as P1. pose proof (Hplace o' Ho') as P2. pose proof (digits_spec _ _ Ho) as (L1 & F1 & _). pose proof (digits_spec _ _ Ho') as (L2 & F2 & _).
    split; [apply config_component_valid; auto|]. intros E. apply (digits_inj _ _ _ Ho Ho'). rewrite E in P1. now apply (configured_inj D pairs _ _ vs (config_component pairs (digits_of o') vs)).
  - rewrite map_length. exists ws. split; [exact NDw|]. split; [exact Hws|]. assert (HF' : Forall2 (fun w s => In w ws /\ prepared D pairs rid st w s) ws out) by (apply (Forall2_in_l (fun w => In w ws)); [apply Forall_forall; auto|exact HF]). eapply Forall2_impl; [|exact HF'].
    intros w s [Hw (Hi & Hc & Hcl & Hr & Ha & Hother & Hcomp)]. apply Hws in Hw. destruct Hw as [Lw Fw]. destruct (Hcomp vs _ _ Es Hvs) as (vs' & Hv' & Hconf & Ec).
    assert (vs' = config_component pairs w vs) as -> by (apply (configured_unique D pairs w vs); auto; now apply (config_component_configured D)).
    split; [rewrite map_map; exact Ha|]. split; [now apply Hother|]. 
    assert (HP : (0 <= (1 / 2) ^ length pairs <= 1)%R).
    { split; [apply pow_le; lra|]. clear. induction (length pairs) as [|d IH]; cbn [pow]; [lra|]. assert (0 <= (1 / 2) ^ d)%R by (apply pow_le; lra). lra. }
    split.
    { unfold check_state. rewrite Hc, Ec, Hcl, Hncl, Nat.eqb_refl. cbn [forallb snd]. unfold Rltb. rewrite Cnorm2_RtoC, Rmult_1_l.
      repeat match goal with |- context [Rlt_dec ?a ?b] => destruct (Rlt_dec a b); [exfalso; lra|] end. reflexivity. }
    split.
    { split; rewrite Ec; cbn [map fst]; [repeat constructor; auto|]. intros nm [<-|[] ]. eexists. split; [exact Hv'|reflexivity]. }
    split; [exact Hc|]. rewrite Ec. cbn [map fst]. split.
    { intros us Hus [E|[] ]. destruct (digits_onto _ _ Lw Fw) as (o & Ho & Eo). exists o. split; [exact Ho|]. rewrite Eo. now apply (name_inj D). }
    intros o Ho. pose proof (digits_spec _ _ Ho) as (L & F & Lo & Fo).
    rewrite <- (map_map snd (fun q => Pair q no_setting no_setting)). rewrite no_settings_amplitude by (rewrite ?map_length; auto). unfold amp_of, amplitude. rewrite Ec. cbn [dget].
    destruct (leqb (name_string D (config_component pairs (digits_of o) vs)) (name_string D (config_component pairs w vs))) eqn:E.
    + apply leqb_spec in E. apply (name_inj D) in E; [|apply config_component_valid; auto|exact Hv'].
      assert (w = digits_of o) as ->. { apply (configured_inj D pairs _ _ vs (config_component pairs w vs)); auto. rewrite <- E. now apply (config_component_configured D). }
      destruct (list_eq_dec _ _ _); [reflexivity|contradiction].
    + destruct (list_eq_dec _ _ _) as [->|]; [|reflexivity]. now rewrite (proj2 (leqb_spec _ _) eq_refl) in E.
Qed.

Lemma groups_of_gate D eps ncl pairs rid ws : 2 <= dL D -> (0 <= eps)%R -> good_pairs D pairs -> pairs <> [] -> NoDup ws ->
  (forall w, In w ws <-> length w = length pairs /\ Forall (fun i => i < 4) w) ->
  forall (jits : list (nat * (ident * state))) outs,
  Forall (fun jit : nat * (ident * state) => let st := snd (snd jit) in exists vs p, s_comps st = [(name_string D vs, (RtoC 1, p))] /\ valid D vs /\ (0 <= s_cum st <= 1)%R /\ length (s_classical st) = ncl /\ NoDup (map fst (s_aux st))) jits ->
  Forall2 (fun jit out => Forall2 (prepared D pairs (rid (fst jit)) (snd (snd jit))) ws out) jits outs ->
  exists gs, Forall (group_ready D eps ncl) gs /\ map g_id gs = map (fun jit => rid (fst jit)) jits /\ map g_states gs = outs /\
    Forall2 (fun jit g => g_ps g = map (fun pr => Pair (snd pr) no_setting no_setting) pairs /\ g_label g = s_init (snd (snd jit)) /\ g_weight g = s_cum (snd (snd jit)) /\
      forall vs p, s_comps (snd (snd jit)) = [(name_string D vs, (RtoC 1, p))] -> valid D vs ->
        forall o, In o (all_outcomes (length pairs)) -> configured pairs (map (fun st => 2 * fst st + snd st) o) vs (g_place g o)) jits gs.
Proof.
  intros HL Heps Hp Hne NDw Hws jits outs HI HF. revert HI. induction HF as [|jit out jits outs H _ IH]; intros HI; [exists []; repeat split; constructor|].
  inversion HI as [|? ? (vs & p & Es & Hvs & Hc & Hn & NDa) HI']; subst. destruct (IH HI') as (gs & G1 & G2 & G3 & G4).
  destruct (C42_gate_ready D eps (length (s_classical (snd (snd jit)))) pairs (rid (fst jit)) _ vs p ws out HL Heps Hp Hne Es Hvs Hc eq_refl NDa NDw Hws H) as (place & HP & HR).
  exists (Group (map (fun pr => Pair (snd pr) no_setting no_setting) pairs) (rid (fst jit)) (s_init (snd (snd jit))) (s_cum (snd (snd jit))) place out :: gs).
  split; [constructor; [exact HR|exact G1]|]. cbn [map g_id g_states g_ps g_label g_weight g_place]. rewrite G2, G3. split; [reflexivity|]. split; [reflexivity|]. constructor; [|exact G4].
  cbn [g_ps g_label g_weight g_place]. split; [reflexivity|]. split; [reflexivity|]. split; [reflexivity|]. intros us q Eu Hu. rewrite Es in Eu. injection Eu as Eu _.
  apply (name_inj D) in Eu; auto. now subst us.
Qed.

Lemma Rpower_eq_1 q y : (0 < q)%R -> (0 < y)%R -> Rpower y q = 1%R -> y = 1%R.
Proof.
  intros Hq Hy E. unfold Rpower in E. rewrite <- exp_0 in E. apply exp_inv in E. assert (ln y = 0)%R by (apply (Rmult_eq_reg_l q); lra). rewrite <- ln_1 in H. apply ln_inv in H; lra.
Qed.
Lemma no_setting_probability q s t x : (0 < q)%R -> s < 2 -> t < 2 -> pair_probability (Pair q no_setting no_setting) (s, t) x -> x = (if s =? t then 1 / 2 else 0)%R.
Proof.
  intros Hq Hs Ht (y & (Hpos & _ & Hneg) & ->). cbn [p_A p_B p_q fst snd] in *.
  assert (E : dot (poincare (no_setting s)) (poincare (no_setting t)) = (if s =? t then 1 else -1)%R).
  { unfold dot, poincare, no_setting, Cnorm2. destruct s as [|[|s]]; [| |lia]; destruct t as [|[|t]]; try lia; cbn; ring. }
  rewrite E in *. destruct (s =? t).
  - destruct (Hpos ltac:(lra)) as [Hy Ey]. assert (y = 1%R). { apply (Rpower_eq_1 q); auto. } lra.
  - destruct (Hneg ltac:(lra)) as [Hy Ey]. assert ((- y)%R = 1%R). { apply (Rpower_eq_1 q); try lra. }  lra.
Qed.
Lemma outcome_aligned qs : Forall (fun q => 0 < q)%R qs -> forall o x, Forall (fun st => fst st < 2 /\ snd st < 2) o -> outcome_has (map (fun q => Pair q no_setting no_setting) qs) o x -> x = aligned o.
Proof.
  intros Hq o x Fo H. inversion H as [o' xs Lo HF]; subst. clear H. rewrite map_length in Lo. revert o xs Lo Fo HF. induction Hq as [|q qs Hq _ IH]; intros [|[s t] o] xs Lo Fo HF; try discriminate.
  - inversion HF; subst. reflexivity.
  - cbn [map combine] in HF. inversion HF as [|? x0 ? xs0 H0 HF0]; subst. inversion Fo as [|? ? [Hs Ht] Fo']; subst. cbn [fold_right aligned]. cbn [fst snd] in H0.
    rewrite <- (IH o xs0) by (auto; cbn in Lo; lia). f_equal. eapply no_setting_probability; eauto.
Qed.

(** Without optical elements both sides always see the same polarisation, each with probability
    1/2, whatever the quantumness. *)
Theorem C42_gate_and_detectors rnd0 X rnd rnd' rid c k k' pairs opt cl cs : wf_circuit c -> 2 <= dL (c_D c) -> (0 <= c_eps c)%R ->
  k < length (c_nodes c) -> k' < length (c_nodes c) ->
  node_at c k = popescu_rohrlich_correlation_gate rnd' rid pairs -> node_at c k' = NMeasure opt cl ->
  good_pairs (c_D c) pairs -> pairs <> [] -> (forall i j, rid i = rid j -> i = j) ->
  (forall n, In n opt -> n < dN (c_D c)) -> (forall n, In n cl -> n < c_ncl c) -> NoDup cl ->
  co_D cs = c_D c -> co_eps cs = c_eps c -> co_ncl cs = c_ncl c -> co_items cs <> [] ->
  Forall (fun it => let st := snd it in check_state (co_eps cs) (co_ncl cs) st = true /\ (0 <= s_cum st <= 1)%R /\ NoDup (map fst (s_aux st)) /\
     (forall x, ~ In (AuxPhotonResolution, x) (s_aux st)) /\ exists vs p, valid (co_D cs) vs /\ s_comps st = [(name_string (co_D cs) vs, (RtoC 1, p))]) (co_items cs) ->
  exists cs1 cs2 outs, evaluate_nodes X rnd c [k] cs = Ok cs1 /\ evaluate_nodes (with_pr rnd0 X) rnd c [k'] cs1 = Ok cs2 /\
    map snd (co_items cs2) = concat outs /\
    Forall2 (fun it out => exists os, Permutation os (all_outcomes (length pairs)) /\
        Forall2 (fun o s => s_init s = s_init (snd it) /\ s_cum s = (aligned o * s_cum (snd it))%R /\
          forall vs p, s_comps (snd it) = [(name_string (c_D c) vs, (RtoC 1, p))] -> valid (c_D c) vs ->
            exists vs', configured pairs (map (fun st => 2 * fst st + snd st) o) vs vs' /\ s_comps s = [(name_string (c_D c) vs', (RtoC 1, 1%R))] /\
              written cl (readout opt vs') (s_classical (snd it)) (s_classical s)) os out) (co_items cs) outs.
Proof.
  intros Hc HL Heps Hk Hk' En En' Hp Hne Hrid Hopt Hcl NDcl ED Eeps Encl Hitems HI.
  assert (HI1 : Forall (fun it => wf_state (co_D cs) (snd it) /\ check_state (co_eps cs) (co_ncl cs) (snd it) = true) (co_items cs)).
  { eapply Forall_impl; [|exact HI]. cbn beta zeta. intros it (Hck & _ & _ & _ & vs & p & Hv & Ec). split; [|exact Hck]. split; rewrite Ec; cbn [map fst]; [apply NoDup_cons; [intros []|constructor]|].
    intros nm [<-|[] ]. now exists vs. }
  destruct (C42_gate X rnd rnd' rid c k pairs cs Hk En ltac:(now rewrite ED) ltac:(now rewrite ED) HI1) as (cs1 & outs & ws & E1 & ND1 & ED1 & Eeps1 & Encl1 & Eout & NDw & Hws & HF).
  rewrite ED in HF.
  set (jits := combine (seq 0 (length (co_items cs))) (co_items cs)) in *.
  assert (Hj : map snd jits = co_items cs /\ map fst jits = seq 0 (length (co_items cs))).
  { unfold jits. clear. generalize 0. induction (co_items cs) as [|it l IH]; intros n; [now split|]. cbn [length seq combine map fst snd]. destruct (IH (S n)) as [-> ->]. now split. }
  destruct Hj as [Hj1 Hj2].
  assert (HJ : Forall (fun jit : nat * (ident * state) => let st := snd (snd jit) in exists vs p, s_comps st = [(name_string (c_D c) vs, (RtoC 1, p))] /\ valid (c_D c) vs /\ (0 <= s_cum st <= 1)%R /\ length (s_classical st) = c_ncl c /\ NoDup (map fst (s_aux st))) jits).
  { apply Forall_forall. intros jit Hin. assert (Hin' : In (snd jit) (co_items cs)) by (rewrite <- Hj1; now apply in_map). rewrite Forall_forall in HI. destruct (HI _ Hin') as (Hck & Hcum & NDa & _ & vs & p & Hv & Ec).
    rewrite ED in *. exists vs, p. split; [exact Ec|]. split; [exact Hv|]. split; [exact Hcum|]. split; [|exact NDa]. unfold check_state in Hck. apply andb_true_iff in Hck. destruct Hck as [_ Hck]. apply Nat.eqb_eq in Hck. now rewrite Hck. }
  destruct (groups_of_gate (c_D c) (c_eps c) (c_ncl c) pairs rid ws HL Heps Hp Hne NDw Hws jits outs HJ HF) as (gs & G1 & G2 & G3 & G4).
  assert (NDg : NoDup (map g_id gs)).
  { rewrite G2, <- (map_map fst rid), Hj2. apply FinFun.Injective_map_NoDup; [intros i j; apply Hrid|apply seq_NoDup]. }
  assert (Hne1 : exists it, In it (co_items cs1) /\ forall x, ~ In (AuxPhotonResolution, x) (s_aux (snd it))).
  { clear G3. destruct (co_items cs) as [|it0 l] eqn:Eits; [contradiction|]. unfold jits in HF. cbn [length seq combine] in HF. inversion HF as [|? out0 ? outs0 H0 _]; subst. cbn [fst snd] in H0.
    inversion H0 as [Ew Eo|w s ws' out' Hs _ Ew Eo]; subst.
    - exfalso. assert (In (repeat 0 (length pairs)) []) as []. apply Hws. split; [apply repeat_length|]. apply Forall_forall. intros x Hx. apply repeat_spec in Hx. lia.
    - assert (In s (map snd (co_items cs1))) as Hin by (rewrite Eout; now left). apply in_map_iff in Hin. destruct Hin as (it1 & E & Hin). exists it1. split; [exact Hin|]. rewrite E.
      rewrite Forall_forall in HI. destruct (HI it0 ltac:(now left)) as (_ & _ & NDa & Hres & _). destruct Hs as (_ & _ & _ & _ & _ & Ho & _). destruct (Ho NDa) as [_ Ho']. intros x Hx. apply (Hres x). apply Ho'; [discriminate|exact Hx]. }
  destruct (C42_measurement rnd0 X rnd c k' opt cl cs1 gs Hc Hk' En' Hopt Hcl NDcl ltac:(congruence) ltac:(congruence) ltac:(congruence) G1 NDg ltac:(rewrite G3; exact Eout) Hne1) as (cs2 & outs2 & E2 & _ & _ & Eout2 & HF2).
  exists cs1, cs2, outs2. split; [exact E1|]. split; [exact E2|]. split; [exact Eout2|]. rewrite <- Hj1.
  destruct Hp as (HF4 & _ & _).
  assert (Hq : Forall (fun q => 0 < q)%R (map snd pairs)) by (apply Forall_forall; intros q Hin; apply in_map_iff in Hin; destruct Hin as (pr & <- & Hin); rewrite Forall_forall in HF4; now apply HF4).
  assert (HC : Forall2 (fun g jit => exists out, In out outs /\ g_states g = out /\ Forall2 (prepared (c_D c) pairs (rid (fst jit)) (snd (snd jit))) ws out) gs jits).
  { clear - HF G3. revert gs G3. induction HF as [|jit out jits outs H _ IH]; intros [|g gs] G3; try discriminate; [constructor|]. cbn [map] in G3. injection G3 as G3 G3'. constructor.
    - exists out. split; [now left|]. split; [exact G3|exact H].
    - eapply Forall2_impl; [|apply IH; exact G3']. intros g' jit' (o & Ho & E & H'). exists o. split; [now right|]. now split. }
  clear - G4 HF2 HC Hq. revert outs2 HF2 HC. induction G4 as [|jit g jits gs (P1 & P2 & P3 & P4) _ IH]; intros outs2 HF2 HC; inversion HF2 as [|? out ? outs2' (st & os & Hst & HP & HR) HF2']; subst; [constructor|].
  inversion HC as [|? ? ? ? (out0 & _ & Eg & HFp) HC']; subst. cbn [map]. constructor; [|now apply IH]. rewrite P1, map_length in HP. exists os. split; [exact HP|].
  rewrite P1, P2, P3 in HR.
  destruct (Forall2_in_r_ex _ _ _ st HFp Hst) as (w & _ & Hprep). destruct Hprep as (_ & _ & Hcl & _).
  assert (HO : Forall (fun o => In o (all_outcomes (length pairs))) os) by (apply Forall_forall; intros o Ho; eapply Permutation_in; [exact HP|exact Ho]).
  pose proof (Forall2_in_l _ _ _ _ HO HR) as HR'. eapply Forall2_impl; [|exact HR']. intros o s [Ho (x & Hx & Ec & Ei & Ecomp & Hwr & _)].
  split; [exact Ei|]. split.
  - rewrite Ec. f_equal. apply digits_spec in Ho. destruct Ho as (_ & _ & _ & Fo). rewrite <- (map_map snd (fun q => Pair q no_setting no_setting)) in Hx. eapply outcome_aligned; eauto.
  - intros vs p Es Hv. exists (g_place g o). split; [eapply P4; eauto|]. split; [exact Ecomp|]. now rewrite <- Hcl.
Qed.
