(** Property theorems C20-C23: measurement nodes. *)
From Coq Require Import Reals List Arith Lia Lra Bool Permutation Sorted.
From Coquelicot Require Import Complex.
From Verif Require Import Prelude NamesModel NamesSpec NamesProofs FockModel FockSpec FockProofs
  OpticalModel StateModel StateSpec StateProofs ApplyProofs CollectionModel EvalModel EvalSpec EvalProofs
  MeasureSpec MeasureProofs WfProofs.
Import ListNotations.

(** ** What the calls of evaluate_circuit on one node do *)
Lemma evalR_single X rnd c k cs seed :
  k < length (c_nodes c) -> is_optical (node_at c k) = false -> is_bridge (node_at c k) = false ->
  evalR X rnd c [k] cs seed = of_option (run_node X rnd c k cs seed).
Proof.
  intros Hk Ho Hb. rewrite evalR_unfold. cbn [forallb negb]. rewrite (proj2 (Nat.ltb_lt _ _) Hk). cbn [andb negb].
  assert (Hm : list_max [k] <=? k = true) by (apply Nat.leb_le; cbn; lia). cbv zeta. rewrite Hm.
  destruct (node_at c k) eqn:En; try discriminate;
    (destruct (run_node X rnd c k cs seed) as [[cs' s']|]; [apply evalR_nil|reflexivity]).
Qed.

Lemma evaluate_single X rnd c k cs :
  k < length (c_nodes c) -> is_optical (node_at c k) = false -> is_bridge (node_at c k) = false ->
  evaluate_nodes X rnd c [k] cs = of_option (option_map fst (run_node X rnd c k cs 0)).
Proof.
  intros. unfold evaluate_nodes. rewrite evaluate_from_evalR, evalR_single by auto.
  destruct (run_node X rnd c k cs 0) as [[cs' s']|]; reflexivity.
Qed.

Lemma aux_eqb_spec a b : aux_eqb a b = true <-> a = b.
Proof.
  destruct a, b; cbn; split; intros H; try discriminate; auto; try (apply Nat.eqb_eq in H; congruence).
  injection H as ->. apply Nat.eqb_refl.
Qed.

Lemma all_have_false k its : (exists it, In it its /\ forall x, ~ In (k, x) (s_aux (snd it))) -> all_have k its = false.
Proof.
  intros (it & Hit & Hx). unfold all_have. destruct (forallb _ its) eqn:E; [|reflexivity].
  rewrite forallb_forall in E. specialize (E _ Hit). unfold dmem in E.
  destruct (dget aux_eqb k (s_aux (snd it))) as [x|] eqn:Eg; [|discriminate].
  apply (dget_some_in aux_eqb aux_eqb_spec) in Eg. now apply Hx in Eg.
Qed.

Lemma evaluate_measure X rnd c k opt cl cs :
  k < length (c_nodes c) -> node_at c k = NMeasure opt cl -> unmarked (co_items cs) ->
  evaluate_nodes X rnd c [k] cs = of_option (option_map (coll_of c) (measure_items c k opt cl (co_items cs))).
Proof.
  intros Hk En [H1 H2]. rewrite evaluate_single by (rewrite ?En; auto). unfold run_node. rewrite En.
  rewrite (all_have_false _ _ H1), (all_have_false _ _ H2). now destruct (measure_items _ _ _ _ _).
Qed.

(** ** The shared form: groups of results *)
Lemma relabel_forall2 (R : list nat -> state -> Prop) num i os sts :
  Forall2 R os sts -> Forall2 (fun o (it : ident * state) => R o (snd it)) os (relabel num i sts).
Proof.
  unfold relabel. generalize 0. intros n H. revert n.
  induction H; intros n; cbn [length seq combine map]; constructor; auto.
Qed.

Lemma in_combine_forall2 {A B} (R : A -> B -> Prop) l1 l2 a b :
  Forall2 R l1 l2 -> In (a, b) (combine l1 l2) -> R a b.
Proof. induction 1; cbn [combine]; [intros []|]. intros [[= -> ->]|Hc]; auto. Qed.

Lemma measure_groups X rnd c k opt cl cs cs' :
  wf_circuit c -> k < length (c_nodes c) -> node_at c k = NMeasure opt cl ->
  wf_items (c_D c) (co_items cs) -> unmarked (co_items cs) ->
  evaluate_nodes X rnd c [k] cs = Ok cs' ->
  exists groups, co_items cs' = concat groups /\ NoDup (dkeys (co_items cs')) /\
    Forall2 (fun it g => one_per_outcome (c_D c) opt (snd it) g (fun o new =>
      (exists suffix, fst new = fst it ++ suffix) /\
      outcome_prob (c_D c) (snd it) opt o <> 0%R /\ check_state (c_eps c) (c_ncl c) (snd it) = true /\
      exists p, snd new = collapse (c_D c) opt cl o (snd it) p /\ ((0 <= p <= 1)%R /\ (Rabs (p - s_cum (snd it) * outcome_prob (c_D c) (snd it) opt o) <= 1 / 2000)%R) /\
        ((0 <= s_cum (snd it) * outcome_prob (c_D c) (snd it) opt o <= 1)%R ->
           p = (s_cum (snd it) * outcome_prob (c_D c) (snd it) opt o)%R)) /\
      Rsum (outcomes (c_D c) opt (snd it)) (fun o => outcome_prob (c_D c) (snd it) opt o) = state_norm2 (snd it))
      (co_items cs) groups.
Proof.
  intros Hc Hk En [ND HF] Hu E. pose proof Hc as (HL & _). rewrite (evaluate_measure X rnd c k opt cl cs) in E by auto.
  destruct (measure_items c k opt cl (co_items cs)) as [out|] eqn:Em; [|discriminate]. injection E as <-.
  apply measure_items_inv in Em; auto. destruct Em as (rs & HR & ->).
  destruct (measurement_number_ok (c_nodes c) k) as [Hn1 Hn2]. cbn [coll_of co_items].
  set (num := measurement_number (c_nodes c) k) in *.
  exists (map (fun p => relabel num (fst (fst p)) (snd p)) (combine (co_items cs) rs)).
  split; [reflexivity|]. split; [now apply measured_nodup|].
  clear ND Hu. induction HR as [|it sts its rs' Hp HR IH]; cbn [combine map]; [constructor|].
  inversion HF as [|? ? [Hw Hne] HF']; subst. constructor; [|now apply IH].
  split; [|now apply outcomes_total].
  exists (outcomes (c_D c) opt (snd it)). split; [apply outcomes_nodup|].
  split; [intros o; now apply outcomes_possible|]. cbn [fst snd].
  apply perform_inv in Hp; auto. unfold relabel. revert Hp. generalize 0. clear. intros n H. revert n.
  induction H as [|o s os sts Hos _ IH]; intros n; cbn [length seq combine map]; constructor; auto.
  cbn [fst snd]. split; [eexists; reflexivity|exact Hos].
Qed.

Lemma one_per_outcome_impl D opt st g (R R' : list nat -> ident * state -> Prop) :
  (forall o new, R o new -> R' o new) -> one_per_outcome D opt st g R -> one_per_outcome D opt st g R'.
Proof.
  intros HR (os & H1 & H2 & H3). exists os. split; auto. split; auto.
  clear H1 H2. induction H3; constructor; auto.
Qed.

Lemma possible_total D opt st os :
  1 <= dL D -> wf_state D st -> NoDup os -> (forall o, In o os <-> possible D st opt o) ->
  Rsum os (outcome_prob D st opt) = state_norm2 st.
Proof.
  intros HL Hw ND H. rewrite <- (outcomes_total D opt st). apply Rsum_perm, NoDup_Permutation; auto.
  - apply outcomes_nodup.
  - intros o. rewrite H. symmetry. now apply outcomes_possible.
Qed.

(** ** C20 *)
(** A measurement node turns every state into one state per reading its components show. The
    weight of each is the weight of the state times the Born probability of the reading, each
    is normalised, and the weights add up to the weight of the state. *)
Theorem C20_outcome_distribution : forall X rnd c k opt cl cs cs',
  wf_circuit c -> k < length (c_nodes c) -> node_at c k = NMeasure opt cl ->
  wf_items (c_D c) (co_items cs) -> unmarked (co_items cs) ->
  Forall (fun it => state_norm2 (snd it) = 1%R /\ (0 <= s_cum (snd it) <= 1)%R) (co_items cs) ->
  evaluate_nodes X rnd c [k] cs = Ok cs' ->
  exists groups, co_items cs' = concat groups /\
    Forall2 (fun it g =>
      one_per_outcome (c_D c) opt (snd it) g (fun o new =>
        s_cum (snd new) = (s_cum (snd it) * outcome_prob (c_D c) (snd it) opt o)%R /\
        state_norm2 (snd new) = 1%R) /\
      Rsum g (fun new => s_cum (snd new)) = s_cum (snd it)) (co_items cs) groups.
Proof.
  intros X rnd c k opt cl cs cs' Hc Hk En Hw Hu Hn E. pose proof Hc as (HL & _).
  destruct (measure_groups X rnd c k opt cl cs cs' Hc Hk En Hw Hu E) as (groups & Eg & _ & HG).
  exists groups. split; auto. destruct Hw as [_ HF]. clear E Eg Hu.
  induction HG as [|it g its gs [H1 H2] HG IH]; [constructor|].
  inversion HF as [|? ? [Hws _] HF']; subst. inversion Hn as [|? ? [Hnorm Hcum] Hn']; subst.
  constructor; [|now apply IH]. clear IH HF HF' Hn Hn'. destruct it as [i st]. cbn [fst snd] in *.
  assert (A : one_per_outcome (c_D c) opt st g (fun o new =>
        s_cum (snd new) = (s_cum st * outcome_prob (c_D c) st opt o)%R /\ state_norm2 (snd new) = 1%R)).
  { eapply one_per_outcome_impl; [|exact H1]. intros o new (_ & Hne & _ & p & Ep & _ & Hp).
    rewrite Ep. split.
    - cbn [collapse s_cum]. apply Hp. pose proof (outcome_prob_nonneg (c_D c) st opt o).
      pose proof (outcome_prob_le (c_D c) st opt o) as Hle. rewrite Hnorm in Hle. nra.
    - now apply collapse_norm. }
  split; [exact A|]. destruct A as (os & ND & Hos & HA).
  transitivity (s_cum st * state_norm2 st)%R; [|rewrite Hnorm; lra].
  rewrite <- (possible_total (c_D c) opt st os) by auto. rewrite <- Rsum_scal_l.
  clear - HA. induction HA as [|o new os g [H _] _ IH]; [reflexivity|]. rewrite !Rsum_cons. now rewrite H, IH.
Qed.

(** States that are not exactly normalised (rounding errors, thresholds): the weight is still the
    weight of the state times the probability up to 1/2000; it is exact whenever that number is
    between 0 and 1, and the weight is always between 0 and 1. *)
Theorem C20_not_normalised : forall X rnd c k opt cl cs cs',
  wf_circuit c -> k < length (c_nodes c) -> node_at c k = NMeasure opt cl ->
  wf_items (c_D c) (co_items cs) -> unmarked (co_items cs) ->
  evaluate_nodes X rnd c [k] cs = Ok cs' ->
  exists groups, co_items cs' = concat groups /\
    Forall2 (fun it g => one_per_outcome (c_D c) opt (snd it) g (fun o new =>
        let q := (s_cum (snd it) * outcome_prob (c_D c) (snd it) opt o)%R in
        (0 <= s_cum (snd new) <= 1)%R /\ (Rabs (s_cum (snd new) - q) <= 1 / 2000)%R /\
        ((0 <= q <= 1)%R -> s_cum (snd new) = q))) (co_items cs) groups.
Proof.
  intros X rnd c k opt cl cs cs' Hc Hk En Hw Hu E.
  destruct (measure_groups X rnd c k opt cl cs cs' Hc Hk En Hw Hu E) as (groups & Eg & _ & HG).
  exists groups. split; auto. clear -HG. induction HG as [|it g its gs [H _] _ IH]; constructor; auto.
  eapply one_per_outcome_impl; [|exact H]. intros o new (_ & _ & _ & p & Ep & [H1 H2] & H3). rewrite Ep. cbn [collapse s_cum]. auto.
Qed.

(** Hence the total weight of a collection of normalised states does not change. *)
Theorem C20_total_weight : forall X rnd c k opt cl cs cs',
  wf_circuit c -> k < length (c_nodes c) -> node_at c k = NMeasure opt cl ->
  wf_items (c_D c) (co_items cs) -> unmarked (co_items cs) ->
  Forall (fun it => state_norm2 (snd it) = 1%R /\ (0 <= s_cum (snd it) <= 1)%R) (co_items cs) ->
  evaluate_nodes X rnd c [k] cs = Ok cs' ->
  Rsum (co_items cs') (fun it => s_cum (snd it)) = Rsum (co_items cs) (fun it => s_cum (snd it)).
Proof.
  intros X rnd c k opt cl cs cs' Hc Hk En Hw Hu Hn E.
  destruct (C20_outcome_distribution X rnd c k opt cl cs cs' Hc Hk En Hw Hu Hn E) as (groups & -> & HG).
  clear - HG. induction HG as [|it g its gs [_ H] _ IH]; [reflexivity|]. cbn [concat]. rewrite Rsum_app, Rsum_cons. now rewrite H, IH.
Qed.

(** The measurement of valid states never raises, except for a reading of probability 0 shown
    by components with amplitude 0 (division by zero). *)
Lemma perform_ok D ncl eps opt cl st :
  1 <= dL D -> wf_state D st -> check_state eps ncl st = true -> (0 <= s_cum st <= 1)%R -> (state_norm2 st <= 1)%R ->
  (forall o, possible D st opt o -> outcome_prob D st opt o <> 0%R) ->
  perform_measurement D ncl eps opt cl st
  = Some (map (fun o => collapse D opt cl o st (s_cum st * outcome_prob D st opt o)) (outcomes D opt st)).
Proof.
  intros HL Hw Hck Hcum Hn Hne. rewrite perform_unfold.
  assert (G : forall l, (forall o, In o l -> In o (outcomes D opt st)) ->
    option_list (map (fun o => collapsed_state D ncl eps cl st o
       (map (fun c => (values_of_name D (fst c), fst (snd c))) (members D opt o st))) l)
    = Some (map (fun o => collapse D opt cl o st (s_cum st * outcome_prob D st opt o)) l)).
  { induction l as [|o l IH]; intros Hl; [reflexivity|]. cbn [map option_list].
    rewrite collapsed_state_ok; auto.
    - rewrite IH by (intros; apply Hl; now right). reflexivity.
    - apply Hne, outcomes_possible; auto. apply Hl. now left.
    - pose proof (outcome_prob_nonneg D st opt o). pose proof (outcome_prob_le D st opt o). nra. }
  apply G. auto.
Qed.

Lemma measure_items_ok c k opt cl its :
  (forall it, In it its -> exists sts, perform_measurement (c_D c) (c_ncl c) (c_eps c) opt cl (snd it) = Some sts) ->
  exists out, measure_items c k opt cl its = Some out.
Proof.
  unfold measure_items. generalize (@nil (ident * state)). induction its as [|it its IH]; intros acc H; [eexists; reflexivity|].
  cbn [fold_left]. destruct (H it (or_introl eq_refl)) as [sts ->]. apply IH. intros. apply H. now right.
Qed.

Theorem C20_does_not_raise : forall X rnd c k opt cl cs,
  wf_circuit c -> k < length (c_nodes c) -> node_at c k = NMeasure opt cl ->
  wf_items (c_D c) (co_items cs) -> unmarked (co_items cs) ->
  Forall (fun it => (state_norm2 (snd it) <= 1)%R /\ (0 <= s_cum (snd it) <= 1)%R /\
            check_state (c_eps c) (c_ncl c) (snd it) = true /\
            forall o, possible (c_D c) (snd it) opt o -> outcome_prob (c_D c) (snd it) opt o <> 0%R) (co_items cs) ->
  exists cs', evaluate_nodes X rnd c [k] cs = Ok cs'.
Proof.
  intros X rnd c k opt cl cs Hc Hk En [ND HF] Hu Hn. pose proof Hc as (HL & _).
  rewrite (evaluate_measure X rnd c k opt cl cs) by auto.
  destruct (measure_items_ok c k opt cl (co_items cs)) as [out ->]; [|eexists; reflexivity].
  intros it Hit. rewrite Forall_forall in HF, Hn. destruct (HF _ Hit) as [Hw _]. destruct (Hn _ Hit) as (H1 & H2 & H3 & H4).
  eexists. now apply perform_ok.
Qed.

(** ** C21 *)
Lemma collapse_collapsed D ncl opt cl o st p n nd :
  1 <= dL D -> wf_state D st -> measure_optical_to_classical n ncl opt cl = Some nd -> NoDup cl ->
  length (s_classical st) = ncl -> collapsed D opt cl o st (collapse D opt cl o st p).
Proof.
  intros HL Hw Hb Hcl Hlen. split; [reflexivity|]. split; [reflexivity|]. split; [|split; [reflexivity|]].
  - cbn [collapse s_classical]. apply write_classical_written; auto. intros ch Hch.
    unfold measure_optical_to_classical in Hb. destruct (_ && _) eqn:Eb; [|discriminate].
    apply andb_true_iff in Eb. destruct Eb as [_ Eb]. rewrite forallb_forall in Eb. rewrite Hlen.
    apply Nat.ltb_lt. now apply Eb.
  - split.
    + intros vs Hv Hin. now apply (collapse_comp D opt cl o st p).
    + intros vs Hv <-. rewrite collapse_amp by auto. now rewrite (proj2 (leqb_spec _ _) eq_refl).
Qed.

(** In every resulting state the listed classical channels hold the photon numbers that all
    remaining components have in the measured channels, other classical channels, the label
    and the auxiliary information are kept, the history is extended, and the amplitudes of the
    components with that reading are those of the measured state up to a common factor. *)
Theorem C21_collapse : forall X rnd c k opt cl nd cs cs',
  wf_circuit c -> k < length (c_nodes c) ->
  measure_optical_to_classical (dN (c_D c)) (c_ncl c) opt cl = Some nd -> node_at c k = nd -> NoDup cl ->
  wf_items (c_D c) (co_items cs) -> unmarked (co_items cs) ->
  evaluate_nodes X rnd c [k] cs = Ok cs' ->
  exists groups, co_items cs' = concat groups /\
    Forall2 (fun it g => one_per_outcome (c_D c) opt (snd it) g (fun o new =>
       collapsed (c_D c) opt cl o (snd it) (snd new))) (co_items cs) groups.
Proof.
  intros X rnd c k opt cl nd cs cs' Hc Hk Hb En Hcl Hw Hu E. pose proof Hc as (HL & _).
  assert (En' : node_at c k = NMeasure opt cl).
  { unfold measure_optical_to_classical in Hb. destruct (_ && _); [|discriminate]. congruence. }
  destruct (measure_groups X rnd c k opt cl cs cs' Hc Hk En' Hw Hu E) as (groups & Eg & _ & HG).
  exists groups. split; auto. destruct Hw as [_ HF]. clear E Eg Hu.
  induction HG as [|it g its gs [H1 _] HG IH]; [constructor|].
  inversion HF as [|? ? [Hws _] HF']; subst. constructor; [|now apply IH].
  eapply one_per_outcome_impl; [|exact H1]. intros o new (_ & Hne & Hck & p & -> & _).
  eapply collapse_collapsed; eauto.
  unfold check_state in Hck. apply andb_true_iff in Hck. destruct Hck as [_ Hck]. now apply Nat.eqb_eq.
Qed.

(** ** C23 *)
(** Every reading of every state of the input has its own entry in the result: identifiers are
    distinct, they extend the identifier of the measured state, and each can be read back. *)
Theorem C23_identifiers : forall X rnd c k opt cl cs cs',
  wf_circuit c -> k < length (c_nodes c) -> node_at c k = NMeasure opt cl ->
  wf_items (c_D c) (co_items cs) -> unmarked (co_items cs) ->
  evaluate_nodes X rnd c [k] cs = Ok cs' ->
  NoDup (map fst (co_items cs')) /\
  (forall i s, In (i, s) (co_items cs') -> get_state (Some i) None (co_items cs') = Some s) /\
  exists groups, co_items cs' = concat groups /\
    Forall2 (fun it g => one_per_outcome (c_D c) opt (snd it) g (fun o new =>
       exists suffix, fst new = fst it ++ suffix)) (co_items cs) groups.
Proof.
  intros X rnd c k opt cl cs cs' Hc Hk En Hw Hu E.
  destruct (measure_groups X rnd c k opt cl cs cs' Hc Hk En Hw Hu E) as (groups & Eg & ND & HG).
  split; [exact ND|]. split.
  - intros i s Hin. unfold get_state. now rewrite (dget_in leqb leqb_spec i s).
  - exists groups. split; auto. clear - HG. induction HG as [|it g its gs [H1 _] HG IH]; constructor; auto.
    eapply one_per_outcome_impl; [|exact H1]. intros o new (H & _). exact H.
Qed.

(** ** C22 *)
Lemma collapse_check D ncl eps opt cl o st p :
  (0 <= eps)%R -> outcome_prob D st opt o <> 0%R -> (0 <= p <= 1)%R -> length (s_classical st) = ncl ->
  check_state eps ncl (collapse D opt cl o st p) = true.
Proof.
  intros He Hne Hp Hlen. unfold check_state. cbn [collapse s_cum s_classical]. rewrite write_classical_length, Hlen, Nat.eqb_refl.
  unfold Rltb. destruct (Rlt_dec p (- eps)); [lra|]. destruct (Rlt_dec eps (p - 1)); [lra|]. cbn [negb andb]. rewrite andb_true_r.
  pose proof (collapse_norm D opt cl o st p Hne) as Hn. unfold state_norm2 in Hn.
  apply forallb_forall. intros nc Hin.
  assert (Hnc : snd (snd nc) = Cnorm2 (fst (snd nc))).
  { cbn [collapse s_comps] in Hin. unfold collapsed_comps in Hin. apply in_map_iff in Hin. destruct Hin as (m & <- & _). reflexivity. }
  pose proof (Cnorm2_nonneg (fst (snd nc))).
  assert ((Cnorm2 (fst (snd nc)) <= 1)%R).
  { rewrite <- Hn. apply (Rsum_le_term (s_comps (collapse D opt cl o st p)) (fun c => Cnorm2 (fst (snd c))) nc); auto.
    intros; apply Cnorm2_nonneg. }
  rewrite Hnc. destruct (Rlt_dec _ _); [lra|]. destruct (Rlt_dec _ _); [lra|reflexivity].
Qed.

Lemma collapse_again_outcomes D opt cl o st p :
  1 <= dL D -> wf_state D st -> outcome_prob D st opt o <> 0%R ->
  (forall o', possible D (collapse D opt cl o st p) opt o' <-> o' = o) /\
  outcome_prob D (collapse D opt cl o st p) opt o = 1%R.
Proof.
  intros HL Hw Hne. pose proof (collapse_wf D opt cl o st p Hw) as Hw'.
  assert (H : forall vs, valid D vs -> In (name_string D vs) (map fst (s_comps (collapse D opt cl o st p))) -> readout opt vs = o).
  { intros vs Hv Hin. now apply (collapse_comp D opt cl o st p) in Hin. }
  split.
  - intros o'. split.
    + intros (vs & Hv & Hin & <-). now apply H.
    + intros ->. pose proof (collapse_nonempty D opt cl o st p Hne) as Hc.
      assert (Hx : exists x, In x (s_comps (collapse D opt cl o st p))).
      { destruct (s_comps (collapse D opt cl o st p)) as [|x l]; [contradiction|exists x; now left]. }
      destruct Hx as [x Hx]. apply (in_map fst) in Hx. destruct (proj2 Hw' (fst x) Hx) as (vs & Hv & Evs).
      rewrite Evs in Hx. exists vs. auto.
  - unfold outcome_prob. rewrite <- (collapse_norm D opt cl o st p Hne). unfold state_norm2. apply Rsum_ext.
    intros x Hx. destruct (proj2 Hw' (fst x)) as (vs & Hv & Evs); [now apply in_map|].
    rewrite Evs. rewrite values_of_name_string by (auto; apply Hv).
    rewrite (H vs); auto. { now rewrite (proj2 (leqb_spec _ _) eq_refl). }
    rewrite <- Evs. now apply in_map.
Qed.

Lemma perform_again D ncl eps opt cl cl2 o st p :
  1 <= dL D -> wf_state D st -> (0 <= eps)%R -> outcome_prob D st opt o <> 0%R -> (0 <= p <= 1)%R -> length (s_classical st) = ncl ->
  perform_measurement D ncl eps opt cl2 (collapse D opt cl o st p)
  = Some [collapse D opt cl2 o (collapse D opt cl o st p) p].
Proof.
  intros HL Hw He Hne Hp Hlen. set (s := collapse D opt cl o st p).
  destruct (collapse_again_outcomes D opt cl o st p HL Hw Hne) as [Hpos H1]. fold s in Hpos, H1.
  pose proof (collapse_wf D opt cl o st p Hw : wf_state D s) as Hws.
  rewrite perform_ok; auto.
  - assert (Eo : outcomes D opt s = [o]).
    { pose proof (outcomes_nodup D opt s) as ND. pose proof (fun o' => outcomes_possible D opt s o' HL Hws) as Hi.
      destruct (outcomes D opt s) as [|a [|b l]].
      - exfalso. destruct (proj2 (Hi o) (proj2 (Hpos o) eq_refl)).
      - f_equal. apply Hpos, Hi. now left.
      - exfalso. inversion ND as [|? ? Hn _]; subst. apply Hn. left.
        transitivity o; [apply Hpos, Hi; right; now left|symmetry; apply Hpos, Hi; now left]. }
    rewrite Eo. cbn [map]. rewrite H1, Rmult_1_r. reflexivity.
  - now apply collapse_check.
  - unfold s. rewrite collapse_norm; auto. lra.
  - intros o' Ho'. apply Hpos in Ho'. subst o'. rewrite H1. lra.
Qed.

Lemma filter_all {A} (p : A -> bool) l : (forall x, In x l -> p x = true) -> filter p l = l.
Proof.
  induction l as [|x l IH]; intros H; [reflexivity|]. cbn [filter]. rewrite H by now left. f_equal. apply IH. intros; apply H; now right.
Qed.

Lemma collapse_again_comps D opt cl cl2 o st p :
  1 <= dL D -> wf_state D st -> outcome_prob D st opt o <> 0%R ->
  s_comps (collapse D opt cl2 o (collapse D opt cl o st p) p) = s_comps (collapse D opt cl o st p).
Proof.
  intros HL Hw Hne. set (s := collapse D opt cl o st p).
  destruct (collapse_again_outcomes D opt cl o st p HL Hw Hne) as [_ H1]. fold s in H1.
  pose proof (collapse_wf D opt cl o st p Hw : wf_state D s) as Hws.
  cbn [collapse s_comps]. unfold collapsed_comps at 1. rewrite H1, sqrt_1.
  assert (Em : members D opt o s = s_comps s).
  { unfold members. apply filter_all. intros x Hx.
    destruct (proj2 Hws (fst x)) as (vs & Hv & Evs); [now apply in_map|].
    rewrite Evs. rewrite values_of_name_string by (auto; apply Hv). apply leqb_spec. symmetry.
    apply (collapse_comp D opt cl o st p vs); auto. rewrite <- Evs. now apply in_map. }
  rewrite Em. cbn [s collapse s_comps]. unfold collapsed_comps. rewrite map_map. apply map_ext. intros x. cbv zeta. cbn [fst snd].
  replace (fst (snd x) / RtoC (sqrt (outcome_prob D st opt o)) / RtoC 1)%C with (fst (snd x) / RtoC (sqrt (outcome_prob D st opt o)))%C; [reflexivity|].
  unfold Cdiv. rewrite <- (RtoC_inv 1) by lra. rewrite Rinv_1. ring.
Qed.

Lemma write_twice cl o (old : list R) : NoDup cl ->
  write_classical cl o (write_classical cl o old) = write_classical cl o old.
Proof.
  intros ND. unfold write_classical. revert o old. induction cl as [|a cl IH]; intros o old; [reflexivity|].
  destruct o as [|x o]; [reflexivity|]. cbn [combine fold_left fst snd]. inversion ND as [|? ? Hn ND']; subst.
  assert (Hcomm : forall l (w : list R), (forall b, In b (map fst l) -> b <> a) ->
     set_nth (fold_left (fun acc cv => set_nth acc (fst cv) (INR (snd cv))) l w) a (INR x)
     = fold_left (fun acc cv => set_nth acc (fst cv) (INR (snd cv))) l (set_nth w a (INR x))).
  { induction l as [|[b y] l IHl]; intros w Hb; [reflexivity|]. cbn [fold_left fst snd]. rewrite IHl by (intros; apply Hb; now right).
    f_equal. assert (Hba : b <> a) by (apply Hb; now left). clear - Hba. revert a b Hba.
    induction w as [|z w IHw]; intros [|a] [|b] Hba; cbn [set_nth]; auto; [lia|]. f_equal. apply IHw. lia. }
  assert (Hin : forall b, In b (map fst (combine cl o)) -> b <> a).
  { intros b Hb ->. apply in_map_iff in Hb. destruct Hb as ([u w] & <- & Hc). apply in_combine_l in Hc. contradiction. }
  assert (Hdd : forall w : list R, set_nth (set_nth w a (INR x)) a (INR x) = set_nth w a (INR x)).
  { intros w. clear. revert a. induction w as [|z w IHw]; intros [|a]; cbn [set_nth]; auto. now rewrite IHw. }
  rewrite Hcomm by auto. rewrite Hdd. now apply IH.
Qed.

(** Measuring the same channels again never raises and gives, for every state, one state with
    the same components, weight, label and auxiliary information, for which the history says
    probability 1; the values written are those the first measurement wrote. *)
Theorem C22_repeat : forall X rnd c k k2 opt cl cl2 cs cs1,
  wf_circuit c -> k < length (c_nodes c) -> k2 < length (c_nodes c) ->
  node_at c k = NMeasure opt cl -> node_at c k2 = NMeasure opt cl2 -> (0 <= c_eps c)%R ->
  wf_items (c_D c) (co_items cs) -> unmarked (co_items cs) ->
  evaluate_nodes X rnd c [k] cs = Ok cs1 ->
  exists cs2, evaluate_nodes X rnd c [k2] cs1 = Ok cs2 /\
    Forall2 (fun it1 it2 =>
      s_comps (snd it2) = s_comps (snd it1) /\ s_cum (snd it2) = s_cum (snd it1) /\
      s_init (snd it2) = s_init (snd it1) /\ s_aux (snd it2) = s_aux (snd it1) /\
      s_results (snd it2) = s_results (snd it1) ++ [(s_classical (snd it2), 1%R)] /\
      (cl2 = cl -> NoDup cl -> s_classical (snd it2) = s_classical (snd it1))) (co_items cs1) (co_items cs2).
Proof.
  intros X rnd c k k2 opt cl cl2 cs cs1 Hc Hk Hk2 En En2 He Hw Hu E. pose proof Hc as (HL & _).
  destruct (measure_groups X rnd c k opt cl cs cs1 Hc Hk En Hw Hu E) as (groups & Eg & ND1 & HG).
  (* every state of cs1 is a collapsed state *)
  assert (HA : Forall (fun new => exists st o p, wf_state (c_D c) st /\ outcome_prob (c_D c) st opt o <> 0%R /\
     (0 <= p <= 1)%R /\ length (s_classical st) = c_ncl c /\ snd new = collapse (c_D c) opt cl o st p) (co_items cs1)).
  { rewrite Eg. destruct Hw as [_ HF]. clear - HG HF. induction HG as [|it g its gs [H1 _] HG IH]; [constructor|].
    inversion HF as [|? ? [Hws _] HF']; subst. cbn [concat]. apply Forall_app. split; [|now apply IH].
    destruct H1 as (os & _ & _ & H1). clear - H1 Hws. induction H1 as [|o new os g (_ & Hne & Hck & p & Es & Hp & _) _ IH]; constructor; auto.
    exists (snd it), o, p. split; auto. split; auto. split; [lra|]. split; [|exact Es].
    unfold check_state in Hck. apply andb_true_iff in Hck. destruct Hck as [_ Hck]. now apply Nat.eqb_eq. }
  (* it is unmarked again *)
  assert (Hu1 : unmarked (co_items cs1)).
  { assert (HK : forall key, (exists it, In it (co_items cs) /\ forall x, ~ In (key, x) (s_aux (snd it))) ->
        exists it, In it (co_items cs1) /\ forall x, ~ In (key, x) (s_aux (snd it))).
    { intros key (it & Hit & Hx). rewrite Eg. destruct Hw as [_ HF].
      clear - HG HF Hit Hx HL. induction HG as [|it' g its gs [H1 _] HG IH]; [destruct Hit|].
      inversion HF as [|? ? [Hws Hne] HF']; subst. destruct Hit as [->|Hit].
      - destruct H1 as (os & _ & Hos & H1).
        assert (Hx0 : exists x0, In x0 (s_comps (snd it))).
        { destruct (s_comps (snd it)) as [|x0 l]; [contradiction|exists x0; now left]. }
        destruct Hx0 as [x0 Hx0]. apply (in_map fst) in Hx0. destruct (proj2 Hws (fst x0) Hx0) as (vs & Hv & Evs).
        rewrite Evs in Hx0. assert (Ho : In (readout opt vs) os). { apply Hos. exists vs. auto. }
        assert (Hg : exists new, In new g /\ s_aux (snd new) = s_aux (snd it)).
        { clear - H1 Ho. induction H1 as [|o new os g (_ & _ & _ & p & En & _) _ IH]; [destruct Ho|].
          destruct Ho as [_|Ho].
          - exists new. split; [now left|]. now rewrite En.
          - destruct (IH Ho) as (n & Hn & En'). exists n. split; [now right|auto]. }
        destruct Hg as (new & Hn & Ea). exists new. split; [cbn [concat]; apply in_or_app; now left|]. now rewrite Ea.
      - destruct (IH HF' Hit) as (n & Hn & Hx'). exists n. split; auto. cbn [concat]. apply in_or_app. now right. }
    destruct Hu as [Hu1 Hu2]. split; auto. }
  rewrite (evaluate_measure X rnd c k2 opt cl2 cs1) by auto.
  destruct (measure_items_ok c k2 opt cl2 (co_items cs1)) as [out Eo].
  { intros it Hit. rewrite Forall_forall in HA. destruct (HA _ Hit) as (st & o & p & H1 & H2 & H3 & H4 & ->).
    eexists. now apply perform_again. }
  rewrite Eo. exists (coll_of c out). split; [reflexivity|].
  apply measure_items_inv in Eo; [|exact ND1]. destruct Eo as (rs & HR & ->). cbn [coll_of co_items].
  clear - HR HA HL He. induction HR as [|it sts its rs Hp HR IH]; [constructor|].
  inversion HA as [|? ? (st & o & p & H1 & H2 & H3 & H4 & Es) HA']; subst.
  rewrite Es in Hp. rewrite perform_again in Hp by auto. injection Hp as <-.
  cbn [combine map concat fst snd]. constructor; [|now apply IH]. cbn [snd]. rewrite Es.
  split; [now apply collapse_again_comps|]. split; [reflexivity|]. split; [reflexivity|]. split; [reflexivity|].
  destruct (collapse_again_outcomes (c_D c) opt cl o st p HL H1 H2) as [_ Hone].
  split; [cbn [collapse s_results s_classical]; now rewrite <- Hone|].
  intros -> Hnd. cbn [collapse s_classical]. now apply write_twice.
Qed.

(** ** A case for C20-C23 *)
(** One photon in a superposition of two channels, weight 1/2, and one photon in channel 1. *)
Definition split_photon : state :=
  State [120] (/2) [([0;1], (RtoC (/ sqrt 2), (/2)%R)); ([1;0], (RtoC (/ sqrt 2), (/2)%R))] [0%R; 3%R] [] [].
Definition photon_1 : state := State [121] (/2) [([0;1], (RtoC 1, 1%R))] [0%R; 4%R] [] [].
Definition measure_circuit : circuit :=
  Circuit (Dims 2 2 true) 2 (/ 10000000000) false (fresh_keys (Dims 2 2 true)) [NMeasure [0] [1]; NMeasure [0] [0]].
Definition measure_input : coll := coll_of measure_circuit [([97], split_photon); ([98], photon_1)].

Lemma inv_sqrt2_sq : (/ sqrt 2 * / sqrt 2 = / 2)%R.
Proof. rewrite <- Rinv_mult. now rewrite sqrt_sqrt by lra. Qed.

Example C20_case : wf_circuit measure_circuit /\
  measure_optical_to_classical 2 2 [0] [1] = Some (node_at measure_circuit 0) /\ NoDup [1] /\
  wf_items (c_D measure_circuit) (co_items measure_input) /\ unmarked (co_items measure_input) /\
  Forall (fun it => state_norm2 (snd it) = 1%R /\ (0 <= s_cum (snd it) <= 1)%R) (co_items measure_input) /\
  (forall o, possible (Dims 2 2 true) split_photon [0] o <-> o = [0] \/ o = [1]) /\
  outcome_prob (Dims 2 2 true) split_photon [0] [1] = (/2)%R /\
  exists cs', evaluate_nodes (Externals (fun _ _ _ => None) (fun _ _ _ => None)) (fun _ => 0) measure_circuit [0] measure_input = Ok cs'.
Proof.
  assert (Hc : wf_circuit measure_circuit).
  { split; [cbn; lia|]. split; [cbn; lia|]. split; [reflexivity|]. repeat constructor. }
  assert (V : forall a b, a < 2 -> b < 2 -> valid (Dims 2 2 true) [a;b]).
  { intros a b Ha Hb. split; [reflexivity|]. constructor; [exact Ha|]. constructor; [exact Hb|constructor]. }
  assert (Hw1 : wf_state (Dims 2 2 true) split_photon).
  { split; [repeat constructor; cbn; intuition discriminate|]. intros nm. cbn. intros [<-|[<-|[]]].
    - exists [0;1]. split; [auto|reflexivity].
    - exists [1;0]. split; [auto|reflexivity]. }
  assert (Hw2 : wf_state (Dims 2 2 true) photon_1).
  { split; [repeat constructor; cbn; intuition discriminate|]. intros nm. cbn. intros [<-|[]].
    exists [0;1]. split; [auto|reflexivity]. }
  assert (Hw : wf_items (c_D measure_circuit) (co_items measure_input)).
  { split; [repeat constructor; cbn; intuition discriminate|].
    apply Forall_cons; [split; [exact Hw1|discriminate]|]. apply Forall_cons; [split; [exact Hw2|discriminate]|]. apply Forall_nil. }
  assert (Hu : unmarked (co_items measure_input)).
  { split; (exists ([97], split_photon); split; [now left|intros x []]). }
  assert (Hn : Forall (fun it => state_norm2 (snd it) = 1%R /\ (0 <= s_cum (snd it) <= 1)%R) (co_items measure_input)).
  { apply Forall_cons; [|apply Forall_cons; [|apply Forall_nil]]; cbn [snd split_photon photon_1 s_cum]; (split; [|lra]);
      unfold state_norm2; cbn [s_comps split_photon photon_1 Rsum fold_right fst snd]; unfold Rsum; cbn [fold_right fst snd]; rewrite ?Cnorm2_RtoC, ?inv_sqrt2_sq; lra. }
  assert (Hpos : forall o, possible (Dims 2 2 true) split_photon [0] o <-> o = [0] \/ o = [1]).
  { intros o. rewrite <- outcomes_possible by (auto; cbn; lia). change (outcomes (Dims 2 2 true) [0] split_photon) with [[0];[1]].
    cbn. intuition. }
  assert (Hpos2 : forall o, possible (Dims 2 2 true) photon_1 [0] o <-> o = [0]).
  { intros o. rewrite <- outcomes_possible by (auto; cbn; lia). change (outcomes (Dims 2 2 true) [0] photon_1) with [[0]].
    cbn. intuition. }
  assert (P1 : outcome_prob (Dims 2 2 true) split_photon [0] [1] = (/2)%R).
  { unfold outcome_prob. cbn [s_comps split_photon]. rewrite !Rsum_cons. unfold Rsum. cbn [fold_right fst snd].
    change (leqb (readout [0] (values_of_name (Dims 2 2 true) [0;1])) [1]) with false.
    change (leqb (readout [0] (values_of_name (Dims 2 2 true) [1;0])) [1]) with true.
    cbv iota. rewrite Cnorm2_RtoC, inv_sqrt2_sq. lra. }
  assert (P0 : outcome_prob (Dims 2 2 true) split_photon [0] [0] = (/2)%R).
  { unfold outcome_prob. cbn [s_comps split_photon]. rewrite !Rsum_cons. unfold Rsum. cbn [fold_right fst snd].
    change (leqb (readout [0] (values_of_name (Dims 2 2 true) [0;1])) [0]) with true.
    change (leqb (readout [0] (values_of_name (Dims 2 2 true) [1;0])) [0]) with false.
    cbv iota. rewrite Cnorm2_RtoC, inv_sqrt2_sq. lra. }
  assert (P2 : outcome_prob (Dims 2 2 true) photon_1 [0] [0] = 1%R).
  { unfold outcome_prob. cbn [s_comps photon_1]. rewrite !Rsum_cons. unfold Rsum. cbn [fold_right fst snd].
    change (leqb (readout [0] (values_of_name (Dims 2 2 true) [0;1])) [0]) with true.
    cbv iota. rewrite Cnorm2_RtoC. lra. }
  split; [exact Hc|]. split; [reflexivity|]. split; [repeat constructor; intros []|]. split; [exact Hw|]. split; [exact Hu|].
  split; [exact Hn|]. split; [exact Hpos|]. split; [exact P1|].
  apply (C20_does_not_raise _ _ measure_circuit 0 [0] [1] measure_input); auto; [cbn; lia|].
  apply Forall_cons; [|apply Forall_cons; [|apply Forall_nil]]; cbn [snd].
  - inversion Hn as [|? ? [N1 C1] Hn']; subst. cbn [snd] in N1. split; [lra|]. split; [exact C1|]. split.
    + unfold check_state, split_photon, Rltb. cbn [s_cum s_comps s_classical forallb snd length Nat.eqb c_eps measure_circuit c_ncl].
      repeat (destruct (Rlt_dec _ _); [exfalso; lra|]). reflexivity.
    + intros o Ho. apply Hpos in Ho. change (c_D measure_circuit) with (Dims 2 2 true). destruct Ho as [-> | ->]; rewrite ?P0, ?P1; lra.
  - inversion Hn as [|? ? _ Hn']; subst. inversion Hn' as [|? ? [N1 C1] _]; subst. cbn [snd] in N1. split; [lra|]. split; [exact C1|]. split.
    + unfold check_state, photon_1, Rltb. cbn [s_cum s_comps s_classical forallb snd length Nat.eqb c_eps measure_circuit c_ncl].
      repeat (destruct (Rlt_dec _ _); [exfalso; lra|]). reflexivity.
    + intros o Ho. apply Hpos2 in Ho. change (c_D measure_circuit) with (Dims 2 2 true). subst o. rewrite P2. lra.
Qed.
