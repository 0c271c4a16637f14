(** C50, C51: histograms and correlations of ordinary collections. *)
From Coq Require Import Reals ZArith List Arith Lia Lra Bool Permutation.
From Coquelicot Require Import Complex.
From Verif Require Import Prelude NamesModel NamesSpec NamesProofs FockModel StateModel StateSpec StateProofs CollectionModel EvalModel EvalSpec MeasureSpec MeasureProofs WfProofs PropMeasure ColumnModel PlotModel PlotSpec PlotProofs.
Import ListNotations.
Open Scope nat_scope.

Lemma values_eqb_spec xs ys : values_eqb xs ys = true <-> xs = ys.
Proof. unfold values_eqb. destruct (list_eq_dec Req_EM_T xs ys); split; intros; auto; discriminate. Qed.
Lemma map_INR_inj us vs : map INR us = map INR vs -> us = vs.
Proof.
  revert vs. induction us as [|u us IH]; intros [|v vs] E; try discriminate; [reflexivity|].
  cbn [map] in E. injection E as E1 E2. apply INR_eq in E1. subst. f_equal. auto.
Qed.
Lemma nodup_preimage {A B} (f : A -> B) (Q : A -> Prop) (l : list B) :
  (forall x, In x l -> exists a, Q a /\ f a = x) -> exists as_, map f as_ = l /\ Forall Q as_.
Proof.
  induction l as [|x l IH]; intros H; [exists []; auto|].
  destruct (H x) as (a & Ha & E); [now left|]. destruct IH as (as_ & Em & HF); [intros y Hy; apply H; now right|].
  exists (a :: as_). cbn [map]. split; [congruence|auto].
Qed.
Lemma NoDup_of_map {A B} (f : A -> B) l : NoDup (map f l) -> NoDup l.
Proof. apply NoDup_map_inv. Qed.

Lemma counts_channels D ncl chs st : counts D ncl (channels_used ncl chs) st ->
  Forall (fun c => c < ncl) chs -> Forall (fun c => c < length (s_classical st)) (channels_used ncl chs).
Proof.
  intros [E _] H. rewrite E. unfold channels_used. destruct chs; [|exact H].
  apply Forall_forall. intros c Hc. apply in_seq in Hc. lia.
Qed.


Lemma named_counts D (ncl : nat) chs st vs : Forall (fun v => v < dL D) vs -> classical_read chs st = map INR vs ->
  named D chs st = outcome_string D vs.
Proof. intros H E. unfold named. rewrite E. now apply plot_name_values. Qed.
Lemma named_reads D ncl chs st vs : 1 <= dL D -> counts D ncl chs st -> Forall (fun v => v < dL D) vs ->
  leqb (named D chs st) (outcome_string D vs) = reads chs st vs.
Proof.
  intros HL (_ & us & Hu & E) Hv. unfold reads. rewrite (named_counts D ncl chs st us) by auto. rewrite E.
  destruct (values_eqb (map INR us) (map INR vs)) eqn:Ev.
  - apply values_eqb_spec, map_INR_inj in Ev. subst. now apply leqb_spec.
  - destruct (leqb _ _) eqn:El; [|reflexivity]. apply leqb_spec, outcome_string_inj in El; auto. subst.
    rewrite (proj2 (values_eqb_spec _ _) eq_refl) in Ev. discriminate.
Qed.
Lemma reads_small D ncl chs st vs : counts D ncl chs st -> reads chs st vs = true -> Forall (fun v => v < dL D) vs.
Proof.
  intros (_ & us & Hu & E) H. unfold reads in H. apply values_eqb_spec in H. rewrite E in H. apply map_INR_inj in H. now subst.
Qed.
Lemma counts_reads D ncl chs st : counts D ncl chs st -> exists vs, Forall (fun v => v < dL D) vs /\ reads chs st vs = true.
Proof. intros (_ & us & Hu & E). exists us. split; auto. unfold reads. now apply values_eqb_spec. Qed.

Lemma histogram_values ord D ncl chs inits sts : listing ord -> 1 <= dL D ->
  Forall (counts D ncl chs) sts -> Forall (fun st => Forall (fun c => c < length (s_classical st)) chs) sts ->
  exists h, histogram_of ord D chs inits sts = Some h /\
    NoDup (map fst h) /\
    (forall l, In l (map fst h) <-> exists st, In st sts /\ selected inits st /\ s_init st = l) /\
    forall l es, In (l, es) h -> exists vss, NoDup vss /\ Forall (Forall (fun v => v < dL D)) vss /\
      (forall vs, In vs vss <-> exists st, In st sts /\ selected inits st /\ reads chs st vs = true) /\
      es = map (fun vs => (outcome_string D vs, reading_weight chs l vs sts)) vss.
Proof.
  intros Hord HL Hc Hch. rewrite Forall_forall in Hc, Hch.
  destruct (histogram_of_spec ord D chs inits sts Hord) as (h & Eh & H1 & H2 & H3). { intros. now apply Hch. }
  exists h. split; [exact Eh|]. split; [exact H1|]. split; [exact H2|].
  intros l es Hin. destruct (H3 l es Hin) as (J1 & J2 & J3).
  destruct (nodup_preimage (outcome_string D) (fun vs => Forall (fun v => v < dL D) vs) (map fst es)) as (vss & Em & HF).
  { intros o Ho. apply J2 in Ho. destruct Ho as (st & Hs & _ & <-). destruct (Hc st Hs) as (_ & vs & Hv & E).
    exists vs. split; auto. symmetry. now apply (named_counts D ncl). }
  exists vss. split; [apply (NoDup_map_inv (outcome_string D)); now rewrite Em|]. split; [exact HF|].
  rewrite Forall_forall in HF. split.
  - intros vs. split.
    + intros Hv. assert (Ho : In (outcome_string D vs) (map fst es)) by (rewrite <- Em; now apply in_map).
      apply J2 in Ho. destruct Ho as (st & Hs & Hsel & En). exists st. split; auto. split; auto.
      rewrite <- (named_reads D ncl chs st vs) by auto. now apply leqb_spec.
    + intros (st & Hs & Hsel & Hr). pose proof (reads_small D ncl chs st vs (Hc st Hs) Hr) as Hv.
      assert (Ho : In (outcome_string D vs) (map fst es)).
      { apply J2. exists st. split; auto. split; auto. apply leqb_spec. rewrite (named_reads D ncl); auto. }
      rewrite <- Em in Ho. apply in_map_iff in Ho. destruct Ho as (us & E & Hu). apply outcome_string_inj in E; auto. now subst.
  - assert (Ew : forall o p, In (o, p) es -> forall vs, In vs vss -> outcome_string D vs = o -> p = reading_weight chs l vs sts).
    { intros o p Hp vs Hv <-. rewrite (J3 _ _ Hp). unfold W, reading_weight. apply Rsum_ext. intros st Hs.
      rewrite (named_reads D ncl) by auto. reflexivity. }
    clear -Em Ew. revert vss Em Ew. induction es as [|[o p] es IH]; intros [|vs vss] Em Ew; try discriminate; [reflexivity|].
    cbn [map fst] in Em. injection Em as E1 E2. cbn [map]. f_equal.
    + f_equal; [auto|]. apply (Ew o p); [now left|now left|auto].
    + apply IH; auto. intros o' p' Ho vs' Hv. apply Ew; now right.
Qed.

(** The histogram of a collection whose values are photon numbers: for every label a list with
    one entry for every combination of values that occurs for the selected labels; the
    probability is the sum of the weights of the states with this label and these values. *)
Theorem C50_histogram : forall rnd ord cs chs inits,
  listing ord -> 1 <= dL (co_D cs) -> ordinary (co_items cs) ->
  Forall (fun c => c < co_ncl cs) chs ->
  Forall (fun it => counts (co_D cs) (co_ncl cs) (channels_used (co_ncl cs) chs) (snd it)) (co_items cs) ->
  exists h, plot rnd ord cs chs inits = Some h /\
    NoDup (map fst h) /\
    (forall l, In l (map fst h) <-> exists it, In it (co_items cs) /\ selected inits (snd it) /\ s_init (snd it) = l) /\
    forall l es, In (l, es) h -> exists vss, NoDup vss /\
      (forall vs, In vs vss <-> exists it, In it (co_items cs) /\ selected inits (snd it) /\
                     reads (channels_used (co_ncl cs) chs) (snd it) vs = true) /\
      es = map (fun vs => (outcome_string (co_D cs) vs,
                           reading_weight (channels_used (co_ncl cs) chs) l vs (map snd (co_items cs)))) vss.
Proof.
  intros rnd ord cs chs inits Hord HL Ho Hch Hc. unfold plot. rewrite (all_have_false _ _ Ho).
  change (match chs with [] => seq 0 (co_ncl cs) | _ :: _ => chs end) with (channels_used (co_ncl cs) chs).
  destruct (histogram_values ord (co_D cs) (co_ncl cs) (channels_used (co_ncl cs) chs) inits (map snd (co_items cs)) Hord HL)
    as (h & Eh & H1 & H2 & H3).
  { apply Forall_map. exact Hc. }
  { apply Forall_map. eapply Forall_impl; [|exact Hc]. intros it Hit. apply (counts_channels (co_D cs)); [exact Hit|exact Hch]. }
  assert (Hex : forall P : state -> Prop, (exists st, In st (map snd (co_items cs)) /\ P st) <-> exists it, In it (co_items cs) /\ P (snd it)).
  { intros P. split.
    - intros (st & Hs & Hp). apply in_map_iff in Hs. destruct Hs as (it & <- & Hi). eauto.
    - intros (it & Hi & Hp). exists (snd it). split; [now apply in_map|auto]. }
  exists h. split; [exact Eh|]. split; [exact H1|]. split.
  - intros l. rewrite H2. apply (Hex (fun st => selected inits st /\ s_init st = l)).
  - intros l es Hin. destruct (H3 l es Hin) as (vss & N & _ & Hv & E). exists vss. split; auto. split; auto.
    intros vs. rewrite Hv. apply (Hex (fun st => selected inits st /\ reads _ st vs = true)).
Qed.

(** The probabilities for one label add up to the weights of the states with this label. *)
Theorem C50_total : forall rnd ord cs chs inits h l es,
  listing ord -> 1 <= dL (co_D cs) -> ordinary (co_items cs) ->
  Forall (fun c => c < co_ncl cs) chs ->
  Forall (fun it => counts (co_D cs) (co_ncl cs) (channels_used (co_ncl cs) chs) (snd it)) (co_items cs) ->
  plot rnd ord cs chs inits = Some h -> In (l, es) h ->
  Rsum es snd = label_weight l (map snd (co_items cs)).
Proof.
  intros rnd ord cs chs inits h l es Hord HL Ho Hch Hc Eh Hin.
  destruct (C50_histogram rnd ord cs chs inits Hord HL Ho Hch Hc) as (h' & Eh' & H1 & H2 & H3).
  rewrite Eh in Eh'. injection Eh' as <-. destruct (H3 l es Hin) as (vss & N & Hv & ->).
  rewrite Rsum_map. cbn [snd]. unfold reading_weight, label_weight. rewrite Rsum_swap. apply Rsum_ext. intros st Hs.
  destruct (leqb (s_init st) l) eqn:El; [|apply Rsum_zero; reflexivity]. apply leqb_spec in El.
  apply in_map_iff in Hs. destruct Hs as (it & <- & Hi). rewrite Forall_forall in Hc.
  destruct (counts_reads _ _ _ _ (Hc it Hi)) as (vs & _ & Hr).
  rewrite (Rsum_single vss vs).
  - now rewrite Hr.
  - exact N.
  - apply Hv. exists it. split; auto. split; auto.
    assert (Hl : In l (map fst h)) by exact (in_map fst _ _ Hin). apply H2 in Hl. destruct Hl as (it2 & _ & Hsel & E2).
    unfold selected in *. rewrite El, <- E2. exact Hsel.
  - intros y Hy Hne. destruct (reads _ (snd it) y) eqn:Ey; [|reflexivity]. exfalso. apply Hne.
    unfold reads in *. apply values_eqb_spec in Ey, Hr. rewrite Ey in Hr. now apply map_INR_inj in Hr.
Qed.

(** The strings of a histogram are the names of the optical components with these photon numbers,
    as long as channel 0 is on the left or photon numbers have one digit. *)
Theorem C50_names : forall D vs, 1 <= dL D -> Forall (fun v => v < dL D) vs -> (dLeft D = true \/ dL D <= 10) ->
  outcome_string D vs = name_string D vs.
Proof.
  intros D vs HL Hv H. unfold outcome_string, name_string. destruct (dLeft D) eqn:El; [reflexivity|].
  destruct H as [H|H]; [discriminate|].
  assert (Ed : digits_per_channel D = 1) by (unfold digits_per_channel; apply ndigits_small; lia). rewrite Ed.
  assert (E : forall us, Forall (fun v => v < dL D) us -> concat (map (pad 1) us) = us).
  { induction 1 as [|u us Hu _ IH]; [reflexivity|]. cbn [map concat]. rewrite IH, pad_1 by lia. reflexivity. }
  rewrite !E; auto. apply Forall_rev. exact Hv.
Qed.
(** Different photon numbers have different strings. *)
Theorem C50_strings_distinct : forall D us vs, 1 <= dL D ->
  Forall (fun v => v < dL D) us -> Forall (fun v => v < dL D) vs -> outcome_string D us = outcome_string D vs -> us = vs.
Proof. exact outcome_string_inj. Qed.

(** ** Values that are not photon numbers *)
Definition merge_state (w x : R) : state := State [97] w [([0;0], (RtoC 1, 1%R))] [x] [] [].
Definition merge_coll : coll := Coll (Dims 3 2 true) 1 0 [([1], merge_state (/2) 0); ([2], merge_state (/4) 3); ([3], merge_state (/4) (1/2))].
(** The claim "different values get different entries" fails: the values 0, 3 (with photon
    numbers below 3) and 1/2 are all counted as '0'. *)
Theorem C50_other_values_refuted : exists rnd ord cs chs,
  listing ord /\ ordinary (co_items cs) /\ Forall (fun c => c < co_ncl cs) chs /\
  Forall (fun it => length (s_classical (snd it)) = co_ncl cs) (co_items cs) /\
  NoDup (map (fun it => classical_read chs (snd it)) (co_items cs)) /\ length (co_items cs) = 3 /\
  plot rnd ord cs chs [] = Some [([97], [([0], 1%R)])].
Proof.
  exists (fun _ => 0), (fun _ l => l), merge_coll, [0].
  split; [intros i l; reflexivity|]. split. { exists ([1], merge_state (/2) 0). split; [now left|]. intros x []. }
  split; [repeat constructor|]. split; [repeat constructor|].
  split. { cbn. repeat constructor; cbn; intros H; repeat destruct H as [H|H]; try contradiction; injection H; lra. }
  split; [reflexivity|].
  assert (E : forall x, (x = 0 \/ x = 3 \/ x = 1/2)%R -> plot_name (Dims 3 2 true) [x] = [0]).
  { intros x Hx. unfold plot_name. cbn [map concat dLeft app]. unfold plot_digit. cbn [dL].
    assert (Hm : (truncate x mod Z.of_nat 3 = 0)%Z).
    { destruct Hx as [->|[->| ->]].
      - change 0%R with (INR 0). rewrite truncate_INR. reflexivity.
      - replace 3%R with (INR 3) by (cbn; lra). rewrite truncate_INR. reflexivity.
      - unfold truncate. destruct (Rle_dec 0 (1/2)); [|exfalso; lra]. unfold Int_part.
        rewrite <- (tech_up (1/2) 1) by (cbn; lra). reflexivity. }
    rewrite Hm. reflexivity. }
  unfold plot. cbn [co_items merge_coll all_have forallb snd]. 
  change (dmem aux_eqb AuxPhotonResolution (s_aux (merge_state (/2) 0))) with false. cbn [andb].
  assert (S : forall h w x, (x = 0 \/ x = 3 \/ x = 1/2)%R -> histo_step (Dims 3 2 true) [0] [] (Some h) (merge_state w x)
                = Some (dset leqb [97] (add_outcome [0] w (or_else (dget leqb [97] h) [])) h)).
  { intros h w x Hx. cbn [histo_step length Nat.ltb Nat.leb andb merge_state s_classical map nth_error option_list].
    rewrite (E x Hx). reflexivity. }
  unfold histogram_of. cbn [co_items merge_coll map snd fold_left co_D]. rewrite !S by auto.
  cbn. do 5 f_equal. lra.
Qed.
(** Exactly which values are merged: those with the same remainder of the integer part modulo L
    (integer parts are taken towards 0, remainders are not negative). *)
Theorem C50_merged_values : forall D xs ys, 1 <= dL D ->
  (plot_name D xs = plot_name D ys <->
   Forall2 (fun x y => (truncate x mod Z.of_nat (dL D) = truncate y mod Z.of_nat (dL D))%Z) xs ys).
Proof.
  intros D xs ys HL. rewrite !plot_name_digits.
  assert (B : forall zs, Forall (fun v => v < dL D) (map (plot_digit D) zs)).
  { intros zs. apply Forall_map, Forall_forall. intros z _. now apply plot_digit_bound. }
  assert (P : forall x y, plot_digit D x = plot_digit D y <-> (truncate x mod Z.of_nat (dL D) = truncate y mod Z.of_nat (dL D))%Z).
  { intros x y. unfold plot_digit.
    pose proof (Z.mod_pos_bound (truncate x) (Z.of_nat (dL D))). pose proof (Z.mod_pos_bound (truncate y) (Z.of_nat (dL D))). lia. }
  split.
  - intros E. apply outcome_string_inj in E; auto. clear B. revert ys E. induction xs as [|x xs IH]; intros [|y ys] E; try discriminate; constructor.
    + cbn [map] in E. injection E as E1 _. now apply P.
    + cbn [map] in E. injection E as _ E2. auto.
  - intros H. f_equal. induction H as [|x y xs ys H _ IH]; [reflexivity|]. cbn [map]. f_equal; [now apply P|exact IH].
Qed.
(** With two-digit photon numbers and channel 0 on the right the string is not the name of the
    component: the digits of each number are reversed too. *)
Theorem C50_two_digits_refuted : exists D vs,
  1 <= dL D /\ Forall (fun v => v < dL D) vs /\
  outcome_string D vs <> name_string D vs /\ outcome_string D vs = name_string D (map (fun v => if v =? 10 then 1 else 10) vs).
Proof.
  exists (Dims 11 2 false), [1; 10]. split; [cbn; lia|]. split; [repeat constructor|]. split; [discriminate|reflexivity].
Qed.

(** ** After a measurement *)
Lemma written_read cl o old new : written cl o old new -> length o = length cl ->
  map (fun c => nth c new 0%R) cl = map INR o.
Proof.
  intros (_ & H & _) Hl. apply nth_ext with (d := 0%R) (d' := 0%R); [rewrite !map_length; auto|].
  intros i Hi. rewrite map_length in Hi.
  rewrite (nth_indep _ 0%R (nth 0 new 0%R)) by (rewrite map_length; auto).
  rewrite (map_nth (fun c => nth c new 0%R)). rewrite H by lia.
  change 0%R with (INR 0). now rewrite map_nth.
Qed.
Lemma possible_length D st opt o : possible D st opt o -> length o = length opt.
Proof. intros (vs & _ & _ & <-). unfold readout. now rewrite map_length. Qed.
Lemma possible_small D st opt o : 1 <= dL D -> possible D st opt o -> Forall (fun v => v < dL D) o.
Proof.
  intros HL (vs & [_ Hv] & _ & <-). unfold readout. apply Forall_map, Forall_forall. intros c _.
  destruct (nth_in_or_default c vs 0) as [H|H]; [rewrite Forall_forall in Hv; auto|lia].
Qed.
Lemma impossible_zero D st opt o : 1 <= dL D -> wf_state D st -> ~ possible D st opt o -> outcome_prob D st opt o = 0%R.
Proof.
  intros HL Hw H. unfold outcome_prob. apply Rsum_zero. intros x Hx. destruct (leqb _ o) eqn:E; [|reflexivity].
  exfalso. apply H. apply leqb_spec in E. destruct Hw as [_ Hw]. destruct (Hw (fst x)) as (vs & Hv & En); [now apply in_map|].
  exists vs. split; auto. split; [rewrite <- En; now apply in_map|]. rewrite <- E, En. f_equal. symmetry.
  apply values_of_name_string. apply Hv.
Qed.

Lemma measured_reading X rnd c k opt cl nd cs cs' :
  wf_circuit c -> k < length (c_nodes c) ->
  measure_optical_to_classical (dN (c_D c)) (c_ncl c) opt cl = Some nd -> node_at c k = nd -> NoDup cl ->
  wf_items (c_D c) (co_items cs) -> unmarked (co_items cs) ->
  Forall (fun it => state_norm2 (snd it) = 1%R /\ (0 <= s_cum (snd it) <= 1)%R) (co_items cs) ->
  evaluate_nodes X rnd c [k] cs = Ok cs' ->
  exists groups, co_items cs' = concat groups /\
    Forall2 (fun it g => one_per_outcome (c_D c) opt (snd it) g (fun o new =>
       s_init (snd new) = s_init (snd it) /\ s_aux (snd new) = s_aux (snd it) /\
       s_cum (snd new) = (s_cum (snd it) * outcome_prob (c_D c) (snd it) opt o)%R /\
       length (s_classical (snd new)) = c_ncl c /\
       (length o = length opt -> classical_read cl (snd new) = map INR o))) (co_items cs) groups.
Proof.
  intros Hc Hk Hb En Hcl Hw Hu Hn E. pose proof Hc as (HL & _).
  assert (En' : node_at c k = NMeasure opt cl).
  { unfold measure_optical_to_classical in Hb. destruct (_ && _); [|discriminate]. congruence. }
  assert (Hlen : length cl = length opt).
  { unfold measure_optical_to_classical in Hb. destruct (_ && _) eqn:Eb; [|discriminate].
    rewrite !andb_true_iff in Eb. destruct Eb as [[Eb _] _]. now apply Nat.eqb_eq in Eb. }
  destruct (measure_groups X rnd c k opt cl cs cs' Hc Hk En' Hw Hu E) as (groups & Eg & _ & HG).
  exists groups. split; auto. destruct Hw as [_ HF]. clear E Eg Hu.
  induction HG as [|it g its gs [H1 _] HG IH]; [constructor|].
  inversion HF as [|? ? [Hws _] HF']; subst. inversion Hn as [|? ? [Hnorm Hcum] Hn']; subst. constructor; [|now apply IH].
  eapply one_per_outcome_impl; [|exact H1]. intros o new (_ & Hne & Hck & p & Ep & _ & Hp).
  assert (Hl : length (s_classical (snd it)) = c_ncl c).
  { unfold check_state in Hck. apply andb_true_iff in Hck. destruct Hck as [_ Hck]. now apply Nat.eqb_eq. }
  destruct (collapse_collapsed (c_D c) (c_ncl c) opt cl o (snd it) p _ _ HL Hws Hb Hcl Hl) as (A1 & A2 & A3 & _).
  rewrite <- Ep in A1, A2, A3. split; [exact A1|]. split; [exact A2|]. split.
  { rewrite Ep. cbn [collapse s_cum]. apply Hp. assert (H0 : (0 <= outcome_prob (c_D c) (snd it) opt o)%R) by apply outcome_prob_nonneg.
    assert (Hle : (outcome_prob (c_D c) (snd it) opt o <= 1)%R) by (rewrite <- Hnorm; apply outcome_prob_le). destruct it as [i st]. cbn [fst snd] in *. nra. }
  split. { destruct A3 as [A3 _]. congruence. }
  intros Ho. unfold classical_read. eapply written_read; [exact A3|congruence].
Qed.

(** The histogram of the channels a measurement writes to shows the Born probabilities: the entry
    for the reading [o] and the label [l] is the sum over the states with that label of the weight
    times the probability of [o]. *)
Theorem C50_after_measurement : forall X rnd c k opt cl nd cs cs' rnd' ord,
  wf_circuit c -> k < length (c_nodes c) ->
  measure_optical_to_classical (dN (c_D c)) (c_ncl c) opt cl = Some nd -> node_at c k = nd -> NoDup cl -> cl <> [] ->
  wf_items (c_D c) (co_items cs) -> unmarked (co_items cs) ->
  Forall (fun it => state_norm2 (snd it) = 1%R /\ (0 <= s_cum (snd it) <= 1)%R) (co_items cs) ->
  evaluate_nodes X rnd c [k] cs = Ok cs' -> listing ord ->
  exists h, plot rnd' ord cs' cl [] = Some h /\ NoDup (map fst h) /\
    (forall l, In l (map fst h) <-> exists it, In it (co_items cs) /\ s_init (snd it) = l) /\
    forall l es, In (l, es) h -> NoDup (map fst es) /\
      forall o p, Forall (fun v => v < dL (c_D c)) o ->
       (In (outcome_string (c_D c) o, p) es <->
        (exists it, In it (co_items cs) /\ possible (c_D c) (snd it) opt o) /\
        p = Rsum (co_items cs) (fun it => if leqb (s_init (snd it)) l
              then s_cum (snd it) * outcome_prob (c_D c) (snd it) opt o else 0)%R).
Proof.
  intros X rnd c k opt cl nd cs cs' rnd' ord Hc Hk Hb En Hcl Hne Hw Hu Hn E Hord. pose proof Hc as (HL & _).
  assert (En' : node_at c k = NMeasure opt cl).
  { unfold measure_optical_to_classical in Hb. destruct (_ && _); [|discriminate]. congruence. }
  assert (Hcln : Forall (fun ch => ch < c_ncl c) cl).
  { unfold measure_optical_to_classical in Hb. destruct (_ && _) eqn:Eb; [|discriminate].
    rewrite !andb_true_iff in Eb. destruct Eb as [_ Eb]. rewrite forallb_forall in Eb. apply Forall_forall.
    intros ch Hch. apply Nat.ltb_lt. now apply Eb. }
  destruct (measured_reading X rnd c k opt cl nd cs cs' Hc Hk Hb En Hcl Hw Hu Hn E) as (groups & Eg & HG).
  assert (Ec : exists its, cs' = coll_of c its).
  { rewrite (evaluate_measure X rnd c k opt cl cs) in E by auto. destruct (measure_items _ _ _ _ _); [|discriminate]. injection E as <-. eauto. }
  destruct Ec as (its' & ->). cbn [coll_of co_items] in Eg. subst its'. set (cs' := coll_of c (concat groups)) in *.
  assert (Hmem : forall new, In new (concat groups) -> exists it o, In it (co_items cs) /\ possible (c_D c) (snd it) opt o /\
       s_init (snd new) = s_init (snd it) /\ length (s_classical (snd new)) = c_ncl c /\ classical_read cl (snd new) = map INR o).
  { intros new Hnew. apply in_concat in Hnew. destruct Hnew as (g & Hg & Hnew). clear -HG Hg Hnew.
    induction HG as [|it g' its gs (os & _ & Hos & H2) HG IH]; [destruct Hg|]. destruct Hg as [->|Hg].
    - exists it. assert (Hx : exists o, In o os /\ s_init (snd new) = s_init (snd it) /\ length (s_classical (snd new)) = c_ncl c /\
         (length o = length opt -> classical_read cl (snd new) = map INR o)).
      { clear -H2 Hnew. induction H2 as [|o n os g (A1 & _ & _ & A4 & A5) _ IH]; [destruct Hnew|].
        destruct Hnew as [->|Hnew]; [exists o; split; [now left|auto]|]. destruct (IH Hnew) as (o' & H & HH). exists o'. split; [now right|auto]. }
      destruct Hx as (o & Ho & B1 & B2 & B3). apply Hos in Ho. exists o. split; [now left|]. split; auto. split; auto. split; auto.
      apply B3. now apply possible_length in Ho.
    - destruct (IH Hg) as (it' & o & H & HH). exists it', o. split; [now right|auto]. }
  assert (Hhave : forall it o, In it (co_items cs) -> possible (c_D c) (snd it) opt o -> exists new, In new (concat groups) /\
       s_init (snd new) = s_init (snd it) /\ s_aux (snd new) = s_aux (snd it) /\ classical_read cl (snd new) = map INR o).
  { intros it o Hit Ho. clear -HG Hit Ho. induction HG as [|it' g its gs (os & _ & Hos & H2) HG IH]; [destruct Hit|].
    destruct Hit as [->|Hit].
    - pose proof (possible_length _ _ _ _ Ho) as Hl. apply Hos in Ho. clear -Hl Ho H2. cbn [concat].
      assert (Hx : exists new, In new g /\ s_init (snd new) = s_init (snd it) /\ s_aux (snd new) = s_aux (snd it) /\ classical_read cl (snd new) = map INR o).
      { induction H2 as [|o' n os g (A1 & A2 & _ & _ & A5) _ IH]; [destruct Ho|]. destruct Ho as [->|Ho].
        - exists n. split; [now left|auto].
        - destruct (IH Ho) as (n' & H & HH). exists n'. split; [now right|auto]. }
      destruct Hx as (n & H & HH). exists n. split; [apply in_or_app; auto|auto].
    - destruct (IH Hit) as (n & H & HH). exists n. split; [cbn [concat]; apply in_or_app; auto|auto]. }
  assert (Hposs : forall it, In it (co_items cs) -> exists o, possible (c_D c) (snd it) opt o).
  { intros it Hit. destruct Hw as [_ HF]. rewrite Forall_forall in HF. destruct (HF it Hit) as [[Hnd Hv] Hcs].
    destruct (s_comps (snd it)) as [|x r] eqn:Ecs; [contradiction|]. destruct (Hv (fst x)) as (vs & Hvs & Enm); [now left|].
    exists (readout opt vs). exists vs. split; auto. split; auto. rewrite Ecs, <- Enm. now left. }
  assert (Hcu : channels_used (co_ncl cs') cl = cl) by (destruct cl; [contradiction|reflexivity]).
  assert (Hord' : ordinary (co_items cs')).
  { destruct Hu as [(it & Hit & Hx) _]. destruct (Hposs it Hit) as (o & Ho). destruct (Hhave it o Hit Ho) as (n & Hn' & _ & Ea & _).
    exists n. split; auto. rewrite Ea. exact Hx. }
  destruct (C50_histogram rnd' ord cs' cl [] Hord HL Hord' Hcln) as (h & Eh & H1 & H2 & H3).
  { rewrite Hcu. apply Forall_forall. intros new Hnew. destruct (Hmem new Hnew) as (it & o & _ & Ho & _ & Hl & Er).
    split; [exact Hl|]. exists o. split; auto. eapply possible_small; eauto. }
  exists h. split; [exact Eh|]. split; [exact H1|]. split.
  { intros l. rewrite H2. split.
    - intros (new & Hnew & _ & El). destruct (Hmem new Hnew) as (it & o & Hit & _ & Ei & _). exists it. split; auto. congruence.
    - intros (it & Hit & El). destruct (Hposs it Hit) as (o & Ho). destruct (Hhave it o Hit Ho) as (n & Hn' & Ei & _).
      exists n. split; auto. split; [now left|congruence]. }
  rewrite Hcu in H3. intros l es Hin. destruct (H3 l es Hin) as (vss & N & Hv & ->).
  assert (Hvs : forall vs, In vs vss <-> exists it, In it (co_items cs) /\ possible (c_D c) (snd it) opt vs).
  { intros vs. rewrite Hv. split.
    - intros (new & Hnew & _ & Hr). destruct (Hmem new Hnew) as (it & o & Hit & Ho & _ & _ & Er). exists it. split; auto.
      unfold reads in Hr. apply values_eqb_spec in Hr. rewrite Er in Hr. apply map_INR_inj in Hr. now subst.
    - intros (it & Hit & Ho). destruct (Hhave it vs Hit Ho) as (n & Hn' & _ & _ & Er). exists n. split; auto. split; [now left|].
      unfold reads. now apply values_eqb_spec. }
  assert (Hsm : forall vs, In vs vss -> Forall (fun v => v < dL (c_D c)) vs).
  { intros vs Hvv. apply Hvs in Hvv. destruct Hvv as (it & _ & Ho). eapply possible_small; eauto. }
  assert (Hweight : forall o, length o = length opt -> reading_weight cl l o (map snd (co_items cs')) =
     Rsum (co_items cs) (fun it => if leqb (s_init (snd it)) l then s_cum (snd it) * outcome_prob (c_D c) (snd it) opt o else 0)%R).
  { intros o Hlo. unfold reading_weight. change (co_items cs') with (concat groups). rewrite Rsum_map. destruct Hw as [_ HF]. clear -HG HF HL Hlo.
    induction HG as [|it g its gs (os & NDo & Hos & HA) HG IH]; [reflexivity|]. inversion HF as [|? ? [Hws _] HF']; subst.
    cbn [concat]. rewrite Rsum_app, Rsum_cons, IH by auto. f_equal. clear IH HG HF HF'.
    transitivity (Rsum os (fun o' => if leqb (s_init (snd it)) l then if leqb o' o then s_cum (snd it) * outcome_prob (c_D c) (snd it) opt o' else 0 else 0)%R).
    - assert (Hlos : forall o', In o' os -> length o' = length opt) by (intros o' Ho'; apply Hos in Ho'; now apply possible_length in Ho').
      clear -HA Hlos Hlo. induction HA as [|o' n os g (A1 & _ & A3 & _ & A5) _ IH]; [reflexivity|].
      rewrite !Rsum_cons, IH by (intros; apply Hlos; now right). f_equal. rewrite A1. destruct (leqb (s_init (snd it)) l); [|reflexivity].
      unfold reads. rewrite A5 by (apply Hlos; now left). destruct (leqb o' o) eqn:Eo.
      + apply leqb_spec in Eo. subst. rewrite (proj2 (values_eqb_spec _ _) eq_refl). exact A3.
      + destruct (values_eqb (map INR o') (map INR o)) eqn:Ev; [|reflexivity]. apply values_eqb_spec, map_INR_inj in Ev. subst.
        rewrite (proj2 (leqb_spec _ _) eq_refl) in Eo. discriminate.
    - destruct (leqb (s_init (snd it)) l); [|apply Rsum_zero; reflexivity].
      destruct (in_dec (list_eq_dec Nat.eq_dec) o os) as [Hi|Hi].
      + rewrite (Rsum_single os o); auto; [now rewrite (proj2 (leqb_spec o o) eq_refl)|].
        intros x Hx Hnx. destruct (leqb x o) eqn:Ex; [apply leqb_spec in Ex; contradiction|reflexivity].
      + rewrite impossible_zero; [|auto|auto|intros Hp; apply Hi, Hos; exact Hp]. rewrite Rmult_0_r. apply Rsum_zero.
        intros x Hx. destruct (leqb x o) eqn:Ex; [apply leqb_spec in Ex; subst; contradiction|reflexivity]. }
  split.
  { rewrite map_map. cbn [fst]. clear -N Hsm HL. induction N as [|vs r Hni N IH]; [constructor|]. cbn [map]. constructor.
    - intros Hi. apply in_map_iff in Hi. destruct Hi as (us & Eu & Hu). apply outcome_string_inj in Eu; auto; [now subst| |].
      + apply Hsm. now right.
      + apply Hsm. now left.
    - apply IH. intros; apply Hsm; now right. }
  intros o p Hos. rewrite in_map_iff. split.
  - intros (vs & Evs & Hvv). injection Evs as E1 <-. apply outcome_string_inj in E1; auto. subst vs.
    split; [now apply Hvs|]. apply Hweight. apply Hvs in Hvv. destruct Hvv as (it & _ & Ho). now apply possible_length in Ho.
  - intros [Ho ->]. exists o. split; [|now apply Hvs]. f_equal. apply Hweight. destruct Ho as (it & _ & Ho). now apply possible_length in Ho.
Qed.

(** A case: the photon that is in channel 0 or 1 with weight 1/2 of C20_case. *)
Example C50_measurement_case : exists cs' h es,
  evaluate_nodes (Externals (fun _ _ _ => None) (fun _ _ _ => None)) (fun _ => 0) measure_circuit [0] measure_input = Ok cs' /\
  plot (fun _ => 0) (fun _ l => l) cs' [1] [] = Some h /\ In ([120], es) h /\ In ([1], (/4)%R) es.
Proof.
  destruct C20_case as (Hc & Hb & Hcl & Hw & Hu & Hn & Hpos & P1 & cs' & E).
  assert (Hk0 : 0 < length (c_nodes measure_circuit)) by (cbn; lia).
  assert (Hl : listing (fun _ l => l)) by (intros i l; reflexivity).
  assert (Hne : [1] <> []) by discriminate.
  destruct (C50_after_measurement _ _ measure_circuit 0 [0] [1] _ measure_input cs' (fun _ => 0) (fun _ l => l) Hc Hk0 Hb eq_refl Hcl Hne Hw Hu Hn E Hl)
    as (h & Eh & N & Hk & Hv).
  assert (Hin : In [120] (map fst h)) by (apply Hk; exists ([97], split_photon); split; [now left|reflexivity]).
  apply in_map_iff in Hin. destruct Hin as ([l es] & El & Hin). cbn [fst] in El. subst l. exists cs', h, es.
  split; [exact E|]. split; [exact Eh|]. split; [exact Hin|].
  change [1] with (outcome_string (c_D measure_circuit) [1]). apply (Hv [120] es Hin); [repeat constructor|]. split.
  - exists ([97], split_photon). split; [now left|]. apply Hpos. now right.
  - cbn [co_items measure_input coll_of]. rewrite !Rsum_cons. cbn [fst snd].
    change (leqb (s_init split_photon) [120]) with true. change (leqb (s_init photon_1) [120]) with false. cbv iota.
    change (c_D measure_circuit) with (Dims 2 2 true). rewrite P1. unfold Rsum. cbn. field.
Qed.
