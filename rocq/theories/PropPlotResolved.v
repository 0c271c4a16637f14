(** C52: histograms of photon-resolved collections. *)
From Coq Require Import Reals List Arith Lia Lra Bool Permutation.
From Coquelicot Require Import Complex.
From Verif Require Import Prelude NamesModel NamesSpec NamesProofs FockModel FockSpec BosonProofs FockProofs GateProofs PropFock StateModel StateSpec StateProofs ApplyProofs
  CollectionModel EvalModel EvalSpec EvalProofs MeasureSpec MeasureProofs WfProofs PropState PropMeasure PropEval PropCollection PropBridge PropPRMeasure PropPROptics OperatorModel ColumnModel ColumnSpec ColumnProofs PropColumn
  GroupProofs TemporalSpec TemporalProofs ResolvedProofs PropTemporal PropDelays InterferenceSpec ArrangementProofs InterferenceProofs MeasuredProofs PropInterference ExperimentSpec ExperimentProofs PermanentProofs PropPermanent SentProofs ConservationProofs PropExperiment PropCoherent
  PlotModel PlotSpec PlotProofs PropPlot PlotResolvedProofs.
Import ListNotations.

(** Groups with the classical values of their states. *)
Definition shown : Type := bundle * list R.
Definition show_read (chs : list nat) (bk : shown) : list R := map (fun c => nth c (snd bk) 0%R) chs.
Definition shows (chs : list nat) (bk : shown) (vs : values) : bool := values_eqb (show_read chs bk) (map INR vs).
(** The weights of the groups with the label [l] that show the values [vs]. *)
Definition group_reading (chs : list nat) (l : ident) (vs : values) (bks : list shown) : R :=
  Rsum bks (fun bk => if leqb (bd_label (fst bk)) l then if shows chs bk vs then bd_weight (fst bk) else 0 else 0)%R.
(** A group that can be drawn: a weight between 0 and 1, amplitudes with norm 1, and the same
    photon numbers as classical values in all its states. *)
Definition drawable (D : dims) (chs : list nat) (bk : shown) : Prop :=
  (0 <= bd_weight (fst bk) <= 1)%R /\ Rsum (bd_rays (fst bk)) (fun r => Cnorm2 (ry_amplitude r)) = 1%R /\
  Forall (fun st => s_classical st = snd bk) (bundle_states (fst bk)) /\
  exists vs, Forall (fun v => v < dL D) vs /\ show_read chs bk = map INR vs.

Lemma forall2_left {A B} (R : A -> B -> Prop) l l' a : Forall2 R l l' -> In a l -> exists b, In b l' /\ R a b.
Proof. induction 1 as [|x y l l' H _ IH]; intros Hin; [destruct Hin|]. destruct Hin as [->|Hin]; [exists y; split; [now left|auto]|]. destruct (IH Hin) as (b & Hb & HR). exists b. split; [now right|auto]. Qed.
Lemma plotted_values D eps ncl b sts k : Forall (fun st => s_classical st = k) (bundle_states b) -> plotted D eps ncl b sts ->
  Forall (fun st => s_init st = bd_label b /\ s_classical st = k) sts.
Proof.
  intros Hk (_ & HF & _). revert HF. apply Forall_impl. intros st (E & x & Hx & Ec). split; [exact E|]. rewrite Ec. exact (proj1 (Forall_forall _ _) Hk x Hx).
Qed.
Lemma bundle_states_some D eps ncl b : bundle_ok D eps ncl b -> exists st, In st (bundle_states b).
Proof.
  intros (Hne & _ & Hr). destruct (bd_rays b) as [|r l] eqn:E; [congruence|]. pose proof (Forall_inv Hr) as (_ & _ & Hs & _).
  destruct (ry_states r) as [|x xs] eqn:Ex; [congruence|]. exists (snd (fst x)). unfold bundle_states. rewrite E. cbn [flat_map]. rewrite Ex. now left.
Qed.
Lemma carries_all_have cs bs : carries cs bs -> all_have AuxPhotonResolution (co_items cs) = true.
Proof.
  intros HC. unfold all_have. apply forallb_forall. intros it Hit. destruct (carries_state cs bs (snd it) HC (in_map snd _ _ Hit)) as (b & r & x & _ & Hr & Hx & E).
  destruct Hr as (_ & _ & _ & _ & Hf). pose proof (proj1 (Forall_forall _ _) Hf x Hx) as (_ & _ & _ & _ & Hd). unfold dmem. rewrite E, Hd. reflexivity.
Qed.
(** The histogram of a photon-resolved collection has the groups in the place of the states. *)
Theorem C52_histogram : forall rnd ord cs chs inits bks,
  listing ord -> 1 <= dL (co_D cs) -> 1 <= dN (co_D cs) -> (0 <= co_eps cs)%R -> carries cs (map fst bks) ->
  Forall (fun c => c < co_ncl cs) chs ->
  Forall (drawable (co_D cs) (channels_used (co_ncl cs) chs)) bks ->
  exists h, plot rnd ord cs chs inits = Some h /\
    NoDup (map fst h) /\
    (forall l, In l (map fst h) <-> exists bk, In bk bks /\ (inits = [] \/ In l inits) /\ bd_label (fst bk) = l) /\
    forall l es, In (l, es) h -> exists vss, NoDup vss /\
      (forall vs, In vs vss <-> exists bk, In bk bks /\ (inits = [] \/ In (bd_label (fst bk)) inits) /\
                     shows (channels_used (co_ncl cs) chs) bk vs = true) /\
      es = map (fun vs => (outcome_string (co_D cs) vs, group_reading (channels_used (co_ncl cs) chs) l vs bks)) vss.
Proof.
  intros rnd ord cs chs inits bks Hord HL HN He HC Hch Hdr.
  destruct (pre_plot_spec rnd cs (map fst bks) HN He HC) as (c & bs2 & stss & Epp & Hp & HF & Ec).
  { apply Forall_map. revert Hdr. apply Forall_impl. intros bk H. split; apply H. }
  destruct (Permutation_map_inv _ _ (Permutation_sym Hp)) as (bks2 & -> & Hp2). apply Permutation_sym in Hp2.
  assert (Hlen : Forall (fun bk : shown => length (snd bk) = co_ncl cs) bks).
  { destruct HC as (_ & _ & Hok). apply Forall_forall. intros bk Hbk. pose proof (proj1 (Forall_forall _ _) Hok (fst bk) (in_map fst _ _ Hbk)) as Hb.
    destruct (bundle_states_some _ _ _ _ Hb) as (st & Hst). destruct (proj1 (Forall_forall _ _) Hdr bk Hbk) as (_ & _ & Hk & _).
    rewrite <- (proj1 (Forall_forall _ _) Hk st Hst). apply (bundle_label_states _ _ _ _ _ Hb Hst). }
  set (chs' := channels_used (co_ncl cs) chs) in *. set (D := co_D cs) in *.
  assert (HG : Forall2 (fun bk sts => In bk bks /\ sts <> [] /\ Forall (fun st => s_init st = bd_label (fst bk) /\ s_classical st = snd bk) sts /\ Rsum sts s_cum = bd_weight (fst bk)) bks2 stss).
  { assert (Hin : incl bks2 bks) by (intros x Hx; exact (Permutation_in _ Hp2 Hx)). clear -HF Hin Hdr. revert stss HF. induction bks2 as [|bk bks2 IH]; intros stss HF; cbn [map] in HF; inversion HF; subst; constructor.
    - assert (Hbk : In bk bks) by (apply Hin; now left). split; [exact Hbk|]. destruct (proj1 (Forall_forall _ _) Hdr bk Hbk) as (_ & _ & Hk & _).
      split; [apply H1|]. split; [exact (plotted_values _ _ _ _ _ _ Hk H1)|apply H1].
    - apply IH; [intros x Hx; apply Hin; now right|assumption]. }
  assert (Hstate : forall st, In st (concat stss) -> exists bk, In bk bks /\ s_init st = bd_label (fst bk) /\ s_classical st = snd bk).
  { intros st Hst. apply in_concat in Hst. destruct Hst as (sts & Hs1 & Hs2). destruct (Forall2_in_r_ex _ _ _ _ HG Hs1) as (bk & _ & Hbk & _ & Hf & _).
    exists bk. split; [exact Hbk|]. exact (proj1 (Forall_forall _ _) Hf st Hs2). }
  assert (Hbundle : forall bk, In bk bks -> exists st, In st (concat stss) /\ s_init st = bd_label (fst bk) /\ s_classical st = snd bk).
  { intros bk Hbk. apply (Permutation_in _ (Permutation_sym Hp2)) in Hbk. destruct (forall2_left _ _ _ bk HG Hbk) as (sts & Hs & _ & Hne & Hf & _).
    destruct sts as [|st sts]; [congruence|]. exists st. split; [apply in_concat; eexists; split; [exact Hs|now left]|]. exact (Forall_inv Hf). }
  assert (Hrw : forall l vs, reading_weight chs' l vs (concat stss) = group_reading chs' l vs bks).
  { intros l vs. unfold group_reading. rewrite <- (Rsum_perm _ _ _ Hp2). unfold reading_weight. clear -HG. induction HG as [|bk sts bks2 stss (_ & _ & Hf & Hs) _ IH]; [reflexivity|].
    cbn [concat]. rewrite Rsum_app, Rsum_cons, IH. f_equal. rewrite <- Hs. clear -Hf.
    assert (E : forall st, In st sts -> (if leqb (s_init st) l then if reads chs' st vs then s_cum st else 0 else 0)%R = if leqb (bd_label (fst bk)) l then if shows chs' bk vs then s_cum st else 0%R else 0%R).
    { intros st Hst. destruct (proj1 (Forall_forall _ _) Hf st Hst) as [-> E]. unfold reads, shows, classical_read, show_read. rewrite E. reflexivity. }
    rewrite (Rsum_ext _ _ _ E). destruct (leqb _ l); [|apply Rsum_zero; reflexivity]. destruct (shows _ _ _); [reflexivity|apply Rsum_zero; reflexivity]. }
  destruct (histogram_values ord D (co_ncl cs) chs' inits (concat stss) Hord HL) as (h & Eh & H1 & H2 & H3).
  { apply Forall_forall. intros st Hst. destruct (Hstate st Hst) as (bk & Hbk & _ & E). split; [rewrite E; exact (proj1 (Forall_forall _ _) Hlen bk Hbk)|].
    destruct (proj1 (Forall_forall _ _) Hdr bk Hbk) as (_ & _ & _ & vs & Hv & Er). exists vs. split; [exact Hv|]. unfold classical_read. rewrite E. exact Er. }
  { apply Forall_forall. intros st Hst. destruct (Hstate st Hst) as (bk & Hbk & _ & E). rewrite E, (proj1 (Forall_forall _ _) Hlen bk Hbk).
    unfold chs', channels_used. destruct chs; [apply Forall_forall; intros x Hx; apply in_seq in Hx; lia|exact Hch]. }
  exists h. split; [|split; [exact H1|split]].
  - unfold plot. rewrite (carries_all_have cs _ HC), Epp. fold D. rewrite Ec. exact Eh.
  - intros l. rewrite H2. split.
    + intros (st & Hst & Hsel & <-). destruct (Hstate st Hst) as (bk & Hbk & Ei & _). exists bk. split; [exact Hbk|]. split; [exact Hsel|now symmetry].
    + intros (bk & Hbk & Hsel & <-). destruct (Hbundle bk Hbk) as (st & Hst & Ei & _). exists st. split; [exact Hst|]. split; [unfold selected; rewrite Ei; exact Hsel|exact Ei].
  - intros l es Hin. destruct (H3 l es Hin) as (vss & N & _ & Hv & E). exists vss. split; [exact N|]. split.
    + intros vs. rewrite Hv. split.
      * intros (st & Hst & Hsel & Hr). destruct (Hstate st Hst) as (bk & Hbk & Ei & Ek). exists bk. split; [exact Hbk|]. unfold selected in Hsel. rewrite Ei in Hsel. split; [exact Hsel|].
        unfold reads, classical_read in Hr. rewrite Ek in Hr. exact Hr.
      * intros (bk & Hbk & Hsel & Hr). destruct (Hbundle bk Hbk) as (st & Hst & Ei & Ek). exists st. split; [exact Hst|]. unfold selected. rewrite Ei. split; [exact Hsel|].
        unfold reads, classical_read. rewrite Ek. exact Hr.
    + rewrite E. apply map_ext. intros vs. now rewrite Hrw.
Qed.

Lemma written_unique cl o old new new' : length o = length cl -> written cl o old new -> written cl o old new' -> new = new'.
Proof.
  intros Hl (L1 & A1 & B1) (L2 & A2 & B2). apply nth_ext with (d := 0%R) (d' := 0%R); [congruence|]. intros c _.
  destruct (in_dec Nat.eq_dec c cl) as [Hc|Hc]; [|now rewrite B1, B2].
  apply (In_nth _ _ 0) in Hc. destruct Hc as (i & Hi & <-). rewrite A1, A2 by lia. reflexivity.
Qed.
Lemma sum_positive {A} (l : list A) f : (0 < Rsum l f)%R -> exists x, In x l.
Proof. destruct l as [|x l]; [unfold Rsum; cbn; lra|]. intros _. exists x. now left. Qed.

(** The histogram of the measured channels after the experiment of C49 (delay, optical elements,
    measurement) shows the probabilities of the interference of the photons. *)
Theorem C52_experiment : forall rnd0 X rnd rnd' rnd2 ord D ncl eps full chs d w es nds opt cl cs inits,
  2 <= dL D /\ outcomes_clear (dL D) opt -> 2 <= dN D -> (0 < eps)%R -> w <> 0%R -> Forall (optic_ok D) es -> place D (optic_gates es) = Some nds ->
  (forall c k, c < dN D -> k < dN D -> transfer (dN D) es c k = RtoC 0 \/ (eps <= Cnorm2 (transfer (dN D) es c k))%R) ->
  Forall (fun ch => ch < dN D) chs -> delay_exists d ncl -> NoDup cl -> cl <> [] -> length opt = length cl -> Forall (fun ch => ch < ncl) cl ->
  co_D cs = D -> co_eps cs = eps -> co_ncl cs = ncl -> delayable cs -> Forall (fun it => sendable D (snd it)) (co_items cs) ->
  listing ord ->
  let p l o := Rsum (filter (fun it => leqb (s_init (snd it)) l) (co_items cs))
                 (fun it => s_cum (snd it) * outcome_detection (dL D) (dN D) (sent_branches D es chs (delay_in d (snd it)) w (snd it)) opt o)%R in
  exists cs' h, evaluate_circuit (with_resolved rnd0 X) rnd (experiment D ncl eps full (time_delay_full rnd' chs d w) nds opt cl) cs = Ok cs' /\
    plot rnd2 ord cs' cl inits = Some h /\ NoDup (map fst h) /\
    (forall l, In l (map fst h) -> (inits = [] \/ In l inits) /\ exists it, In it (co_items cs) /\ s_init (snd it) = l) /\
    (forall l o, (inits = [] \/ In l inits) -> (0 < p l o)%R -> In l (map fst h)) /\
    forall l es, In (l, es) h -> exists os, NoDup os /\ Forall (Forall (fun v => v < dL D)) os /\ es = map (fun o => (outcome_string D o, p l o)) os /\
      forall l' o, (inits = [] \/ In l' inits) -> (0 < p l' o)%R -> In o os.
Proof.
  intros rnd0 X rnd rnd' rnd2 ord D ncl eps full chs d w es nds opt cl cs inits HL HN He Hw Hes Hpl Hthr Hchs Hd NDcl Hcl0 Hlo Hcl ED Ee En Hdl Hsend Hord p.
  destruct (C49_experiment rnd0 X rnd rnd' D ncl eps full chs d w es nds opt cl cs HL HN He Hes Hpl Hthr Hchs Hd NDcl Hcl ED Ee En Hdl Hsend)
    as (cs' & bos & E & _ & ED' & Ee' & En' & HC & _ & HB & HS).
  set (k := fun b => s_classical (hd (State [] 0 [] [] [] []) (bundle_states b))).
  assert (Hok : forall bo, In bo bos -> bundle_ok D eps ncl (fst bo)).
  { intros bo Hbo. destruct HC as (_ & _ & C3). rewrite ED', Ee', En' in C3. exact (proj1 (Forall_forall _ _) C3 _ (in_map fst _ _ Hbo)). }
  assert (Hk : forall bo, In bo bos -> length (snd bo) = length cl /\ Forall (fun v => v < dL D) (snd bo) /\
     Forall (fun st => s_classical st = k (fst bo)) (bundle_states (fst bo)) /\ map (fun c => nth c (k (fst bo)) 0%R) cl = map INR (snd bo)).
  { intros [b o] Hbo. cbn [fst snd]. destruct (HB b o Hbo) as (it & Hit & _ & _ & (f & Hf & Ef) & _ & Hst).
    assert (Hlen : length o = length cl) by (rewrite <- Ef, <- Hlo; unfold readout; apply map_length).
    destruct (bundle_states_some D eps ncl b (Hok (b, o) Hbo)) as (st0 & Hst0).
    assert (Hhd : exists st1, In st1 (bundle_states b) /\ k b = s_classical st1) by (unfold k; destruct (bundle_states b) as [|s l]; [destruct Hst0|]; exists s; split; [now left|reflexivity]).
    destruct Hhd as (st1 & Hst1 & Ek). split; [exact Hlen|]. split; [|split].
    - rewrite <- Ef. apply Forall_forall. intros v Hv. unfold readout in Hv. apply in_map_iff in Hv. destruct Hv as (c & <- & _). apply tuples_in in Hf. destruct Hf as [Hl1 Hf].
      destruct (Nat.lt_ge_cases c (length f)) as [Hc|Hc]; [apply (proj1 (Forall_forall _ _) Hf); now apply nth_In|rewrite nth_overflow by exact Hc; lia].
    - apply Forall_forall. intros st Hin. rewrite Ek. exact (written_unique cl o _ _ _ Hlen (proj2 (Hst st Hin)) (proj2 (Hst st1 Hst1))).
    - rewrite Ek. exact (written_read cl o _ _ (proj2 (Hst st1 Hst1)) Hlen). }
  set (bks := map (fun bo => (fst bo, k (fst bo))) bos).
  assert (Emap : map fst bks = map fst bos) by (unfold bks; rewrite map_map; reflexivity).
  assert (Hch : channels_used ncl cl = cl) by (unfold channels_used; destruct cl; [congruence|reflexivity]).
  destruct (C52_histogram rnd2 ord cs' cl inits bks Hord ltac:(rewrite ED'; lia) ltac:(rewrite ED'; lia) ltac:(rewrite Ee'; lra) ltac:(rewrite Emap; exact HC) ltac:(now rewrite En'))
    as (h & Eh & H1 & H2 & H3).
  { rewrite En', Hch, ED'. unfold bks. apply Forall_map. apply Forall_forall. intros [b o] Hbo. cbn [fst]. destruct (Hk (b, o) Hbo) as (K1 & K2 & K3 & K4). cbn [fst snd] in *.
    destruct (HB b o Hbo) as (it & Hit & _ & Ew & _ & Hn & _). destruct (proj1 (Forall_forall _ _) (proj2 Hdl) it Hit) as ((Hwf & _ & _ & Hcum) & Hne & _). rewrite ED in Hwf.
    set (O := nodup (list_eq_dec Nat.eq_dec) (o :: map (readout opt) (tuples (dL D) (dN D)))).
    destruct (C49_outcomes_total D es chs (delay_in d (snd it)) w (snd it) opt O Hes Hw Hwf (proj1 (Forall_forall _ _) Hsend it Hit) Hne (NoDup_nodup _ _)) as [T1 T2].
    { intros f Hf. apply nodup_In. right. now apply in_map. }
    assert (T3 : (outcome_detection (dL D) (dN D) (sent_branches D es chs (delay_in d (snd it)) w (snd it)) opt o <= 1)%R).
    { rewrite <- T2. apply (Rsum_le_term O _ o); [intros y _; apply T1|]. apply nodup_In. now left. }
    split; [|split; [exact Hn|split; [exact K3|]]].
    - cbn [fst]. rewrite Ew. specialize (T1 o). split; [apply Rmult_le_pos; lra|]. apply Rle_trans with (1 * 1)%R; [|lra]. apply Rmult_le_compat; lra.
    - exists o. split; [exact K2|exact K4]. }
  rewrite ED', En', Hch in *.
  assert (Hgr : forall l o, group_reading cl l o bks = p l o).
  { intros l o. unfold p. rewrite <- HS. unfold group_reading, bks. rewrite Rsum_map, Rsum_filter. apply Rsum_ext. intros [b o'] Hbo. cbn [fst snd].
    destruct (Hk (b, o') Hbo) as (_ & _ & _ & K4). cbn [fst snd] in K4. destruct (leqb (bd_label b) l); [|reflexivity]. cbn [andb].
    assert (Es : shows cl (b, k b) o = leqb o' o).
    { unfold shows, show_read. cbn [snd]. rewrite K4. destruct (leqb o' o) eqn:El; [apply leqb_spec in El; subst; now apply values_eqb_spec|].
      destruct (values_eqb _ _) eqn:Ev; [|reflexivity]. apply values_eqb_spec in Ev. apply map_INR_inj in Ev. subst. now rewrite leqb_same in El. }
    rewrite Es. reflexivity. }
  assert (Hex : forall l o, (0 < p l o)%R -> exists b, In (b, o) bos /\ bd_label b = l).
  { intros l o Hp. unfold p in Hp. rewrite <- HS in Hp. apply sum_positive in Hp. destruct Hp as ([b o'] & Hbo). apply filter_In in Hbo. cbn [fst snd] in Hbo. destruct Hbo as [Hbo Hb].
    apply andb_prop in Hb. destruct Hb as [E1 E2]. apply leqb_spec in E1, E2. subst. now exists b. }
  exists cs', h. split; [exact E|]. split; [exact Eh|]. split; [exact H1|]. split; [|split].
  - intros l Hl. apply H2 in Hl. destruct Hl as (bk & Hbk & Hsel & <-). split; [exact Hsel|]. unfold bks in Hbk. apply in_map_iff in Hbk. destruct Hbk as ([b o] & <- & Hbo). cbn [fst].
    destruct (HB b o Hbo) as (it & Hit & Hlab & _). exists it. split; [exact Hit|now symmetry].
  - intros l o Hsel Hp. apply Hex in Hp. destruct Hp as (b & Hbo & Hlab). apply H2. exists (b, k b). split; [unfold bks; apply in_map_iff; exists (b, o); now split|]. now split.
  - intros l ents Hin. destruct (H3 l ents Hin) as (vss & N & Hv & Ees). exists vss. split; [exact N|]. split; [|split].
    + apply Forall_forall. intros vs Hin2. apply Hv in Hin2. destruct Hin2 as (bk & Hbk & _ & Hsh). unfold bks in Hbk. apply in_map_iff in Hbk. destruct Hbk as ([b o] & <- & Hbo).
      destruct (Hk (b, o) Hbo) as (_ & K2 & _ & K4). cbn [fst snd] in K2, K4. unfold shows, show_read in Hsh. cbn [snd fst] in Hsh. apply values_eqb_spec in Hsh. rewrite K4 in Hsh. apply map_INR_inj in Hsh. now subst.
    + rewrite Ees. apply map_ext. intros o. now rewrite Hgr.
    + intros l' o Hsel Hp. apply Hex in Hp. destruct Hp as (b & Hbo & Hlab). apply Hv. exists (b, k b). split; [unfold bks; apply in_map_iff; exists (b, o); now split|].
      cbn [fst]. rewrite Hlab. split; [exact Hsel|]. unfold shows, show_read. cbn [snd]. apply values_eqb_spec. exact (proj2 (proj2 (proj2 (Hk (b, o) Hbo)))).
Qed.

Lemma gauss_less t w : w <> 0%R -> t <> 0%R -> (gauss t w < 1)%R.
Proof.
  intros Hw Ht. unfold gauss. rewrite <- exp_0. apply exp_increasing.
  assert (0 < ln 2)%R by (rewrite <- ln_1; apply ln_increasing; lra).
  assert (0 < (t / w) ^ 2)%R. { assert (Hq : (t / w)%R <> 0%R); [|pose proof (Rsqr_pos_lt _ Hq) as K; unfold Rsqr in K; cbn [pow]; lra]. intro Z. apply Ht. apply (Rmult_eq_compat_r w) in Z. unfold Rdiv in Z. rewrite Rmult_assoc, Rinv_l, Rmult_0_l, Rmult_1_r in Z; assumption. }
  nra.
Qed.
(** The histogram of the experiment of Hong, Ou and Mandel. *)
Example C52_hong_ou_mandel : forall rnd0 X rnd rnd' rnd2 t w, w <> 0%R ->
  exists nds cs' es, place D22 (optic_gates splitter) = Some nds /\
  evaluate_circuit (with_resolved rnd0 X) rnd (experiment D22 2 (1 / 4) true (time_delay_full rnd' [0] (Delay t) w) nds [0; 1] [0; 1]) hom_coll = Ok cs' /\
  plot rnd2 (fun _ l => l) cs' [0; 1] [] = Some [([49; 49], es)] /\
  In ([2; 0], ((1 + gauss t w) / 4)%R) es /\ In ([0; 2], ((1 + gauss t w) / 4)%R) es /\
  (forall q, In ([1; 1], q) es -> q = ((1 - gauss t w) / 2)%R) /\ (t <> 0%R -> In ([1; 1], ((1 - gauss t w) / 2)%R) es).
Proof.
  intros rnd0 X rnd rnd' rnd2 t w Hw. assert (exists nds, place D22 (optic_gates splitter) = Some nds) as [nds Hpl] by (cbn; eexists; reflexivity). exists nds.
  destruct (C52_experiment rnd0 X rnd rnd' rnd2 (fun _ l => l) D22 2 (1 / 4) true [0] (Delay t) w splitter nds [0; 1] [0; 1] hom_coll []) as (cs' & h & E & Eh & N & H1 & H2 & H3); try reflexivity.
  - split; [cbn; lia|left; cbn; lia].
  - lra.
  - exact Hw.
  - exact splitter_ok.
  - exact Hpl.
  - intros c k Hc Hk. right. change (dN D22) with 2 in *. rewrite splitter_transfer by assumption. pose proof r2_sq as Q. unfold optic_transfer, plate. cbn [fst snd m00 m01 m10 m11].
    destruct c as [|[|c]], k as [|[|k]]; try lia; cbn [Nat.eqb]; rewrite Cnorm2_RtoC; nra.
  - repeat constructor.
  - repeat constructor; cbn; intuition lia.
  - discriminate.
  - repeat constructor.
  - exact hom_delayable.
  - exact hom_sendable.
  - intros i l. reflexivity.
  - assert (HW : forall o : list nat, Rsum (filter (fun it => leqb (s_init (snd it)) [49; 49]) (co_items hom_coll))
                 (fun it => s_cum (snd it) * outcome_detection (dL D22) (dN D22) (sent_branches D22 splitter [0%nat] (delay_in (Delay t) (snd it)) w (snd it)) [0%nat; 1%nat] o)%R
              = outcome_detection 3 2 (sent_branches D22 splitter [0] t w hom_state) [0; 1] o).
    { intro o. unfold Rsum. cbn [hom_coll co_items filter snd hom_state s_init s_cum leqb Nat.eqb andb map fold_right]. cbn. ring. }
    destruct (hom_outcomes t w Hw) as (Q1 & Q2 & Q3). cbv beta zeta in Q1, Q2, Q3.
    pose proof (gauss_bounds t w Hw) as Hg.
    assert (Hl : In [49; 49] (map fst h)) by (apply (H2 _ [2; 0]); [now left|]; rewrite HW, Q2; lra).
    assert (Hlab : forall l, In l (map fst h) -> l = [49; 49]) by (intros l Hin; destruct (H1 l Hin) as (_ & it & [<-|[]] & <-); reflexivity).
    destruct h as [|[l es] [|[l2 es2] h]].
    + destruct Hl.
    + exists cs', es. split; [exact Hpl|]. split; [exact E|]. assert (l = [49; 49]) as -> by (apply Hlab; now left). split; [exact Eh|].
      destruct (H3 _ es (or_introl eq_refl)) as (os & No & Hsm & Ees & Hos).
      assert (Hin : forall o, (0 < outcome_detection 3 2 (sent_branches D22 splitter [0%nat] t w hom_state) [0%nat; 1%nat] o)%R -> In (outcome_string D22 o, outcome_detection 3 2 (sent_branches D22 splitter [0] t w hom_state) [0; 1] o) es).
      { intros o Ho. rewrite Ees. apply in_map_iff. exists o. split; [now rewrite HW|]. apply (Hos [49; 49]); [now left|now rewrite HW]. }
      split; [|split; [|split]].
      * rewrite <- Q2. apply (Hin [2; 0]). rewrite Q2. lra.
      * rewrite <- Q3. apply (Hin [0; 2]). rewrite Q3. lra.
      * intros q Hq. rewrite Ees in Hq. apply in_map_iff in Hq. destruct Hq as (o & Eo & Ho). rewrite HW in Eo. pose proof (f_equal fst Eo) as E1. pose proof (f_equal snd Eo) as E2. cbn [fst snd] in E1, E2. rewrite <- E2, <- Q1. f_equal.
        apply (outcome_string_inj D22); [cbn; lia|exact (proj1 (Forall_forall _ _) Hsm o Ho)|repeat constructor|]. exact E1.
      * intros Ht. rewrite <- Q1. apply (Hin [1; 1]). rewrite Q1. pose proof (gauss_less t w Hw Ht). lra.
    + exfalso. assert (l = [49; 49]) by (apply Hlab; now left). assert (l2 = [49; 49]) by (apply Hlab; right; now left). subst. inversion N as [|? ? Hn _]. apply Hn. now left.
Qed.
