(** C49: a complete interference experiment. States are prepared, some channels are delayed, the
    photons go through optical elements and are counted: how often each outcome occurs follows from
    the one-photon amplitudes of the elements and the overlap of the pulses. *)
From Coq Require Import Reals List Arith Lia Lra Bool Permutation Sorted.
From Coquelicot Require Import Complex.
From Verif Require Import Prelude NamesModel NamesSpec NamesProofs FockModel FockSpec BosonProofs FockProofs GateProofs PropFock StateModel StateSpec StateProofs ApplyProofs
  CollectionModel EvalModel EvalSpec EvalProofs MeasureSpec MeasureProofs WfProofs PropState PropMeasure PropEval PropCollection PropBridge PropPRMeasure PropPROptics OperatorModel ColumnModel ColumnSpec ColumnProofs PropColumn
  GroupProofs TemporalSpec TemporalProofs ResolvedProofs PropTemporal PropDelays InterferenceSpec ArrangementProofs InterferenceProofs MeasuredProofs PropInterference ExperimentSpec ExperimentProofs PermanentProofs PropPermanent SentProofs.
Import ListNotations.

Section Circuit.
Variables (D : dims) (ncl : nat) (eps : R) (full : bool) (f : coll -> option coll) (gs : list (mat2 * list nat)) (nds : list onode) (opt cl : list nat).
Hypothesis (HL : 1 <= dL D) (HN : 2 <= dN D) (Hpl : place D gs = Some nds).
Let c := experiment D ncl eps full (NFunction f) nds opt cl.
Let n := length nds.
Lemma experiment_length : length (c_nodes c) = S (S n).
Proof. unfold c, experiment. cbn [c_nodes length]. rewrite app_length, map_length. cbn [length]. unfold n. lia. Qed.
Lemma experiment_last : node_at c (S n) = NMeasure opt cl.
Proof. unfold node_at, c, experiment. cbn [c_nodes nth]. rewrite app_nth2 by (rewrite map_length; unfold n; lia). rewrite map_length. unfold n. now rewrite Nat.sub_diag. Qed.
Lemma experiment_optical k : In k (seq 1 n) -> k < length (c_nodes c) /\ is_optical (node_at c k) = true.
Proof.
  intro Hk. rewrite experiment_length. apply in_seq in Hk. split; [lia|]. unfold node_at, c, experiment. cbn [c_nodes]. destruct k as [|k]; [lia|]. cbn [nth]. rewrite app_nth1 by (rewrite map_length; unfold n in Hk; lia).
  rewrite (nth_indep _ NSpectrum (NOptical (on_matrix (ONode mat2_id [])) (on_tl (ONode mat2_id [])))) by (rewrite map_length; unfold n in Hk; lia). rewrite (map_nth (fun nd => NOptical (on_matrix nd) (on_tl nd))). reflexivity.
Qed.
Lemma experiment_nodes : flat_map (fun k => onode_of (node_at c k)) (seq 1 n) = nds.
Proof.
  assert (G : forall l pre, flat_map (fun k => onode_of (nth k (pre ++ map (fun nd => NOptical (on_matrix nd) (on_tl nd)) l ++ [NMeasure opt cl]) NSpectrum)) (seq (length pre) (length l)) = l).
  { clear. induction l as [|nd l IH]; intros pre; [reflexivity|]. cbn [length seq flat_map map]. rewrite app_nth2 by lia. rewrite Nat.sub_diag. cbn [app nth onode_of].
    replace (pre ++ NOptical (on_matrix nd) (on_tl nd) :: map (fun nd => NOptical (on_matrix nd) (on_tl nd)) l ++ [NMeasure opt cl])
      with ((pre ++ [NOptical (on_matrix nd) (on_tl nd)]) ++ map (fun nd => NOptical (on_matrix nd) (on_tl nd)) l ++ [NMeasure opt cl]) by (rewrite <- app_assoc; reflexivity).
    replace (S (length pre)) with (length (pre ++ [NOptical (on_matrix nd) (on_tl nd)])) by (rewrite app_length; cbn; lia). rewrite IH. destruct nd. reflexivity. }
  apply (G nds [NFunction f]).
Qed.
Lemma experiment_wf : wf_circuit c.
Proof.
  split; [exact HL|]. split; [exact HN|]. split; [reflexivity|]. cbn [c experiment c_nodes c_D]. constructor; [exact I|]. apply Forall_app. split; [|constructor; [exact I|constructor]].
  apply Forall_map. eapply Forall_impl; [|apply (place_perm D _ nds HN Hpl)]. intros nd H. exact H.
Qed.
Definition after_optics (cs : coll) : coll :=
  match nds with [] => cs | _ => Coll D ncl eps (map (fun it => (fst it, optical_step D eps nds (snd it))) (co_items cs)) end.
Lemma experiment_run X rnd cs cs1 cs3 : f cs = Some cs1 -> wf_items D (co_items cs1) -> Forall (fun it => check_state eps ncl (snd it) = true) (co_items cs1) ->
  all_have AuxPhotonResolution (co_items (after_optics cs1)) = true -> x_resolved X opt cl (after_optics cs1) = Some cs3 ->
  evaluate_circuit X rnd c cs = Ok cs3.
Proof.
  intros Ef Hwf Hck Hall Em. pose proof experiment_length as Hlen. pose proof experiment_last as Nm. pose proof experiment_optical as No. pose proof experiment_nodes as En. pose proof experiment_wf as Hc.
  assert (N0 : node_at c 0 = NFunction f) by reflexivity.
  assert (E1 : evaluate_from X rnd c [0] cs 0 = Ok (cs1, 0)).
  { apply evaluate_from_single; [lia|rewrite N0; exact I|]. rewrite evaluate_single by (try rewrite N0; try reflexivity; lia). unfold run_node. rewrite N0, Ef. reflexivity. }
  assert (E2 : evaluate_from X rnd c (seq 1 n) cs1 0 = Ok (after_optics cs1, 0)).
  { unfold after_optics. destruct nds as [|nd nds'] eqn:E.
    - unfold n. cbn [length seq]. rewrite evaluate_from_evalR. now rewrite evalR_nil.
    - rewrite evaluate_optical_block; [|discriminate|exact No]. rewrite run_optical_spec; [|exact Hc|exact Hwf|discriminate|exact No|exact Hck]. unfold coll_of, opt_step. rewrite En. reflexivity. }
  assert (E3 : evaluate_from X rnd c [S n] (after_optics cs1) 0 = Ok (cs3, 0)).
  { apply evaluate_from_single; [lia|rewrite Nm; exact I|]. rewrite evaluate_single by (try rewrite Nm; try reflexivity; lia). unfold run_node. rewrite Nm, Hall, Em. reflexivity. }
  assert (EQ : seq 1 n ++ [S n] = seq 1 (S n)) by (symmetry; exact (seq_S n 1)).
  unfold evaluate_circuit, evaluate_nodes. rewrite Hlen. replace (seq 0 (S (S n))) with ([0] ++ (seq 1 n ++ [S n])) by (cbn [app]; rewrite EQ; reflexivity).
  assert (HS : StronglySorted lt ([0] ++ seq 1 n ++ [S n])) by (cbn [app]; rewrite EQ; apply (seq_sorted (S (S n)) 0)).
  rewrite C19_two_calls; auto.
  - rewrite E1. cbn [rbind fst snd]. rewrite C19_two_calls; auto.
    + rewrite E2. cbn [rbind fst snd]. rewrite E3. reflexivity.
    + rewrite EQ. apply (seq_sorted (S n) 1).
    + intros k Hk. rewrite EQ in Hk. apply in_seq in Hk. lia.
    + intros k Hk. destruct (No k Hk) as [_ Hopt']. destruct (node_at c k); try reflexivity; discriminate.
    + cbn [cut_ok]. right. right. now rewrite Nm.
  - intros k Hk. cbn [app In] in Hk. rewrite EQ in Hk. destruct Hk as [<-|Hk]; [lia|]. apply in_seq in Hk. lia.
  - intros k [<-|[] ]. now rewrite N0.
  - unfold cut_ok. destruct (seq 1 n ++ [S n]); [exact I|]. right. left. cbn [last]. now rewrite N0.
Qed.
End Circuit.

Lemma filter_perm {A} (p : A -> bool) l l' : Permutation l l' -> Permutation (filter p l) (filter p l').
Proof.
  induction 1 as [|x l l' _ IH|x y l|l l' l'' _ IH1 _ IH2]; cbn [filter]; [constructor|destruct (p x); [now constructor|exact IH]|destruct (p x), (p y); try reflexivity; constructor|now transitivity (filter p l')].
Qed.
(** The states of a collection that carries groups. *)
Lemma carries_state cs bs st : carries cs bs -> In st (map snd (co_items cs)) ->
  exists b r x, In b bs /\ ray_ok (co_D cs) (co_eps cs) (co_ncl cs) b r /\ In x (ry_states r) /\ st = snd (fst x).
Proof.
  intros (E & _ & HF) Hin. rewrite E in Hin. apply in_flat_map in Hin. destruct Hin as (b & Hb & Hin). apply in_flat_map in Hin. destruct Hin as (r & Hr & Hin). apply in_map_iff in Hin. destruct Hin as (x & <- & Hx).
  exists b, r, x. split; [exact Hb|]. split; [|now split]. destruct (proj1 (Forall_forall _ _) HF b Hb) as (_ & _ & HR). exact (proj1 (Forall_forall _ _) HR r Hr).
Qed.
Lemma carries_wf cs bs : 2 <= dL (co_D cs) -> carries cs bs ->
  Forall (fun it => (wf_state (co_D cs) (snd it) /\ s_comps (snd it) <> []) /\ check_state (co_eps cs) (co_ncl cs) (snd it) = true) (co_items cs) /\ all_have AuxPhotonResolution (co_items cs) = true.
Proof.
  intros HL H. split.
  - apply Forall_forall. intros it Hit. destruct (carries_state cs bs (snd it) H (in_map snd _ _ Hit)) as (b & r & x & _ & Hr & Hx & ->). destruct Hr as (_ & _ & _ & _ & HF).
    destruct (proj1 (Forall_forall _ _) HF x Hx) as (Hck & _ & _ & Hl & _). split; [|exact Hck]. destruct (fst (fst x)).
    + destruct Hl as (Hcn & ND & Hn & _). split; [|exact Hcn]. split; [exact ND|]. intros nm Hnm. destruct (Hn nm Hnm) as (k & Hk & ->). eexists. split; [|reflexivity]. now apply one_photon_valid.
    + destruct Hl as [q E]. split; [|rewrite E; discriminate]. split; rewrite E; cbn [map fst]; [constructor; [intros []|constructor]|]. intros nm [<-|[]]. eexists. split; [|reflexivity]. apply zero_valid. lia.
  - unfold all_have. apply forallb_forall. intros it Hit. destruct (carries_state cs bs (snd it) H (in_map snd _ _ Hit)) as (b & r & x & _ & Hr & Hx & ->). destruct Hr as (_ & _ & _ & _ & HF).
    destruct (proj1 (Forall_forall _ _) HF x Hx) as (_ & _ & _ & _ & Ha). unfold dmem. now rewrite Ha.
Qed.

(** The experiment: [d] delays the channels [chs], pulses have width [w]. *)
Theorem C49_experiment rnd0 X rnd rnd' D ncl eps full chs d w es nds opt cl cs :
  2 <= dL D /\ outcomes_clear (dL D) opt -> 2 <= dN D -> (0 < eps)%R -> Forall (optic_ok D) es -> place D (optic_gates es) = Some nds ->
  (forall c k, c < dN D -> k < dN D -> transfer (dN D) es c k = RtoC 0 \/ (eps <= Cnorm2 (transfer (dN D) es c k))%R) ->
  Forall (fun ch => ch < dN D) chs -> delay_exists d ncl -> NoDup cl -> Forall (fun ch => ch < ncl) cl ->
  co_D cs = D -> co_eps cs = eps -> co_ncl cs = ncl -> delayable cs -> Forall (fun it => sendable D (snd it)) (co_items cs) ->
  exists cs' bos, evaluate_circuit (with_resolved rnd0 X) rnd (experiment D ncl eps full (time_delay_full rnd' chs d w) nds opt cl) cs = Ok cs' /\
    NoDup (map fst (co_items cs')) /\ co_D cs' = D /\ co_eps cs' = eps /\ co_ncl cs' = ncl /\
    carries cs' (map fst bos) /\
    group_weights (co_items cs') (map (fun bo => (bd_label (fst bo), bd_group (fst bo), bd_weight (fst bo))) bos) /\
    (forall b o, In (b, o) bos -> exists it, In it (co_items cs) /\ bd_label b = s_init (snd it) /\
       bd_weight b = (s_cum (snd it) * outcome_detection (dL D) (dN D) (sent_branches D es chs (delay_in d (snd it)) w (snd it)) opt o)%R /\
       (exists f, In f (tuples (dL D) (dN D)) /\ readout opt f = o) /\ Rsum (bd_rays b) (fun r => Cnorm2 (ry_amplitude r)) = 1%R /\
       forall st, In st (bundle_states b) -> s_init st = s_init (snd it) /\ written cl o (s_classical (snd it)) (s_classical st)) /\
    (forall i o, Rsum (filter (fun bo => leqb (bd_label (fst bo)) i && leqb (snd bo) o) bos) (fun bo => bd_weight (fst bo))
       = Rsum (filter (fun it => leqb (s_init (snd it)) i) (co_items cs))
           (fun it => s_cum (snd it) * outcome_detection (dL D) (dN D) (sent_branches D es chs (delay_in d (snd it)) w (snd it)) opt o)%R).
Proof.
  intros [HL HL10] HN He Hes Hpl Hthr Hchs Hd NDcl Hcl ED Ee En Hdl Hsend. subst eps ncl.
  destruct (delay_carries rnd' chs d w cs ltac:(rewrite ED; lia) Hdl ltac:(now rewrite ED) Hd ltac:(now rewrite ED)) as (cs1 & sgs & E1 & ND1 & ED1 & Ee1 & En1 & HP & HF & HC). rewrite ED in *.
  assert (HS : exists ph F, sends D (co_eps cs) (co_ncl cs) (transfer (dN D) es) ph F /\ (forall x, s_classical (F x) = s_classical x) /\
            map snd (co_items (after_optics D (co_ncl cs) (co_eps cs) nds cs1)) = map F (map snd (co_items cs1)) /\ map fst (co_items (after_optics D (co_ncl cs) (co_eps cs) nds cs1)) = map fst (co_items cs1)).
  { unfold after_optics. destruct es as [|e es'].
    - cbn [optic_gates map place] in Hpl. assert (nds = []) by congruence. subst nds. eexists _, _. split; [apply sends_nothing; exact HL|]. split; [reflexivity|]. now rewrite map_id.
    - assert (Hnn : nds <> []) by (intro E; subst nds; cbn [optic_gates map place] in Hpl; destruct (tensor_list_of _ _); [|discriminate]; destruct (place D _); discriminate).
      destruct nds as [|nd nds'] eqn:E; [congruence|]. rewrite <- E in *. clear E. eexists _, _. split; [apply (sends_optics D (co_eps cs) (co_ncl cs) (e :: es') nds); try assumption; discriminate|].
      split; [reflexivity|]. cbn [co_items]. rewrite !map_map. now split. }
  destruct HS as (ph & F & HSend & Hcla & Esnd & Efst). set (cs2 := after_optics D (co_ncl cs) (co_eps cs) nds cs1) in *.
  assert (H2 : co_D cs2 = D /\ co_eps cs2 = co_eps cs /\ co_ncl cs2 = co_ncl cs) by (unfold cs2, after_optics; destruct nds; repeat split; assumption). destruct H2 as (ED2 & Ee2 & En2).
  set (bs := map (delayed_bundle D chs d w) sgs) in *.
  assert (HC2 : carries cs2 (map (sent_bundle F) bs)).
  { destruct HC as (C1 & C2 & C3). split; [|split].
    - rewrite Esnd, C1, flat_mapped, map_flat. apply flat_map_ext. intro b. symmetry. apply sent_bundle_states.
    - rewrite map_map. exact C2.
    - rewrite ED2, Ee2, En2. unfold bs. apply Forall_map. apply Forall_map. revert HF. apply Forall_impl. intros [sk g] (G1 & G2 & G3). cbn [fst snd] in *.
      exact (sent_bundle_ok D (co_eps cs) (co_ncl cs) _ ph F chs d w sk g HSend ltac:(lia) ltac:(lra) G1 G2 G3). }
  destruct (C47_measurement rnd0 opt cl cs2 (map (sent_bundle F) bs) ltac:(rewrite ED2; lia) ltac:(now rewrite ED2) ltac:(rewrite Ee2; lra) HC2 NDcl ltac:(now rewrite En2))
    as (cs3 & bos & E3 & ND3 & ED3 & Ee3 & En3 & HC3 & HW3 & HA3 & HS3). rewrite ED2, Ee2, En2 in *.
  destruct (carries_wf cs1 bs ltac:(now rewrite ED1) HC) as [Hwf1 _]. rewrite ED1, Ee1, En1 in Hwf1. pose proof (proj2 (carries_wf cs2 (map (sent_bundle F) bs) ltac:(now rewrite ED2) HC2)) as Hall.
  exists cs3, bos. split.
  { apply (experiment_run D (co_ncl cs) (co_eps cs) full (add_time_delay rnd' chs d w) (optic_gates es) nds opt cl ltac:(lia) HN Hpl (with_resolved rnd0 X) rnd cs cs1 cs3 E1).
    - split; [exact ND1|]. revert Hwf1. apply Forall_impl. intros it H. exact (proj1 H).
    - revert Hwf1. apply Forall_impl. intros it H. exact (proj2 H).
    - exact Hall.
    - exact E3. }
  split; [exact ND3|]. split; [exact ED3|]. split; [exact Ee3|]. split; [exact En3|]. split; [exact HC3|]. split; [exact HW3|]. split.
  - intros b' o Hbo. destruct (HA3 b' o Hbo) as (b & Hb & HA). apply in_map_iff in Hb. destruct Hb as (b0 & <- & Hb0).
    unfold bs in Hb0. apply in_map_iff in Hb0. destruct Hb0 as ([sk g] & <- & Hsg). assert (Hit : In (fst sk) (map snd (co_items cs))) by (apply (Permutation_in _ HP); exact (in_map (fun sg => fst (fst sg)) _ _ Hsg)).
    apply in_map_iff in Hit. destruct Hit as (it & Eit & Hit). exists it. split; [exact Hit|]. rewrite Eit.
    destruct (proj1 (Forall_forall _ _) HF _ Hsg) as (G1 & G2 & G3). cbn [fst snd] in G1, G2, G3.
    split; [rewrite (ao_label _ _ _ _ _ _ HA); reflexivity|]. split.
    { rewrite (ao_weight _ _ _ _ _ _ HA). cbn [sent_bundle delayed_bundle bd_weight fst snd]. f_equal. unfold outcome_detection. apply Rsum_ext. intros f Hf. apply filter_In in Hf. destruct Hf as [Hf _]. apply tuples_in in Hf.
      exact (sent_detection D (co_eps cs) (co_ncl cs) es ph F chs d w sk g f HSend ltac:(lra) G1 G2 G3 (proj1 Hf)). }
    split; [exact (ao_outcome _ _ _ _ _ _ HA)|]. split; [exact (ao_norm _ _ _ _ _ _ HA)|].
    intros st Hst. destruct (ao_states _ _ _ _ _ _ HA st Hst) as (x & Hx & Hw & _).
    rewrite sent_bundle_states in Hx. apply in_map_iff in Hx. destruct Hx as (x0 & <- & Hx0). rewrite Hcla in Hw.
    assert (Hx0' : s_init x0 = s_init (fst sk) /\ s_classical x0 = s_classical (fst sk)).
    { unfold bundle_states in Hx0. cbn [delayed_bundle bd_rays fst snd] in Hx0. apply in_flat_map in Hx0. destruct Hx0 as (r & Hr & Hx0). apply in_map_iff in Hr. destruct Hr as (col & <- & Hcol). cbn [delayed_ray ry_states] in Hx0. rewrite map_map in Hx0. apply in_map_iff in Hx0. destruct Hx0 as (y & <- & Hy). cbn [fst snd].
      destruct (split_columns_read D (co_eps cs) (co_ncl cs) sk g col ltac:(lra) G1 G3 Hcol) as (Hr & _ & _ & Hfa & _).
      assert (Hn : Cnorm2 (first_amp (first_state col)) = 1%R) by (rewrite Hfa; now apply (lone_unit D)).
      destruct (prepared_state_facts D (co_eps cs) (co_ncl cs) (fst sk) col (column_boson D col) y ltac:(lra) Hr Hn) as (_ & _ & F3 & F4 & _). now split. }
    destruct Hx0' as [Ei Ec]. split; [|now rewrite <- Ec].
    assert (Hlab : s_init st = bd_label b').
    { destruct HC3 as (C1 & C2 & C3). rewrite ED3, Ee3, En3 in C3. assert (Hb' : In b' (map fst bos)) by exact (in_map fst _ _ Hbo). exact (proj1 (bundle_label_states D _ _ b' st (proj1 (Forall_forall _ _) C3 b' Hb') Hst)). }
    rewrite Hlab, (ao_label _ _ _ _ _ _ HA). reflexivity.
  - intros i o. rewrite HS3. unfold bs. rewrite !filter_map, !Rsum_map. cbn [sent_bundle delayed_bundle bd_label bd_weight].
    transitivity (Rsum (filter (fun sg : state * nat * group => leqb (s_init (fst (fst sg))) i) sgs) (fun sg => s_cum (fst (fst sg)) * outcome_detection (dL D) (dN D) (sent_branches D es chs (delay_in d (fst (fst sg))) w (fst (fst sg))) opt o)%R).
    + apply Rsum_ext. intros [sk g] Hsg. apply filter_In in Hsg. destruct Hsg as [Hsg _]. cbn [fst snd]. f_equal. destruct (proj1 (Forall_forall _ _) HF _ Hsg) as (G1 & G2 & G3). cbn [fst snd] in G1, G2, G3.
      unfold outcome_detection. apply Rsum_ext. intros f Hf. apply filter_In in Hf. destruct Hf as [Hf _]. apply tuples_in in Hf.
      exact (sent_detection D (co_eps cs) (co_ncl cs) es ph F chs d w sk g f HSend ltac:(lra) G1 G2 G3 (proj1 Hf)).
    + set (G := fun st : state => (s_cum st * outcome_detection (dL D) (dN D) (sent_branches D es chs (delay_in d st) w st) opt o)%R).
      pose proof (Rsum_map (fun sg : state * nat * group => fst (fst sg)) (filter (fun sg : state * nat * group => leqb (s_init (fst (fst sg))) i) sgs) G) as R1.
      rewrite <- (filter_map (fun sg : state * nat * group => fst (fst sg)) (fun st => leqb (s_init st) i)) in R1.
      pose proof (Rsum_map snd (filter (fun it : ident * state => leqb (s_init (snd it)) i) (co_items cs)) G) as R2. rewrite <- (filter_map snd (fun st => leqb (s_init st) i)) in R2.
      etransitivity; [symmetry; exact R1|]. etransitivity; [|exact R2]. apply Rsum_perm. now apply filter_perm.
Qed.
