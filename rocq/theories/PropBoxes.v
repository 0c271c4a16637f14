(** Property theorems C55: no-signalling boxes. *)
From Coq Require Import Reals List Arith Lia Lra Bool Permutation Sorted.
From Coquelicot Require Import Complex.
From Verif Require Import Prelude NamesModel NamesSpec NamesProofs FockModel FockSpec FockProofs GateProofs PropFock OpticalModel StateModel StateSpec StateProofs
  ApplyProofs CollectionModel CollectionSpec EvalModel EvalSpec EvalProofs MeasureSpec MeasureProofs WfProofs PropState PropMeasure PropEval PropReshape PropBridge
  OperatorModel OperatorSpec PropOperator PRModel PRSpec PropPR PropPRMeasure PropPROptics BoxesModel BoxesSpec.
Import ListNotations.

(** ** The node *)
Lemma boxes_as_gate rnd rid rids pairs cs it rest : co_items cs = it :: rest -> rids 0 = rid ->
  boxes_gate rnd rid pairs cs = pr_gate rnd rids pairs (with_items cs [it]).
Proof.
  intros E Hr. unfold boxes_gate, create_boxes, pr_gate. rewrite E. cbn [with_items co_items co_D co_eps co_ncl length seq combine map fst snd]. rewrite Hr.
  destruct (option_list (map (pr_state (co_D cs) (co_eps cs) (co_ncl cs) rid pairs (snd it)) (all_words (length pairs)))) as [l|]; cbn [option_list option_map concat].
  - now rewrite app_nil_r.
  - reflexivity.
Qed.

Definition is_function (n : node) : bool := match n with NFunction _ => true | _ => false end.
Lemma count_functions f g l : forall k, count_measure (firstn (S k) (NFunction f :: l)) = count_measure (firstn (S k) (NFunction g :: l)).
Proof. reflexivity. Qed.

Lemma evalR_first X rnd D ncl eps full keys f g l : forall n inds cs seed, length inds <= n -> Forall (fun k => 1 <= k) inds ->
  evalR X rnd (Circuit D ncl eps full keys (NFunction f :: l)) inds cs seed = evalR X rnd (Circuit D ncl eps full keys (NFunction g :: l)) inds cs seed.
Proof.
  set (c := Circuit D ncl eps full keys (NFunction f :: l)). set (c' := Circuit D ncl eps full keys (NFunction g :: l)).
  assert (Hn : forall k, 1 <= k -> node_at c k = node_at c' k) by (intros [|k] H; [lia|reflexivity]).
  assert (Hpre : forall inds, Forall (fun k => 1 <= k) inds -> optical_prefix c inds = optical_prefix c' inds).
  { induction inds as [|k r IH]; intros HF; [reflexivity|]. inversion HF; subst. cbn [optical_prefix]. rewrite Hn by assumption. destruct (is_optical _); [f_equal; now apply IH|reflexivity]. }
  assert (Hpre' : forall inds k, In k (optical_prefix c' inds) -> In k inds).
  { induction inds as [|k r IH]; intros k' H; [destruct H|]. cbn [optical_prefix] in H. destruct (is_optical _); [|destruct H]. destruct H as [->|H]; [now left|right; now apply IH]. }
  assert (Hrest : forall m inds, Forall (fun k => 1 <= k) inds -> Forall (fun k => 1 <= k) (skipn m inds)).
  { clear. induction m as [|m IH]; intros [|k r] H; auto. inversion H; subst. cbn [skipn]. now apply IH. }
  induction n as [|n IH]; intros inds cs seed Hlen HF.
  { destruct inds; [|cbn in Hlen; lia]. now rewrite !evalR_nil. }
  destruct inds as [|k r]; [now rewrite !evalR_nil|]. rewrite (evalR_unfold X rnd c), (evalR_unfold X rnd c'). change (length (c_nodes c')) with (length (c_nodes c)).
  destruct (negb _); [reflexivity|]. pose proof HF as HF'. inversion HF as [|? ? Hk HFr]; subst. rewrite (Hn k Hk).
  destruct (node_at c' k) eqn:Ek.
  1:{ rewrite Hpre by exact HF'. cbv zeta.
      assert (Eo : forall ks, Forall (fun k => 1 <= k) ks -> run_optical c ks cs = run_optical c' ks cs).
      { intros ks Hks. unfold run_optical. replace (flat_map (fun k => onode_of (node_at c k)) ks) with (flat_map (fun k => onode_of (node_at c' k)) ks); [reflexivity|].
        clear - Hks Hn. induction Hks as [|k ks Hk _ IH]; [reflexivity|]. cbn [flat_map]. now rewrite Hn, IH. }
      rewrite Eo by (apply Forall_forall; intros k' H'; apply Hpre' in H'; rewrite Forall_forall in HF'; now apply HF').
      destruct (run_optical c' _ cs); [|reflexivity]. apply IH.
      - destruct (_ <=? _); [cbn; lia|]. rewrite skipn_length. cbn [optical_prefix]. rewrite Ek. cbn [is_optical length] in *. lia.
      - destruct (_ <=? _); [constructor|]. now apply Hrest. }
  7:{ unfold bridge_reshape. reflexivity. }
  all: assert (Er : run_node X rnd c k cs seed = run_node X rnd c' k cs seed) by (unfold run_node; rewrite (Hn k Hk), Ek; reflexivity);
       rewrite Er; destruct (run_node X rnd c' k cs seed) as [[cs1 seed1]|]; [|reflexivity]; apply IH; destruct (_ <=? _); try (cbn in *; lia); try constructor; assumption.
Qed.

(** The node does to the rest of the circuit exactly what the gate of C42 does when it is given
    the first state of the collection alone. *)
Theorem C55_first_state_only X rnd rnd' rid rids boxes D ncl eps full keys nodes cs it rest : co_items cs = it :: rest -> rids 0 = rid ->
  evaluate_circuit X rnd (Circuit D ncl eps full keys (create_no_signalling_boxes rnd' rid boxes :: nodes)) cs =
  evaluate_circuit X rnd (Circuit D ncl eps full keys (popescu_rohrlich_correlation_gate rnd' rids boxes :: nodes)) (with_items cs [it]).
Proof.
  intros E Hr. unfold evaluate_circuit, evaluate_nodes. rewrite !evaluate_from_evalR. f_equal. cbn [c_nodes length seq].
  set (c := Circuit D ncl eps full keys (create_no_signalling_boxes rnd' rid boxes :: nodes)). set (c' := Circuit D ncl eps full keys (popescu_rohrlich_correlation_gate rnd' rids boxes :: nodes)).
  rewrite (evalR_unfold X rnd c), (evalR_unfold X rnd c'). change (length (c_nodes c')) with (length (c_nodes c)).
  destruct (negb _); [reflexivity|]. change (node_at c 0) with (create_no_signalling_boxes rnd' rid boxes). change (node_at c' 0) with (popescu_rohrlich_correlation_gate rnd' rids boxes).
  unfold create_no_signalling_boxes, popescu_rohrlich_correlation_gate. cbv beta iota zeta.
  assert (Er : run_node X rnd c 0 cs 0 = run_node X rnd c' 0 (with_items cs [it]) 0).
  { unfold run_node. change (node_at c 0) with (create_no_signalling_boxes rnd' rid boxes). change (node_at c' 0) with (popescu_rohrlich_correlation_gate rnd' rids boxes).
    unfold create_no_signalling_boxes, popescu_rohrlich_correlation_gate. now rewrite (boxes_as_gate rnd' rid rids boxes cs it rest E Hr). }
  rewrite Er. destruct (run_node X rnd c' 0 (with_items cs [it]) 0) as [[cs1 s1]|]; [|reflexivity].
  apply (evalR_first X rnd D ncl eps full keys _ _ nodes (length nodes)).
  - destruct (_ <=? _); cbn [length]; [lia|]. now rewrite seq_length.
  - destruct (_ <=? _); [constructor|]. apply Forall_forall. intros k Hk. apply in_seq in Hk. lia.
Qed.

Theorem C55_empty_raises X rnd rnd' rid boxes D ncl eps full keys nodes cs : co_items cs = [] ->
  evaluate_circuit X rnd (Circuit D ncl eps full keys (create_no_signalling_boxes rnd' rid boxes :: nodes)) cs = Raise.
Proof.
  intros E. unfold evaluate_circuit, evaluate_nodes. rewrite !evaluate_from_evalR. cbn [c_nodes length seq]. rewrite evalR_unfold. destruct (negb _); [reflexivity|].
  match goal with |- context [node_at ?c 0] => change (node_at c 0) with (create_no_signalling_boxes rnd' rid boxes) end. unfold create_no_signalling_boxes, run_node. cbv beta iota zeta.
  match goal with |- context [node_at ?c 0] => change (node_at c 0) with (NFunction (boxes_gate rnd' rid boxes)) end. cbv iota. unfold boxes_gate. now rewrite E.
Qed.

Theorem C55_experiment rnd0 X rnd rnd' rid D ncl eps full boxes elems nds opt cl cs it rest :
  let c := experiment D ncl eps full (create_no_signalling_boxes rnd' rid boxes) nds opt cl in
  let settings := fold_left followed_by elems (map (fun pr => Pair (snd pr) no_setting no_setting) boxes) in
  2 <= dL D -> 2 <= dN D -> (0 < eps)%R -> good_pairs D boxes -> boxes <> [] -> Forall (element_ok boxes) elems ->
  place D (map (fun e => (snd e, element_channels boxes e)) elems) = Some nds ->
  (forall n, In n opt -> n < dN D) -> (forall n, In n cl -> n < ncl) -> NoDup cl ->
  (forall o w, In o (all_outcomes (length boxes)) -> length w = length boxes -> Forall (fun i => i < 4) w ->
     settings_amplitude settings o w = RtoC 0 \/ (eps <= Cnorm2 (settings_amplitude settings o w))%R) ->
  co_D cs = D -> co_eps cs = eps -> co_ncl cs = ncl -> co_items cs = it :: rest ->
  check_state eps ncl (snd it) = true -> (0 <= s_cum (snd it) <= 1)%R -> NoDup (map fst (s_aux (snd it))) ->
  (forall x, ~ In (AuxPhotonResolution, x) (s_aux (snd it))) ->
  forall vs p, valid D vs -> s_comps (snd it) = [(name_string D vs, (RtoC 1, p))] ->
  exists cs' os, evaluate_circuit (with_pr rnd0 X) rnd c cs = Ok cs' /\ NoDup (map fst (co_items cs')) /\
    (co_D cs' = D /\ co_eps cs' = eps /\ co_ncl cs' = ncl) /\ Permutation os (all_outcomes (length boxes)) /\
    Forall2 (fun o s => exists x vs', outcome_has settings o x /\ s_cum s = (x * s_cum (snd it))%R /\ s_init s = s_init (snd it) /\
        (forall a, In a (s_aux s) <-> In a (s_aux (snd it)) /\ fst a <> AuxPopescuRohrlich) /\
        configured boxes (map (fun st => 2 * fst st + snd st) o) vs vs' /\ s_comps s = [(name_string D vs', (RtoC 1, 1%R))] /\
        written cl (readout opt vs') (s_classical (snd it)) (s_classical s)) os (map snd (co_items cs')).
Proof.
  intros c settings HL HN Heps Hp Hne He Ep Hopt Hcl NDcl Hthr ED Eeps Encl E Hck Hcum NDa Hres vs p Hv Ec.
  pose (rids := fun k => match k with O => rid | S k' => repeat 0 (S (length rid) + k') end).
  assert (Hinj : forall i j, rids i = rids j -> i = j).
  { intros [|i] [|j] H; unfold rids in H; [reflexivity| | |]; apply (f_equal (@length nat)) in H; rewrite ?repeat_length in H; lia. }
  destruct (C42_experiment rnd0 X rnd rnd' rids D ncl eps full boxes elems nds opt cl (with_items cs [it]) HL HN Heps Hp Hne He Ep Hinj Hopt Hcl NDcl Hthr ED Eeps Encl) as (cs' & outs & Ev & ND & EC & Eo & HF).
  { discriminate. }
  { constructor; [|constructor]. cbv zeta. split; [exact Hck|]. split; [exact Hcum|]. split; [exact NDa|]. split; [exact Hres|]. now exists vs, p. }
  cbn [with_items co_items] in HF. inversion HF as [|? out ? outs' (os & Hperm & HF1) HF2]; subst. inversion HF2; subst. cbn [concat] in Eo. rewrite app_nil_r in Eo.
  exists cs', os. split; [|split; [exact ND|split; [exact EC|split; [exact Hperm|]]]].
  - rewrite <- Ev. unfold c, experiment. now apply C55_first_state_only with (rest := rest).
  - rewrite Eo. eapply Forall2_impl; [|exact HF1]. cbn beta. intros o s (x & H1 & H2 & H3 & _ & Hx & H5). destruct (H5 vs p Ec Hv) as (vs' & V1 & V2 & V3). exists x, vs'. exact (conj H1 (conj H2 (conj H3 (conj Hx (conj V1 (conj V2 V3)))))). 
Qed.

(** ** Correlations of a list of outcomes *)
Lemma box_fold D a b : 1 <= dL D -> a < dN D -> b < dN D -> forall shown acc cnt, Forall (fun o => valid D (fst o)) shown ->
  fold_left (box_correlation_step D (a, b)) (map (fun o => (name_string D (fst o), snd o)) shown) (Some (acc, cnt)) =
  Some (acc + Rsum shown (fun o => if nth a (fst o) 0%nat =? nth b (fst o) 0%nat then snd o else - snd o), cnt + Rsum shown (fun o => snd o))%R.
Proof.
  intros HL Ha Hb. induction shown as [|[vs p] shown IH]; intros acc cnt HF; cbn [map fold_left].
  { cbn. f_equal. f_equal; ring. }
  inversion HF as [|? ? Hv HF']; subst. cbn [fst snd] in *. unfold box_correlation_step at 2. cbn [fst snd]. rewrite (values_valid_name D vs Hv HL).
  destruct Hv as [Lv Fv]. rewrite (nth_error_nth' vs 0) by lia. rewrite (nth_error_nth' vs 0) by lia. rewrite IH by exact HF'. cbn [Rsum fold_right map]. unfold Rsum. cbn [fold_right fst snd].
  destruct (nth a vs 0 =? nth b vs 0); f_equal; f_equal; ring.
Qed.
Theorem C55_correlation_value D shown combis : 1 <= dL D -> Forall (fun o => valid D (fst o)) shown -> Rsum shown (fun o => snd o) <> 0%R ->
  Forall (fun ab => fst ab < dN D /\ snd ab < dN D) combis ->
  exists xs, box_correlations D (map (fun o => (name_string D (fst o), snd o)) shown) combis = Some xs /\
    Forall2 (fun ab x => mean_agreement (fst ab) (snd ab) shown x) combis xs.
Proof.
  intros HL HF Hs Hc. set (f := fun ab : nat * nat => (Rsum shown (fun o => if nth (fst ab) (fst o) 0%nat =? nth (snd ab) (fst o) 0%nat then snd o else - snd o) / Rsum shown (fun o => snd o))%R).
  exists (map f combis). split.
  - unfold box_correlations. apply option_list_all. intros [a b] Hab. rewrite Forall_forall in Hc. destruct (Hc _ Hab) as [Ha Hb]. cbn [fst snd] in *. rewrite box_fold by assumption.
    rewrite !Rplus_0_l. destruct (Req_EM_T (Rsum shown (fun o => snd o)) 0) as [E|_]; [contradiction|]. reflexivity.
  - clear Hc. induction combis as [|ab combis IH]; cbn [map]; constructor; [|exact IH]. unfold mean_agreement, f. now field.
Qed.
Theorem C55_correlation_range D shown combis xs : 1 <= dL D -> Forall (fun o => valid D (fst o) /\ (0 <= snd o)%R) shown -> Rsum shown (fun o => snd o) <> 0%R ->
  Forall (fun ab => fst ab < dN D /\ snd ab < dN D) combis ->
  box_correlations D (map (fun o => (name_string D (fst o), snd o)) shown) combis = Some xs -> Forall (fun x => -1 <= x <= 1)%R xs.
Proof.
  intros HL HF Hs Hc E. destruct (C55_correlation_value D shown combis HL) as (xs' & E' & H2); auto.
  { eapply Forall_impl; [|exact HF]. now intros o []. }
  rewrite E' in E. injection E as <-. clear E' Hc. set (T := Rsum shown (fun o => snd o)) in *.
  assert (HT : (0 < T)%R).
  { assert (0 <= T)%R; [|lra]. unfold T. clear - HF. induction HF as [|[vs p] l [_ H] _ IH]; unfold Rsum in *; cbn [fold_right map snd] in *; lra. }
  assert (HB : forall a b, (- T <= Rsum shown (fun o => if nth a (fst o) 0%nat =? nth b (fst o) 0%nat then snd o else - snd o) <= T)%R).
  { intros a b. unfold T. clear - HF. induction HF as [|[vs p] l [_ H] _ IH]; unfold Rsum in *; cbn [fold_right map fst snd] in *; [lra|]. destruct (nth a vs 0 =? nth b vs 0); lra. }
  induction H2 as [|ab x combis xs H _ IH]; constructor; [|exact IH]. unfold mean_agreement in H. fold T in H. specialize (HB (fst ab) (snd ab)). rewrite <- H in HB. split; nra.
Qed.

(** ** The histogram of boxes *)
Definition outcome_value (ps : list pr_pair) (o : list (nat * nat)) : R := fold_right (fun z r => pair_value (fst z) (snd z) * r)%R 1%R (combine ps o).

Lemma ready_histogram D eps ncl ps id label weight place sts : 1 <= dL D -> pr_ready D eps ncl ps id label weight place sts ->
  exists os, Permutation os (all_outcomes (length ps)) /\ (forall o, In o os -> outcome_has ps o (outcome_value ps o)) /\
    pr_histogram sts = Some (map (fun o => (name_string D (place o), (outcome_value ps o * weight)%R)) os).
Proof.
  intros HL HR. destruct (measured_group D eps ncl ps id label weight place [] [] sts HL HR) as (st & rest & os & out & -> & E & Hperm & HF); [intros c []|intros c []|constructor|].
  exists os. split; [exact Hperm|]. assert (Hok : Forall pair_ok ps) by apply (ready_pairs _ _ _ _ _ _ _ _ _ HR).
  assert (HFo : Forall2 (fun o s => outcome_has ps o (outcome_value ps o) /\ s_cum s = (outcome_value ps o * weight)%R /\ s_comps s = [(name_string D (place o), (RtoC 1, 1%R))]) os out).
  { eapply Forall2_impl; [|exact HF]. cbn beta. intros o s (x & Hx & H2 & _ & H4 & _). pose proof (outcome_unique _ _ _ Hok Hx) as Ex. fold (outcome_value ps o) in Ex. rewrite <- Ex. now repeat split. }
  split; [clear - HFo; induction HFo as [|o s os out [H _] _ IH]; intros o' Ho; [destruct Ho|]; destruct Ho as [<-|Ho]; [exact H|now apply IH]|].
  unfold pr_measure_group in E. destruct (pr_info_of st) as [i|]; [|discriminate]. destruct (pr_histogram (st :: rest)) as [h|]; [|discriminate]. f_equal.
  clear HF. revert os Hperm out E HFo. assert (G : forall os out, option_list (map (pr_measured_state D eps ncl [] [] (pr_label i) st) h) = Some out ->
    Forall2 (fun o s => outcome_has ps o (outcome_value ps o) /\ s_cum s = (outcome_value ps o * weight)%R /\ s_comps s = [(name_string D (place o), (RtoC 1, 1%R))]) os out ->
    h = map (fun o => (name_string D (place o), (outcome_value ps o * weight)%R)) os); [|intros os _ out E HFo; now apply (G os out)].
  induction h as [|[nm pr] h IH]; intros os out E HFo.
  { cbn in E. injection E as <-. inversion HFo. reflexivity. }
  cbn [map option_list] in E. destruct (pr_measured_state D eps ncl [] [] (pr_label i) st (nm, pr)) as [s|] eqn:Es; [|discriminate].
  destruct (option_list (map (pr_measured_state D eps ncl [] [] (pr_label i) st) h)) as [out'|] eqn:Eo; [|discriminate]. injection E as <-.
  inversion HFo as [|o ? os' ? (_ & H2 & H3) HFo']; subst. cbn [map]. rewrite <- (IH os' out' eq_refl HFo'). f_equal.
  unfold pr_measured_state in Es. destruct (copy_state _ _ _) as [s1|]; [|discriminate]. destruct (set_cumulative s1 (snd (nm, pr))) as [s2|] eqn:Ec; [|discriminate].
  cbn [combine map forallb andb] in Es. apply (f_equal (fun x => match x with Some y => (s_cum y, map fst (s_comps y)) | None => (0%R, []) end)) in Es. cbn [s_cum s_comps map fst snd] in Es.
  assert (E1 : s_cum s2 = pr). { unfold set_cumulative in Ec. destruct (Rle_dec _ _); [|discriminate]. destruct (Rle_dec _ _); [|discriminate]. injection Ec as <-. reflexivity. }
  rewrite H2, H3, E1 in Es. cbn [map fst] in Es. injection Es as E3 E4. now rewrite E3, E4.
Qed.

(** ** Sums over the outcomes *)
Definition prodf (fs : list (nat * nat -> R)) (o : list (nat * nat)) : R := fold_right (fun z r => fst z (snd z) * r)%R 1%R (combine fs o).
Definition tot (f : nat * nat -> R) : R := (f (0, 0)%nat + f (0, 1)%nat + f (1, 0)%nat + f (1, 1)%nat)%R.
Lemma sum_prodf fs : Rsum (all_outcomes (length fs)) (prodf fs) = fold_right (fun f r => tot f * r)%R 1%R fs.
Proof.
  induction fs as [|f fs IH]; [cbn; ring|]. cbn [length all_outcomes flat_map fold_right]. rewrite app_nil_r. rewrite <- IH. rewrite !Rsum_app.
  assert (G : forall st, Rsum (map (cons st) (all_outcomes (length fs))) (prodf (f :: fs)) = (f st * Rsum (all_outcomes (length fs)) (prodf fs))%R).
  { intros st. rewrite Rsum_map. rewrite <- Rsum_scal_l. apply Rsum_ext. intros o _. reflexivity. }
  rewrite !G. unfold tot. ring.
Qed.
Fixpoint scale_at (j : nat) (g : nat * nat -> R) (fs : list (nat * nat -> R)) : list (nat * nat -> R) :=
  match fs, j with [], _ => [] | f :: r, O => (fun st => f st * g st)%R :: r | f :: r, S j' => f :: scale_at j' g r end.
Lemma scale_at_length j g : forall fs, length (scale_at j g fs) = length fs.
Proof. induction j as [|j IH]; intros [|f fs]; cbn; auto. Qed.
Lemma prodf_scale j g : forall fs o, j < length fs -> length o = length fs -> prodf (scale_at j g fs) o = (prodf fs o * g (nth j o (0, 0)%nat))%R.
Proof.
  induction j as [|j IH]; intros [|f fs] [|st o] Hj Hl; cbn [length] in *; try lia; cbn [scale_at nth].
  - unfold prodf. cbn [combine fold_right fst snd]. ring.
  - unfold prodf in *. cbn [combine fold_right fst snd]. rewrite IH by lia. ring.
Qed.
Lemma scale_at_nth j g : forall fs k, nth_error (scale_at j g fs) k = (if j =? k then option_map (fun f st => (f st * g st)%R) (nth_error fs k) else nth_error fs k).
Proof. induction j as [|j IH]; intros [|f fs] [|k]; cbn; auto. destruct (j =? k); reflexivity. Qed.
Lemma tots_zero fs : forall j f, nth_error fs j = Some f -> tot f = 0%R -> fold_right (fun f r => tot f * r)%R 1%R fs = 0%R.
Proof.
  induction fs as [|f0 fs IH]; intros [|j] f E H; cbn [nth_error fold_right] in *; try discriminate.
  - injection E as ->. rewrite H. ring.
  - rewrite (IH j f E H). ring.
Qed.
Lemma tots_one fs : forall j f, nth_error fs j = Some f -> (forall k g, k <> j -> nth_error fs k = Some g -> tot g = 1%R) -> fold_right (fun f r => tot f * r)%R 1%R fs = tot f.
Proof.
  assert (G : forall fs, (forall k g, nth_error fs k = Some g -> tot g = 1%R) -> fold_right (fun f r => tot f * r)%R 1%R fs = 1%R).
  { clear. induction fs as [|f fs IH]; intros H; [reflexivity|]. cbn [fold_right]. rewrite (H 0 f eq_refl), IH; [ring|]. intros k g E. now apply (H (S k)). }
  induction fs as [|f0 fs IH]; intros [|j] f E H; cbn [nth_error fold_right] in *; try discriminate.
  - injection E as ->. rewrite G; [ring|]. intros k g E. now apply (H (S k)).
  - rewrite (H 0 f0) by (auto; lia). rewrite (IH j f E); [ring|]. intros k g Hk Eg. apply (H (S k)); [lia|exact Eg].
Qed.

(** +1 for a photon in the channel, -1 for none; the channels of a pair in the order Ah, Av, Bh, Bv. *)
Definition sg (r : nat) (st : nat * nat) : R :=
  match r with 0 => sign_of (fst st) | 1 => - sign_of (fst st) | 2 => sign_of (snd st) | _ => - sign_of (snd st) end%R.
Definition photons_at (r : nat) (st : nat * nat) : nat :=
  match r with 0 => 1 - fst st | 1 => fst st | 2 => 1 - snd st | _ => snd st end.
Lemma photons_signs r r' st st' p : sees st -> sees st' -> (if photons_at r st =? photons_at r' st' then p else - p)%R = (p * (sg r st * sg r' st'))%R.
Proof.
  destruct st as [s t], st' as [s' t']. intros [Hs Ht] [Hs' Ht']. cbn [fst snd] in *. unfold photons_at, sg, sign_of.
  destruct r as [|[|[|r]]], r' as [|[|[|r']]]; cbn [fst snd];
  destruct s as [|[|s]]; try lia; destruct t as [|[|t]]; try lia; destruct s' as [|[|s']]; try lia; destruct t' as [|[|t']]; try lia; cbn; ring.
Qed.

Lemma pair_tot p : pair_ok p -> tot (pair_value p) = 1%R.
Proof. intros H. unfold tot. pose proof (pair_value_A p 0 H ltac:(lia)). pose proof (pair_value_A p 1 H ltac:(lia)). lra. Qed.
Lemma pair_tot_sign p r : pair_ok p -> tot (fun st => pair_value p st * sg r st)%R = 0%R.
Proof.
  intros H. unfold tot, sg, sign_of. pose proof (pair_value_A p 0 H ltac:(lia)). pose proof (pair_value_A p 1 H ltac:(lia)). pose proof (pair_value_B p 0 H ltac:(lia)). pose proof (pair_value_B p 1 H ltac:(lia)).
  destruct r as [|[|[|r]]]; cbn [fst snd Nat.eqb]; lra.
Qed.
Lemma pair_tot_both p : pair_ok p -> tot (fun st => pair_value p st * sg 0 st * sg 2 st)%R = signed_root (p_q p) (dot (poincare (p_A p 0)) (poincare (p_B p 0))).
Proof.
  intros H. rewrite <- (pair_correlator p (fun s t => pair_value p (s, t)) H).
  - unfold tot, sg, sign_of, correlator. cbn [fst snd Nat.eqb]. ring.
  - intros s t _ _. apply pair_probability_value. apply H.
Qed.
Lemma signed_sum ps os r r' j k : Permutation os (all_outcomes (length ps)) -> j < length ps -> k < length ps ->
  Rsum os (fun o => outcome_value ps o * (sg r (nth j o (0, 0)%nat) * sg r' (nth k o (0, 0)%nat)))%R =
  fold_right (fun f r => tot f * r)%R 1%R (scale_at k (sg r') (scale_at j (sg r) (map pair_value ps))).
Proof.
  intros Hp Hj Hk. rewrite <- sum_prodf, !scale_at_length, map_length. rewrite (Rsum_perm _ _ _ Hp). apply Rsum_ext. intros o Ho. apply all_outcomes_spec in Ho. destruct Ho as [Lo _].
  rewrite !prodf_scale by (rewrite ?scale_at_length, map_length; lia).
  assert (E : prodf (map pair_value ps) o = outcome_value ps o).
  { unfold prodf, outcome_value. clear. revert o. induction ps as [|p ps IH]; intros [|st o]; cbn [map combine fold_right fst snd]; auto. now rewrite IH. }
  rewrite E. ring.
Qed.

Lemma channel_of_pair D pairs d o vs vs' j c0 c1 c2 c3 q r : In o (all_outcomes d) -> d = length pairs -> good_pairs D pairs ->
  configured pairs (map (fun st => 2 * fst st + snd st) o) vs vs' -> nth_error pairs j = Some ([c0; c1; c2; c3], q) -> r < 4 ->
  nth (nth r [c0; c1; c2; c3] 0) vs' 0 = photons_at r (nth j o (0, 0)) /\ sees (nth j o (0, 0)).
Proof.
  intros Ho -> Hg (_ & H & _) E Hr. apply all_outcomes_spec in Ho. destruct Ho as [Lo Fo]. assert (Hj : j < length pairs) by (apply nth_error_Some; congruence).
  assert (Hs : sees (nth j o (0, 0))) by (rewrite Forall_forall in Fo; apply Fo, nth_In; lia). split; [|exact Hs].
  destruct (H j c0 c1 c2 c3 q E) as (H0 & H1 & H2 & H3).
  assert (En : nth j (map (fun st => 2 * fst st + snd st) o) 0 = 2 * fst (nth j o (0, 0)) + snd (nth j o (0, 0))).
  { exact (map_nth (fun st => 2 * fst st + snd st) o (0, 0) j). }
  rewrite En in *. destruct Hs as [Hs Ht]. rewrite digit_div in H0, H1 by exact Ht. rewrite digit_mod in H2, H3 by exact Ht.
  destruct r as [|[|[|[|r]]]]; cbn [nth photons_at]; auto; lia.
Qed.

Lemma mean_box_correlation D pairs ps weight place vs os a b x : good_pairs D pairs -> Forall pair_ok ps -> (0 < weight)%R -> map p_q ps = map snd pairs ->
  Permutation os (all_outcomes (length ps)) ->
  (forall o, In o (all_outcomes (length pairs)) -> configured pairs (map (fun st => 2 * fst st + snd st) o) vs (place o)) ->
  (x * weight = Rsum os (fun o => if nth a (place o) 0%nat =? nth b (place o) 0%nat then outcome_value ps o * weight else - (outcome_value ps o * weight)))%R ->
  box_correlation pairs ps a b x.
Proof.
  intros Hg Hok Hw Hq Hperm Hpl H.
  assert (Lp : length ps = length pairs) by (apply (f_equal (@length R)) in Hq; now rewrite !map_length in Hq).
  assert (Hin : forall o, In o os -> In o (all_outcomes (length ps))) by (intros o Ho; apply (Permutation_in _ Hperm Ho)).
  (* two channels of given pairs *)
  assert (G : forall j k cs cs' q q' r r', length cs = 4 -> length cs' = 4 -> nth_error pairs j = Some (cs, q) -> nth_error pairs k = Some (cs', q') -> r < 4 -> r' < 4 -> a = nth r cs 0 -> b = nth r' cs' 0 ->
    x = fold_right (fun f r => tot f * r)%R 1%R (scale_at k (sg r') (scale_at j (sg r) (map pair_value ps)))).
  { intros j k cs cs' q q' r r' Lc Lc' Ej Ek Hr Hr' -> ->.
    assert (Hj : j < length ps) by (rewrite Lp; apply nth_error_Some; congruence). assert (Hk : k < length ps) by (rewrite Lp; apply nth_error_Some; congruence).
    rewrite <- (signed_sum ps os r r' j k Hperm Hj Hk). apply (Rmult_eq_reg_r weight); [|lra]. rewrite H.
    rewrite Rmult_comm, <- Rsum_scal_l. apply Rsum_ext. intros o Ho. apply Hin in Ho. rewrite Lp in Ho. specialize (Hpl o Ho).
    destruct cs as [|c0 [|c1 [|c2 [|c3 [|]]]]]; try discriminate Lc. destruct cs' as [|d0 [|d1 [|d2 [|d3 [|]]]]]; try discriminate Lc'.
    destruct (channel_of_pair D pairs _ o vs (place o) j c0 c1 c2 c3 q r Ho eq_refl Hg Hpl Ej Hr) as [-> Sj].
    destruct (channel_of_pair D pairs _ o vs (place o) k d0 d1 d2 d3 q' r' Ho eq_refl Hg Hpl Ek Hr') as [-> Sk].
    rewrite photons_signs by assumption. ring. }
  assert (N : forall j p, nth_error ps j = Some p -> nth_error (map pair_value ps) j = Some (pair_value p)) by (intros j p E; now apply map_nth_error).
  assert (Hokj : forall j p, nth_error ps j = Some p -> pair_ok p) by (intros j p E; rewrite Forall_forall in Hok; apply Hok; now apply nth_error_In in E).
  assert (Hex : forall j p, nth_error pairs j = Some p -> exists p', nth_error ps j = Some p' /\ p_q p' = snd p).
  { intros j p E. destruct (nth_error ps j) as [p'|] eqn:E'; [|exfalso; apply nth_error_None in E'; rewrite Lp in E'; apply nth_error_None in E'; congruence]. exists p'. split; [reflexivity|].
    apply (map_nth_error p_q) in E'. rewrite Hq, (map_nth_error snd _ _ E) in E'. now injection E'. }
  (* both channels in one pair *)
  assert (One : forall j p r r', nth_error ps j = Some p -> fold_right (fun f r => tot f * r)%R 1%R (scale_at j (sg r') (scale_at j (sg r) (map pair_value ps))) = tot (fun st => pair_value p st * sg r st * sg r' st)%R).
  { intros j p r r' E. apply (tots_one _ j).
    - rewrite !scale_at_nth, Nat.eqb_refl, (N j p E). reflexivity.
    - intros k g Hk Eg. rewrite !scale_at_nth in Eg. destruct (Nat.eqb_spec j k); [congruence|]. rewrite nth_error_map in Eg. destruct (nth_error ps k) as [p'|] eqn:E'; [|discriminate].
      injection Eg as <-. apply pair_tot. eauto. }
  split; [|split; [|split]].
  - intros j av bv q p E E'. destruct (Hex j _ E) as (p' & E2 & Eq). assert (p' = p) by congruence. subst p'. cbn [snd] in Eq.
    rewrite (G j j [a; av; b; bv] [a; av; b; bv] q q 0 2) by (auto; lia). rewrite (One j p 0 2 E'), pair_tot_both by eauto. rewrite <- Eq. apply signed_root_stretched. apply (Hokj j p E').
  - intros j av bh q p E E'. destruct (Hex j _ E) as (p' & E2 & Eq). assert (p' = p) by congruence. subst p'. cbn [snd] in Eq.
    rewrite (G j j [a; av; bh; b] [a; av; bh; b] q q 0 3) by (auto; lia). rewrite (One j p 0 3 E').
    replace (- tot (fun st => pair_value p st * sg 0 st * sg 3 st))%R with (tot (fun st => pair_value p st * sg 0 st * sg 2 st))%R by (unfold tot, sg; ring).
    rewrite pair_tot_both by eauto. rewrite <- Eq. apply signed_root_stretched. apply (Hokj j p E').
  - intros j c d q [E|E]; destruct (Hex j _ E) as (p & E2 & _); pose proof (pair_tot p (Hokj j p E2)) as T; unfold tot in T.
    + rewrite (G j j [a; b; c; d] [a; b; c; d] q q 0 1) by (auto; lia). rewrite (One j p 0 1 E2). unfold tot, sg, sign_of. cbn [fst snd Nat.eqb]. lra.
    + rewrite (G j j [c; d; a; b] [c; d; a; b] q q 2 3) by (auto; lia). rewrite (One j p 2 3 E2). unfold tot, sg, sign_of. cbn [fst snd Nat.eqb]. lra.
  - intros i j [cs q] [cs' q'] Hij E E' Ha Hb. cbn [fst] in *. destruct Hg as [Hg _]. rewrite Forall_forall in Hg.
    destruct (Hg _ (nth_error_In _ _ E)) as [Lc _]. destruct (Hg _ (nth_error_In _ _ E')) as [Lc' _]. cbn [fst] in *.
    destruct (In_nth _ _ 0 Ha) as (r & Hr & Er). destruct (In_nth _ _ 0 Hb) as (r' & Hr' & Er').
    rewrite (G i j cs cs' q q' r r') by (auto; lia). destruct (Hex i _ E) as (p & E2 & _).
    apply (tots_zero _ i (fun st => pair_value p st * sg r st)%R).
    + rewrite !scale_at_nth. destruct (Nat.eqb_spec j i); [congruence|]. rewrite Nat.eqb_refl, (N i p E2). reflexivity.
    + apply pair_tot_sign. eauto.
Qed.

Lemma ready_correlations D eps ncl pairs ps id label weight place vs sts combis : 1 <= dL D -> good_pairs D pairs ->
  pr_ready D eps ncl ps id label weight place sts -> (0 < weight)%R -> map p_q ps = map snd pairs ->
  (forall o, In o (all_outcomes (length pairs)) -> configured pairs (map (fun st => 2 * fst st + snd st) o) vs (place o)) ->
  Forall (fun ab => fst ab < dN D /\ snd ab < dN D) combis ->
  exists histo xs, pr_histogram sts = Some histo /\ box_correlations D histo combis = Some xs /\
    Forall2 (fun ab x => box_correlation pairs ps (fst ab) (snd ab) x) combis xs.
Proof.
  intros HL Hg HR Hw Hq Hpl Hc. destruct (ready_histogram D eps ncl ps id label weight place sts HL HR) as (os & Hperm & Hhas & Eh).
  assert (Lp : length ps = length pairs) by (apply (f_equal (@length R)) in Hq; now rewrite !map_length in Hq).
  destruct HR as [[_ Hok] _ Hplace _].
  assert (Hin : forall o, In o os -> In o (all_outcomes (length ps))) by (intros o Ho; apply (Permutation_in _ Hperm Ho)).
  assert (Htot : Rsum os (outcome_value ps) = 1%R).
  { rewrite (Rsum_perm _ _ _ Hperm). apply (C42_total ps _ Hok). intros o Ho. apply Hhas. apply (Permutation_in _ (Permutation_sym Hperm) Ho). }
  set (shown := map (fun o => (place o, (outcome_value ps o * weight)%R)) os).
  assert (Es : map (fun o => (name_string D (place o), (outcome_value ps o * weight)%R)) os = map (fun o => (name_string D (fst o), snd o)) shown) by (unfold shown; rewrite map_map; reflexivity).
  assert (Ts : Rsum shown (fun o => snd o) = weight).
  { unfold shown. rewrite Rsum_map. cbn [snd]. transitivity (weight * Rsum os (outcome_value ps))%R; [rewrite <- Rsum_scal_l; apply Rsum_ext; intros; ring|rewrite Htot; ring]. }
  destruct (C55_correlation_value D shown combis HL) as (xs & Ex & HF); auto.
  { unfold shown. apply Forall_forall. intros x Hx. apply in_map_iff in Hx. destruct Hx as (o & <- & Ho). cbn [fst]. apply (Hplace o o); auto. }
  { rewrite Ts. lra. }
  exists (map (fun o => (name_string D (place o), (outcome_value ps o * weight)%R)) os), xs. split; [exact Eh|]. split; [rewrite Es; exact Ex|].
  eapply Forall2_impl; [|exact HF]. cbn beta. intros [a b] x H. cbn [fst snd] in *. unfold mean_agreement in H. rewrite Ts in H. unfold shown in H. rewrite Rsum_map in H. cbn [fst snd] in H.
  now apply (mean_box_correlation D pairs ps weight place vs os).
Qed.

(** A circuit of optical elements only. *)
Definition optics_only (D : dims) (ncl : nat) (eps : R) (full : bool) (nds : list onode) : circuit :=
  Circuit D ncl eps full (fresh_keys D) (map (fun nd => NOptical (on_matrix nd) (on_tl nd)) nds).

Lemma optics_nodes D ncl eps full nds : let c := optics_only D ncl eps full nds in
  length (c_nodes c) = length nds /\ (forall k, In k (seq 0 (length nds)) -> k < length (c_nodes c) /\ is_optical (node_at c k) = true) /\
  flat_map (fun k => onode_of (node_at c k)) (seq 0 (length nds)) = nds.
Proof.
  cbn zeta. split; [unfold optics_only; cbn [c_nodes]; apply map_length|]. split.
  - intros k Hk. apply in_seq in Hk. unfold optics_only, node_at. cbn [c_nodes]. rewrite map_length. split; [lia|].
    rewrite (nth_indep _ NSpectrum (NOptical (on_matrix (ONode mat2_id [])) (on_tl (ONode mat2_id [])))) by (rewrite map_length; lia). rewrite (map_nth (fun nd => NOptical (on_matrix nd) (on_tl nd))). reflexivity.
  - assert (G : forall l pre, flat_map (fun k => onode_of (nth k (pre ++ map (fun nd => NOptical (on_matrix nd) (on_tl nd)) l) NSpectrum)) (seq (length pre) (length l)) = l).
    { clear. induction l as [|nd l IH]; intros pre; [reflexivity|]. cbn [length seq flat_map map]. rewrite app_nth2 by lia. rewrite Nat.sub_diag. cbn [app nth onode_of].
      replace (pre ++ NOptical (on_matrix nd) (on_tl nd) :: map (fun nd => NOptical (on_matrix nd) (on_tl nd)) l)
        with ((pre ++ [NOptical (on_matrix nd) (on_tl nd)]) ++ map (fun nd => NOptical (on_matrix nd) (on_tl nd)) l) by (rewrite <- app_assoc; reflexivity).
      replace (S (length pre)) with (length (pre ++ [NOptical (on_matrix nd) (on_tl nd)])) by (rewrite app_length; cbn; lia). rewrite IH. destruct nd. reflexivity. }
    apply (G nds []).
Qed.

Lemma followed_by_length elems : forall ps, length (fold_left followed_by elems ps) = length ps.
Proof. induction elems as [|e elems IH]; intros ps; [reflexivity|]. cbn [fold_left]. rewrite IH. unfold followed_by. apply at_pair_length. Qed.
Lemma followed_by_q elems : forall ps, map p_q (fold_left followed_by elems ps) = map p_q ps.
Proof.
  induction elems as [|e elems IH]; intros ps; [reflexivity|]. cbn [fold_left]. rewrite IH. unfold followed_by. generalize (fst (fst e)). induction ps as [|p ps IHp]; intros [|j]; cbn [at_pair map]; auto.
  - f_equal. unfold followed_pair. now destruct (snd (fst e)).
  - f_equal. apply IHp.
Qed.

(** The documented use of the boxes: a template state, a circuit of optical elements, the
    measurement and the correlations. *)
Theorem C55_boxes X rnd rnd' rid D ncl eps full boxes elems nds cs st vs p combis :
  let c := optics_only D ncl eps full nds in
  let settings := fold_left followed_by elems (map (fun pr => Pair (snd pr) no_setting no_setting) boxes) in
  2 <= dL D -> 2 <= dN D -> (0 < eps)%R -> good_pairs D boxes -> boxes <> [] -> elems <> [] -> Forall (element_ok boxes) elems ->
  place D (map (fun e => (snd e, element_channels boxes e)) elems) = Some nds ->
  (forall o w, In o (all_outcomes (length boxes)) -> length w = length boxes -> Forall (fun i => i < 4) w ->
     settings_amplitude settings o w = RtoC 0 \/ (eps <= Cnorm2 (settings_amplitude settings o w))%R) ->
  co_D cs = D -> co_eps cs = eps -> co_ncl cs = ncl ->
  check_state eps ncl st = true -> (0 < s_cum st <= 1)%R -> NoDup (map fst (s_aux st)) -> valid D vs -> s_comps st = [(name_string D vs, (RtoC 1, p))] ->
  Forall (fun ab => fst ab < dN D /\ snd ab < dN D) combis ->
  exists cs1 cs2 histo xs, create_boxes rnd' rid boxes cs st = Some cs1 /\ evaluate_circuit X rnd c cs1 = Ok cs2 /\ measure_boxes cs2 = Some histo /\
    box_correlations D histo combis = Some xs /\ Forall2 (fun ab x => box_correlation boxes settings (fst ab) (snd ab) x) combis xs.
Proof.
  intros c settings HL HN Heps Hg Hne Hel He Ep Hthr ED Eeps Encl Hck Hcum NDa Hv Ec Hcombi.
  destruct (optics_nodes D ncl eps full nds) as (Hlen & Hno & Enodes). fold c in Hlen, Hno, Enodes.
  assert (Hc : wf_circuit c).
  { split; [cbn; lia|]. split; [exact HN|]. split; [reflexivity|]. cbn [c optics_only c_nodes c_D].
    apply Forall_map. eapply Forall_impl; [|apply (place_perm D _ nds HN Ep)]. intros nd H. exact H. }
  assert (Hwf : wf_state D st).
  { split; rewrite Ec; cbn [map fst]; [apply NoDup_cons; [intros []|constructor]|]. intros nm [<-|[] ]. now exists vs. }
  assert (HS : exists sts, option_list (map (pr_state D eps ncl rid boxes st) (all_words (length boxes))) = Some sts /\ Forall2 (prepared D boxes rid st) (all_words (length boxes)) sts).
  { assert (G : forall ws, (forall w, In w ws -> length w = length boxes /\ Forall (fun i => i < 4) w) -> exists sts, option_list (map (pr_state D eps ncl rid boxes st) ws) = Some sts /\ Forall2 (prepared D boxes rid st) ws sts).
    { induction ws as [|w ws IH]; intros H; [exists []; split; [reflexivity|constructor]|]. destruct IH as (sts & E & F); [intros; apply H; now right|]. destruct (H w (or_introl eq_refl)) as [Lw Fw].
      destruct (pr_state_prepared D eps ncl rid boxes st w HL Hg Hwf Hck Lw Fw) as (s & Es & Ps). exists (s :: sts). split; [cbn [map option_list]; now rewrite Es, E|now constructor]. }
    apply G. intros w Hw. now apply all_words_spec. }
  destruct HS as (sts & Es & Fs).
  destruct (C42_gate_ready D eps ncl boxes rid st vs p (all_words (length boxes)) sts HL ltac:(lra) Hg Hne Ec Hv ltac:(lra)) as (place & Hpl & HR); auto.
  { unfold check_state in Hck. apply andb_true_iff in Hck. destruct Hck as [_ Hck]. now apply Nat.eqb_eq in Hck. }
  { apply all_words_NoDup. }
  { apply all_words_spec. }
  set (cs1 := with_items cs (fst (add_states_random rnd' 0 sts []))).
  assert (Est : map snd (co_items cs1) = sts) by (unfold cs1; cbn [with_items co_items]; now rewrite states_random_map).
  assert (Ecs1 : create_boxes rnd' rid boxes cs st = Some cs1) by (unfold create_boxes; rewrite ED, Eeps, Encl, Es; reflexivity).
  assert (ND1 : NoDup (map fst (co_items cs1))) by (unfold cs1; cbn [with_items co_items]; apply states_random_nodup; constructor).
  clearbody cs1.
  set (g := Group (map (fun pr => Pair (snd pr) no_setting no_setting) boxes) rid (s_init st) (s_cum st) place sts).
  destruct (C42_optics X rnd c (seq 0 (length nds)) boxes elems cs1 [g]) as (cs2 & gs' & E2 & _ & _ & _ & _ & Est2 & G1' & G4'); auto.
  - intros E. destruct elems as [|e elems]; [now apply Hel|]. destruct nds as [|? ?]; [|discriminate]. cbn [map FockModel.place] in Ep. destruct (tensor_list_of (dN D) (element_channels boxes e)); [|discriminate]. match type of Ep with match ?t with _ => _ end = _ => destruct t end; discriminate.
  - rewrite Enodes. exact Ep.
  - rewrite Est. cbn [map concat g g_states]. now rewrite app_nil_r.
  - constructor; [|constructor]. split; [cbn; now rewrite map_length|]. split; [exists vs; exact Hpl|exact Hthr].
  - destruct gs' as [|g' [|g'' gs'] ]; [inversion G4'| |inversion G4' as [|? ? ? ? _ G5]; inversion G5]. inversion G4' as [|? ? ? ? (P1 & P2 & P3 & P4 & P5 & _) _]. cbn [map concat] in Est2. rewrite app_nil_r in Est2.
    inversion G1' as [|? ? HR' _]. unfold group_ready in HR'. rewrite P1, P2, P3, P4, P5 in HR'. cbn [g g_ps g_id g_label g_weight g_place g_states] in HR'. cbn [c optics_only c_D c_eps c_ncl] in HR'.
    destruct (ready_correlations D eps ncl boxes _ _ _ _ _ vs _ combis ltac:(lia) Hg HR' ltac:(lra)) as (histo & xs & Eh & Ex & HF); auto.
    { fold settings. unfold settings. rewrite followed_by_q, !map_map. reflexivity. }
    exists cs1, cs2, histo, xs. split; [exact Ecs1|]. split.
    { unfold evaluate_circuit, evaluate_nodes. fold c. rewrite Hlen. rewrite E2. reflexivity. }
    split; [unfold measure_boxes; now rewrite Est2|]. now split.
Qed.

(** ** What happened before the node does matter *)
Definition template (label : ident) (w : R) (vs : values) : state := State label w [(vs, (RtoC 1, 1%R))] [0%R; 0%R] [] [].
Definition boxes5 : list (list nat * R) := [([0;1;2;3], 2%R)].
Definition D5 : dims := Dims 2 5 true.
Definition circuit5 : circuit := experiment D5 2 (1 / 4) true (create_no_signalling_boxes (fun _ => 0) [7] boxes5) [] [0;2] [0;1].

Lemma template_run label w vs rest : (0 <= w <= 1)%R -> valid D5 vs ->
  exists cs' os, evaluate_circuit (with_pr (fun _ => 0) (Externals (fun _ _ _ => None) (fun _ _ _ => None))) (fun _ => 0) circuit5
      (Coll D5 2 (1 / 4) (([105], template label w vs) :: rest)) = Ok cs' /\
    Permutation os (all_outcomes 1) /\
    Forall2 (fun o s => s_init s = label /\ s_cum s = (aligned o * w)%R /\
      exists vs', s_comps s = [(name_string D5 vs', (RtoC 1, 1%R))] /\ nth 4 vs' 0 = nth 4 vs 0) os (map snd (co_items cs')).
Proof.
  intros Hw Hv.
  destruct (C55_experiment (fun _ => 0) (Externals (fun _ _ _ => None) (fun _ _ _ => None)) (fun _ => 0) (fun _ => 0) [7] D5 2 (1 / 4) true boxes5 [] [] [0;2] [0;1]
    (Coll D5 2 (1 / 4) (([105], template label w vs) :: rest)) ([105], template label w vs) rest) with (vs := vs) (p := 1%R) as (cs' & os & Ev & _ & _ & Hp & HF).
  - cbn; lia.
  - cbn; lia.
  - lra.
  - split; [constructor; [split; [reflexivity|cbn; lra]|constructor]|]. cbn [boxes5 map concat fst app]. split.
    + repeat constructor; cbn; lia.
    + intros c Hc. cbn in Hc |- *. lia.
  - discriminate.
  - constructor.
  - reflexivity.
  - intros n Hn. cbn in Hn |- *. lia.
  - intros n Hn. cbn in Hn |- *. lia.
  - repeat constructor; cbn; lia.
  - intros o x Ho Lw Fw. apply all_outcomes_spec in Ho. destruct Ho as [Lo Fo].
    pose proof (no_settings_amplitude [2%R] o x Lo Lw Fo Fw) as E. cbn [fold_left boxes5 map fst snd] in E |- *. rewrite E. destruct (list_eq_dec _ _ _); [right|now left]. unfold Cnorm2. cbn. lra.
  - reflexivity.
  - reflexivity.
  - reflexivity.
  - reflexivity.
  - unfold check_state, template. cbn [snd s_cum s_comps s_classical forallb length]. unfold Rltb. repeat match goal with |- context [Rlt_dec ?a ?b] => destruct (Rlt_dec a b); [exfalso; lra|] end. reflexivity.
  - exact Hw.
  - constructor.
  - intros x [].
  - exact Hv.
  - cbn [snd template s_comps]. replace (name_string D5 vs) with vs; [reflexivity|]. destruct Hv as [Lv Fv]. cbn in Lv. destruct vs as [|v0 [|v1 [|v2 [|v3 [|v4 [|]]]]]]; try discriminate.
    repeat (match goal with H : Forall _ (_ :: _) |- _ => inversion H; clear H; subst end). cbn [D5 dL] in *.
    destruct v0 as [|[|]]; try lia; destruct v1 as [|[|]]; try lia; destruct v2 as [|[|]]; try lia; destruct v3 as [|[|]]; try lia; destruct v4 as [|[|]]; try lia; reflexivity.
  - exists cs', os. split; [exact Ev|]. split; [exact Hp|].
    assert (Ho : forall o, In o os -> Forall (fun st => fst st < 2 /\ snd st < 2) o) by (intros o Ho; apply (Permutation_in _ Hp) in Ho; now apply all_outcomes_spec in Ho).
    clear Ev Hp. induction HF as [|o s os out (x & vs' & H1 & H2 & H3 & _ & H4 & H5 & _) _ IH]; constructor; [|apply IH; intros; apply Ho; now right].
    split; [exact H3|]. split.
    + rewrite H2. f_equal. apply (outcome_aligned [2%R]); [constructor; [lra|constructor]|apply Ho; now left|exact H1].
    + exists vs'. split; [exact H5|]. destruct H4 as (_ & _ & H4). apply H4. cbn. lia.
Qed.
Lemma total_aligned : Rsum (all_outcomes 1) aligned = 1%R.
Proof. cbn. lra. Qed.

(** The documentation says that what happens before the node does not affect the outcome and that
    the label is 'no_signalling_boxes'. In fact the label, the weight and the photons in the other
    channels are those of the first state. *)
Theorem C55_independent_of_input_refuted : exists X rnd c cs cs2 out out2,
  evaluate_circuit X rnd c cs = Ok out /\ evaluate_circuit X rnd c cs2 = Ok out2 /\ length (co_items cs) = length (co_items cs2) /\
  nth 0 (c_nodes c) NSpectrum = create_no_signalling_boxes (fun _ => 0) [7] boxes5 /\
  Rsum (co_items out) (fun it => s_cum (snd it)) = 1%R /\ Rsum (co_items out2) (fun it => s_cum (snd it)) = (1 / 2)%R /\
  Forall (fun it => s_init (snd it) = [97] /\ exists vs', s_comps (snd it) = [(name_string D5 vs', (RtoC 1, 1%R))] /\ nth 4 vs' 0 = 0) (co_items out) /\
  Forall (fun it => s_init (snd it) = [98] /\ exists vs', s_comps (snd it) = [(name_string D5 vs', (RtoC 1, 1%R))] /\ nth 4 vs' 0 = 1) (co_items out2).
Proof.
  destruct (template_run [97] 1 [0;0;0;0;0] []) as (out & os & E & Hp & HF); [lra|split; [reflexivity|repeat constructor]|].
  destruct (template_run [98] (1 / 2) [0;0;0;0;1] []) as (out2 & os2 & E2 & Hp2 & HF2); [lra|split; [reflexivity|repeat constructor]|].
  assert (Sum : forall w l (os : list (list (nat * nat))) (its : items) (Q : state -> Prop), Permutation os (all_outcomes 1) ->
    Forall2 (fun o s => s_init s = l /\ s_cum s = (aligned o * w)%R /\ Q s) os (map snd its) -> Rsum its (fun it => s_cum (snd it)) = w /\ Forall (fun it => s_init (snd it) = l /\ Q (snd it)) its).
  { clear. intros w l os its Q Hp HF. split.
    - transitivity (w * Rsum (all_outcomes 1) aligned)%R; [|rewrite total_aligned; ring]. rewrite <- (Rsum_perm _ _ _ Hp). clear Hp. revert its HF.
      induction os as [|o os IH]; intros [|it its] HF; inversion HF as [|? ? ? ? (_ & H & _) HF']; subst; [cbn; ring|]. unfold Rsum in *. cbn [fold_right]. rewrite (IH its HF'), H. ring.
    - clear Hp. revert its HF. induction os as [|o os IH]; intros [|it its] HF; inversion HF as [|? ? ? ? (H1 & _ & H3) HF']; subst; constructor; auto. }
  destruct (Sum 1%R [97] os (co_items out) _ Hp HF) as [S1 F1]. destruct (Sum (1 / 2)%R [98] os2 (co_items out2) _ Hp2 HF2) as [S2 F2].
  eexists _, _, _, _, _, out, out2. split; [exact E|]. split; [exact E2|]. split; [reflexivity|]. split; [reflexivity|]. split; [exact S1|]. split; [exact S2|]. split; [exact F1|exact F2].
Qed.

(** Two boxes, a half wave plate behind one side: a case of C55_boxes. *)
Example C55_case X rnd rnd' : exists cs1 cs2 histo x,
  create_boxes rnd' [7] [([0;1;2;3], 2%R)] (Coll (Dims 2 4 true) 2 (1 / 4) []) vacuum_state = Some cs1 /\
  evaluate_circuit X rnd (optics_only (Dims 2 4 true) 2 (1 / 4) true [ONode plate [0;1;2;3]]) cs1 = Ok cs2 /\ measure_boxes cs2 = Some histo /\
  box_correlations (Dims 2 4 true) histo [(0, 2); (0, 1)] = Some [x; (-1)%R] /\
  stretched 2 (dot (poincare (followed no_setting plate 0)) (poincare (no_setting 0))) x.
Proof.
  pose proof r2_sq as E2.
  destruct (C55_boxes X rnd rnd' [7] (Dims 2 4 true) 2 (1 / 4) true [([0;1;2;3], 2%R)] [((0, true), plate)] [ONode plate [0;1;2;3]] (Coll (Dims 2 4 true) 2 (1 / 4) []) vacuum_state [0;0;0;0] 1%R [(0, 2); (0, 1)])
    as (cs1 & cs2 & histo & xs & H1 & H2 & H3 & H4 & H5).
  - cbn; lia.
  - cbn; lia.
  - lra.
  - split; [constructor; [split; [reflexivity|cbn; lra]|constructor]|]. cbn [map concat fst app]. split.
    + repeat constructor; cbn; lia.
    + intros c Hc. cbn in Hc |- *. lia.
  - discriminate.
  - discriminate.
  - constructor; [|constructor]. split; [cbn; lia|]. split; [apply plate_unitary|]. cbn. lia.
  - reflexivity.
  - intros o w Ho Lw Fw. cbn [length] in Lw. destruct w as [|i [|? ?] ]; try discriminate. inversion Fw as [|? ? Hi _]; subst.
    cbn [length all_outcomes flat_map map app In] in Ho.
    destruct Ho as [<-|[<-|[<-|[<-|[] ] ] ] ]; (destruct i as [|[|[|[|i] ] ] ]; [| | | |lia]);
      cbn [fold_left map followed_by at_pair followed_pair fst snd p_q p_A p_B settings_amplitude];
      unfold followed, no_setting, plate; cbn [entry_of m00 m01 m10 m11 Nat.eqb fst Nat.div Nat.modulo Nat.divmod snd Nat.sub];
      first [left; apply C_eq; cbn; ring | right; unfold Cnorm2; cbn; nra].
  - reflexivity.
  - reflexivity.
  - reflexivity.
  - unfold check_state, vacuum_state. cbn [s_cum s_comps s_classical forallb snd length]. unfold Rltb. repeat match goal with |- context [Rlt_dec ?a ?b] => destruct (Rlt_dec a b); [exfalso; lra|] end. reflexivity.
  - cbn; lra.
  - constructor.
  - split; [reflexivity|repeat constructor].
  - reflexivity.
  - repeat constructor; cbn; lia.
  - inversion H5 as [|? x ? ? Hx H6 ]; subst. inversion H6 as [|? y ? ? Hy H7]; subst. inversion H7; subst. exists cs1, cs2, histo, x.
    split; [exact H1|]. split; [exact H2|]. split; [exact H3|]. split.
    + rewrite H4. f_equal. f_equal. f_equal. destruct Hy as (_ & _ & Hy & _). apply (Hy 0 2 3 2%R). now left.
    + destruct Hx as (Hx & _). apply (Hx 0 1 3 2%R _ eq_refl eq_refl).
Qed.
Print Assumptions C55_boxes.
