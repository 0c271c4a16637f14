(** C57: time delays and pulse widths anywhere in the circuit. The photons of a state meet delays (or
    changes of the pulse width) and optical elements in turn and are counted at the end: how often each
    outcome occurs follows from the sum over all histories of the photons. *)
From Coq Require Import Reals List Arith Lia Lra Bool Permutation Sorted.
From Coquelicot Require Import Complex.
From Verif Require Import Prelude NamesModel NamesSpec NamesProofs FockModel FockSpec BosonProofs FockProofs GateProofs PropFock StateModel StateSpec StateProofs ApplyProofs
  CollectionModel EvalModel EvalSpec EvalProofs MeasureSpec MeasureProofs WfProofs PropState PropMeasure PropEval PropCollection PropBridge PropPRMeasure PropPROptics OperatorModel ColumnModel ColumnSpec ColumnProofs PropColumn
  GroupProofs TemporalSpec TemporalProofs ResolvedProofs PropTemporal PropDelays PropWidth InterferenceSpec ArrangementProofs InterferenceProofs MeasuredProofs PropInterference ExperimentSpec ExperimentProofs PermanentProofs PropPermanent SentProofs PropExperiment
  ConservationProofs PropCoherent RouteSpec RouteProofs RouteSteps.
Import ListNotations.

Section Run.
Variables (X : externals) (rnd0 : nat -> nat) (c : circuit).
Hypothesis (Hc : wf_circuit c).
Lemma leg_run rnd k nds pre post cs cs1 :
  c_nodes c = pre ++ leg_nodes rnd k nds ++ post -> (exists nd r, post = nd :: r /\ is_optical nd = false) ->
  run_timing rnd k cs = Some cs1 -> wf_items (c_D c) (co_items cs1) -> Forall (fun it => check_state (c_eps c) (c_ncl c) (snd it) = true) (co_items cs1) ->
  evaluate_from X rnd0 c (seq (length pre) (S (length nds) + length post)) cs 0
  = evaluate_from X rnd0 c (seq (length pre + S (length nds)) (length post)) (after_optics (c_D c) (c_ncl c) (c_eps c) nds cs1) 0.
Proof.
  intros En (nd0 & rp & Ep & Hnd0) Ef Hwf Hck. set (p := length pre). set (n := length nds).
  assert (Hlen : length (c_nodes c) = p + (S n + length post)) by (rewrite En, !app_length; unfold leg_nodes; cbn [length]; rewrite map_length; reflexivity).
  assert (N0 : node_at c p = NFunction (run_timing rnd k)).
  { unfold node_at. rewrite En, app_nth2 by (unfold p; lia). unfold p. rewrite Nat.sub_diag. cbn [leg_nodes app nth]. apply timing_node_run. }
  assert (Nth : forall j, j < n -> node_at c (p + S j) = NOptical (on_matrix (nth j nds (ONode mat2_id []))) (on_tl (nth j nds (ONode mat2_id [])))).
  { intros j Hj. unfold node_at. rewrite En, app_nth2 by (unfold p; lia). replace (p + S j - length pre) with (S j) by (unfold p; lia). cbn [leg_nodes app nth]. rewrite app_nth1 by (rewrite map_length; exact Hj).
    rewrite (nth_indep _ NSpectrum (NOptical (on_matrix (ONode mat2_id [])) (on_tl (ONode mat2_id [])))) by (rewrite map_length; exact Hj). exact (map_nth (fun nd => NOptical (on_matrix nd) (on_tl nd)) nds (ONode mat2_id []) j). }
  assert (Npost : node_at c (p + S n) = nd0).
  { unfold node_at. rewrite En, app_nth2 by (unfold p; lia). replace (p + S n - length pre) with (S n) by (unfold p; lia). cbn [leg_nodes app nth]. rewrite app_nth2 by (rewrite map_length; unfold n; lia). rewrite map_length. unfold n. rewrite Nat.sub_diag, Ep. reflexivity. }
  assert (No : forall j, In j (seq (S p) n) -> j < length (c_nodes c) /\ is_optical (node_at c j) = true).
  { intros j Hj. apply in_seq in Hj. split; [rewrite Hlen; lia|]. replace j with (p + S (j - S p)) by lia. rewrite Nth by lia. reflexivity. }
  assert (Eon : flat_map (fun j => onode_of (node_at c j)) (seq (S p) n) = nds).
  { assert (G : forall m s l, length l = m -> (forall j, j < m -> node_at c (s + j) = NOptical (on_matrix (nth j l (ONode mat2_id []))) (on_tl (nth j l (ONode mat2_id [])))) -> flat_map (fun j => onode_of (node_at c j)) (seq s m) = l).
    { clear. induction m as [|m IH]; intros s l Hl HH; [destruct l; [reflexivity|discriminate]|]. destruct l as [|x l]; [discriminate|]. cbn [seq flat_map]. pose proof (HH 0 ltac:(lia)) as H0. rewrite Nat.add_0_r in H0. rewrite H0. cbn [nth onode_of app]. rewrite (IH (S s) l); [now destruct x|now injection Hl|].
      intros j Hj. pose proof (HH (S j) ltac:(lia)) as H1. rewrite <- plus_n_Sm in H1. exact H1. }
    apply G; [reflexivity|]. intros j Hj. replace (S p + j) with (p + S j) by lia. now apply Nth. }
  assert (E1 : evaluate_from X rnd0 c [p] cs 0 = Ok (cs1, 0)).
  { apply evaluate_from_single; [rewrite Hlen; lia|rewrite N0; exact I|]. rewrite evaluate_single by (try rewrite N0; try reflexivity; rewrite Hlen; lia). unfold run_node. rewrite N0, Ef. reflexivity. }
  assert (E2 : evaluate_from X rnd0 c (seq (S p) n) cs1 0 = Ok (after_optics (c_D c) (c_ncl c) (c_eps c) nds cs1, 0)).
  { unfold after_optics. destruct (Nat.eq_dec n 0) as [Z|Hn].
    - rewrite Z. assert (Zn : nds = []) by (apply length_zero_iff_nil; exact Z). rewrite Zn. cbn [seq]. rewrite evaluate_from_evalR. now rewrite evalR_nil.
    - assert (Hsn : seq (S p) n <> []) by (intro Z; apply (f_equal (@length nat)) in Z; rewrite seq_length in Z; now apply Hn). rewrite evaluate_optical_block; [|exact Hsn|exact No]. rewrite run_optical_spec; [|exact Hc|exact Hwf|exact Hsn|exact No|exact Hck]. unfold coll_of, opt_step. rewrite Eon. destruct nds as [|x0 l0]; [now elim Hn|reflexivity]. }
  set (q := length post) in *.
  assert (EQ : seq p (S n + q) = [p] ++ (seq (S p) n ++ seq (p + S n) q)).
  { cbn [Nat.add seq app]. f_equal. rewrite seq_app. do 2 f_equal. lia. }
  assert (EQ2 : seq (S p) n ++ seq (p + S n) q = seq (S p) (n + q)) by (rewrite seq_app; do 2 f_equal; lia).
  rewrite EQ. rewrite C19_two_calls.
  - rewrite E1. cbn [rbind fst snd]. rewrite C19_two_calls.
    + rewrite E2. cbn [rbind fst snd]. reflexivity.
    + rewrite EQ2. apply seq_sorted.
    + intros j Hj. rewrite EQ2 in Hj. apply in_seq in Hj. rewrite Hlen. lia.
    + intros j Hj. destruct (No j Hj) as [_ Hopt']. destruct (node_at c j); try reflexivity; discriminate.
    + unfold cut_ok. destruct (seq (p + S n) q) as [|j l] eqn:Es; [exact I|]. assert (Ej : j = p + S n) by (clear -Es; destruct q; [discriminate|cbn [seq] in Es; congruence]). subst j. right. right. now rewrite Npost.
  - rewrite <- EQ. apply seq_sorted.
  - intros j Hj. rewrite <- EQ in Hj. apply in_seq in Hj. rewrite Hlen. lia.
  - intros j [<-|[]]. now rewrite N0.
  - unfold cut_ok. destruct (seq (S p) n ++ seq (p + S n) q); [exact I|]. right. left. cbn [last]. now rewrite N0.
Qed.
End Run.

(** What the histories give behind elements with amplitudes [U], when more legs follow. *)
Definition routes_after (n : nat) (U : nat -> nat -> C) (legs : list leg) (st : state) (ts : list track) : list branch :=
  match legs with [] => map (track_branch U) ts | _ => routes n legs st (moved_tracks n U ts) end.
Lemma routes_cons n l r st ts : routes n (l :: r) st ts = routes_after n (transfer n (lg_optics l)) r st (timed_tracks (lg_timing l) st ts).
Proof. destruct r; reflexivity. Qed.

(** The collection [cs] behind elements with amplitudes [U], before which the photons of the states
    [S] had the histories [T]. *)
Definition behind (D : dims) (eps : R) (ncl : nat) (U : nat -> nat -> C) (T : state -> list track) (S : list state) (cs : coll) : Prop :=
  exists F Ph cs0 P, moves D eps ncl U F /\ unitary_mat (dN D) U /\ situation D eps ncl Ph T cs0 P /\ Permutation (map fst P) S /\
    co_D cs = D /\ co_eps cs = eps /\ co_ncl cs = ncl /\ map snd (co_items cs) = map F (map snd (co_items cs0)) /\ map fst (co_items cs) = map fst (co_items cs0).

Lemma moved_by D eps ncl es nds cs1 : 2 <= dL D -> (0 < eps)%R -> Forall (optic_ok D) es -> place D (optic_gates es) = Some nds ->
  (forall c k, c < dN D -> k < dN D -> transfer (dN D) es c k = RtoC 0 \/ (eps <= Cnorm2 (transfer (dN D) es c k))%R) ->
  co_D cs1 = D -> co_eps cs1 = eps -> co_ncl cs1 = ncl ->
  let cs2 := after_optics D ncl eps nds cs1 in
  exists F, moves D eps ncl (transfer (dN D) es) F /\ co_D cs2 = D /\ co_eps cs2 = eps /\ co_ncl cs2 = ncl /\
    map snd (co_items cs2) = map F (map snd (co_items cs1)) /\ map fst (co_items cs2) = map fst (co_items cs1).
Proof.
  intros HL He Hes Hpl Hthr ED Ee En. cbv zeta. unfold after_optics. destruct es as [|e es'].
  - cbn [optic_gates map place] in Hpl. assert (nds = []) by congruence. subst nds. eexists. split; [apply moves_nothing; exact HL|]. rewrite map_id. now repeat split.
  - assert (Hnn : nds <> []) by (intro E; subst nds; cbn [optic_gates map place] in Hpl; destruct (tensor_list_of _ _); [|discriminate]; destruct (place D _); discriminate).
    destruct nds as [|nd nds'] eqn:E; [congruence|]. rewrite <- E in *. clear E. eexists. split; [apply (moves_optics D eps ncl (e :: es') nds); try assumption; discriminate|].
    cbn [co_items co_D co_eps co_ncl]. rewrite !map_map. now repeat split.
Qed.

Section Legs.
Variables (X : externals) (rnd0 rnd : nat -> nat) (D : dims) (eps : R) (ncl : nat) (full : bool) (opt cl : list nat) (c : circuit) (S : list state).
Hypothesis (HL : 2 <= dL D) (HN : 2 <= dN D) (He : (0 < eps)%R) (Hc : wf_circuit c) (HcD : c_D c = D) (Hce : c_eps c = eps) (Hcn : c_ncl c = ncl).
Let nodes_of (lns : list (leg * list onode)) : list node := flat_map (fun x => leg_nodes rnd (lg_timing (fst x)) (snd x)) lns.
Definition leg_fine (x : leg * list onode) : Prop := leg_ok D ncl eps (fst x) /\ place D (optic_gates (lg_optics (fst x))) = Some (snd x).
Lemma tail_nonoptical lns : exists nd r, nodes_of lns ++ [NMeasure opt cl] = nd :: r /\ is_optical nd = false.
Proof. destruct lns as [|[l nds] lns]; cbn [nodes_of flat_map app]; [eexists _, _; split; reflexivity|]. eexists _, _. split; [reflexivity|]. now rewrite timing_node_run. Qed.
Lemma situation_wf Ph T cs P : situation D eps ncl Ph T cs P -> wf_items D (co_items cs) /\ Forall (fun it => check_state eps ncl (snd it) = true) (co_items cs).
Proof.
  intros [A B C0 E G _]. destruct (carries_wf cs _ ltac:(now rewrite A) G) as [H _]. rewrite A, B, C0 in H. split; [split; [exact E|]|]; revert H; apply Forall_impl; intros it H; apply H.
Qed.
Lemma leg_behind pre k es nds post cs cs1 Ph T P : Forall (optic_ok D) es -> place D (optic_gates es) = Some nds ->
  (forall c k, c < dN D -> k < dN D -> transfer (dN D) es c k = RtoC 0 \/ (eps <= Cnorm2 (transfer (dN D) es c k))%R) ->
  c_nodes c = pre ++ leg_nodes rnd k nds ++ post -> (exists nd r, post = nd :: r /\ is_optical nd = false) ->
  run_timing rnd k cs = Some cs1 -> situation D eps ncl Ph T cs1 P -> Permutation (map fst P) S ->
  exists cs2, evaluate_from X rnd0 c (seq (length pre) (length (leg_nodes rnd k nds ++ post))) cs 0
      = evaluate_from X rnd0 c (seq (length (pre ++ leg_nodes rnd k nds)) (length post)) cs2 0 /\
    behind D eps ncl (transfer (dN D) es) T S cs2.
Proof.
  intros Hes Hpl Hthr En Hpost Ef Hsit HP. destruct (situation_wf _ _ _ _ Hsit) as [Hwf Hck].
  pose proof (leg_run X rnd0 c Hc rnd k nds pre post cs cs1 En Hpost Ef ltac:(now rewrite HcD) ltac:(now rewrite Hce, Hcn)) as Er. rewrite HcD, Hce, Hcn in Er.
  exists (after_optics D ncl eps nds cs1). split.
  - replace (length (leg_nodes rnd k nds ++ post)) with (1 + length nds + length post) by (rewrite app_length; unfold leg_nodes; cbn [length]; rewrite map_length; lia).
    replace (length (pre ++ leg_nodes rnd k nds)) with (length pre + (1 + length nds)) by (rewrite app_length; unfold leg_nodes; cbn [length]; rewrite map_length; lia). exact Er.
  - destruct (moved_by D eps ncl es nds cs1 HL He Hes Hpl Hthr (si_D _ _ _ _ _ _ _ Hsit) (si_eps _ _ _ _ _ _ _ Hsit) (si_ncl _ _ _ _ _ _ _ Hsit)) as (F & HF & A1 & A2 & A3 & A4 & A5).
    exists F, Ph, cs1, P. split; [exact HF|]. split; [now apply optics_transfer_unitary|]. split; [exact Hsit|]. split; [exact HP|]. split; [exact A1|]. split; [exact A2|]. split; [exact A3|]. now split.
Qed.
Lemma legs_behind lns : forall pre U T cs, Forall leg_fine lns -> c_nodes c = pre ++ nodes_of lns ++ [NMeasure opt cl] -> behind D eps ncl U T S cs ->
  exists U' T' cs', evaluate_from X rnd0 c (seq (length pre) (length (nodes_of lns ++ [NMeasure opt cl]))) cs 0
      = evaluate_from X rnd0 c [length (pre ++ nodes_of lns)] cs' 0 /\ behind D eps ncl U' T' S cs' /\
    forall st, map (track_branch U') (T' st) = routes_after (dN D) U (map fst lns) st (T st).
Proof.
  induction lns as [|[l nds] lns IH]; intros pre U T cs Hf En Hb.
  - exists U, T, cs. cbn [nodes_of flat_map app length seq]. rewrite app_nil_r. split; [reflexivity|]. split; [exact Hb|]. reflexivity.
  - apply Forall_cons_iff in Hf. destruct Hf as [((Hk & Hes & Hthr) & Hpl) Hf']. cbn [fst snd] in *. set (k := lg_timing l) in *. set (es := lg_optics l) in *.
    assert (En' : c_nodes c = pre ++ leg_nodes rnd k nds ++ (nodes_of lns ++ [NMeasure opt cl])) by (rewrite En; cbn [nodes_of flat_map fst snd]; rewrite <- app_assoc; reflexivity).
    destruct Hb as (F & Ph & cs0 & P & HF & HU & Hsit & HP & A1 & A2 & A3 & A4 & A5).
    destruct (situation_step D eps ncl U F Ph T cs0 P cs rnd k HL ltac:(lia) ltac:(lra) HF HU Hsit A1 A2 A3 A4 Hk) as (cs1 & P1 & E1 & HP1 & Hsit1).
    destruct (leg_behind pre k es nds _ cs cs1 _ _ P1 Hes Hpl Hthr En' (tail_nonoptical lns) E1 Hsit1 (Permutation_trans HP1 HP)) as (cs2 & E2 & Hb2).
    destruct (IH (pre ++ leg_nodes rnd k nds) _ _ cs2 Hf' ltac:(rewrite En', <- app_assoc; reflexivity) Hb2) as (U' & T' & cs' & E3 & Hb3 & HT).
    exists U', T', cs'. split; [|split; [exact Hb3|]].
    + cbn [nodes_of flat_map fst snd]. fold k. fold (nodes_of lns). rewrite <- app_assoc. etransitivity; [exact E2|]. etransitivity; [exact E3|]. now rewrite <- app_assoc.
    + intro st. rewrite HT. cbn [map fst routes_after]. rewrite routes_cons. reflexivity.
Qed.
End Legs.

Theorem C57_experiment rnd0 X rnd rnd' D ncl eps full legs ndss opt cl cs :
  2 <= dL D /\ outcomes_clear (dL D) opt -> 2 <= dN D -> (0 < eps)%R -> legs <> [] -> Forall (leg_ok D ncl eps) legs ->
  Forall2 (fun l nds => place D (optic_gates (lg_optics l)) = Some nds) legs ndss -> NoDup cl -> Forall (fun ch => ch < ncl) cl ->
  co_D cs = D -> co_eps cs = eps -> co_ncl cs = ncl -> delayable cs -> Forall (fun it => sendable D (snd it)) (co_items cs) ->
  exists cs' bos, evaluate_circuit (with_resolved rnd0 X) rnd (route_circuit D ncl eps full rnd' legs ndss opt cl) cs = Ok cs' /\
    NoDup (map fst (co_items cs')) /\ co_D cs' = D /\ co_eps cs' = eps /\ co_ncl cs' = ncl /\
    carries cs' (map fst bos) /\
    group_weights (co_items cs') (map (fun bo => (bd_label (fst bo), bd_group (fst bo), bd_weight (fst bo))) bos) /\
    (forall b o, In (b, o) bos -> exists it, In it (co_items cs) /\ bd_label b = s_init (snd it) /\
       bd_weight b = (s_cum (snd it) * outcome_detection (dL D) (dN D) (routed_branches D legs (snd it)) opt o)%R /\
       (exists f, In f (tuples (dL D) (dN D)) /\ readout opt f = o) /\ Rsum (bd_rays b) (fun r => Cnorm2 (ry_amplitude r)) = 1%R /\
       forall st, In st (bundle_states b) -> s_init st = s_init (snd it) /\ written cl o (s_classical (snd it)) (s_classical st)) /\
    (forall i o, Rsum (filter (fun bo => leqb (bd_label (fst bo)) i && leqb (snd bo) o) bos) (fun bo => bd_weight (fst bo))
       = Rsum (filter (fun it => leqb (s_init (snd it)) i) (co_items cs))
           (fun it => s_cum (snd it) * outcome_detection (dL D) (dN D) (routed_branches D legs (snd it)) opt o)%R).
Proof.
  intros [HL HL10] HN He Hne Hlegs Hpl NDcl Hcl ED Ee En Hdl Hsend.
  destruct legs as [|l legs']; [congruence|]. inversion Hpl as [|l0 nds l1 ndss' Hpl0 Hpl' El En0]. subst l0 l1 ndss. clear Hpl. apply Forall_cons_iff in Hlegs. destruct Hlegs as [(Hk & Hes & Hthr) Hlegs].
  set (c := route_circuit D ncl eps full rnd' (l :: legs') (nds :: ndss') opt cl). set (lns := combine legs' ndss').
  assert (Hfine : Forall (leg_fine D eps ncl) lns).
  { unfold lns. clear -Hlegs Hpl'. induction Hpl' as [|a b la lb Hab _ IH]; [constructor|]. apply Forall_cons_iff in Hlegs. destruct Hlegs as [Ha Hla]. cbn [combine]. constructor; [now split|now apply IH]. }
  assert (Emap : map fst lns = legs') by (unfold lns; clear -Hpl'; induction Hpl'; [reflexivity|]; cbn [combine map fst]; now f_equal).
  set (rest := flat_map (fun x => leg_nodes rnd' (lg_timing (fst x)) (snd x)) lns).
  assert (Enodes : c_nodes c = [] ++ leg_nodes rnd' (lg_timing l) nds ++ (rest ++ [NMeasure opt cl])) by (unfold c, route_circuit; cbn [c_nodes combine flat_map fst snd app]; rewrite <- app_assoc; reflexivity).
  assert (Hwfc : wf_circuit c).
  { split; [cbn; lia|]. split; [exact HN|]. split; [reflexivity|]. rewrite Enodes. cbn [c c_D route_circuit app].
    assert (HW : forall k nds0 gs, place D gs = Some nds0 -> Forall (wf_node D) (leg_nodes rnd' k nds0)).
    { intros k nds0 gs Hp. unfold leg_nodes. constructor; [rewrite timing_node_run; exact I|]. apply Forall_map. eapply Forall_impl; [|apply (place_perm D _ nds0 HN Hp)]. intros nd H. exact H. }
    apply Forall_app. split; [exact (HW _ _ _ Hpl0)|]. apply Forall_app. split; [|constructor; [exact I|constructor]]. unfold rest. clear -Hfine HW. induction Hfine as [|[a b] m [_ Hp] _ IH]; [constructor|]. cbn [flat_map fst snd] in *. apply Forall_app. split; [exact (HW _ _ _ Hp)|exact IH]. }
  destruct (situation_start rnd' (lg_timing l) cs ltac:(now rewrite ED) ltac:(rewrite ED; lia) Hdl ltac:(now rewrite ED) ltac:(now rewrite ED, En)) as (cs1 & P & E1 & HP & Hsit). rewrite ED, Ee, En in Hsit.
  destruct (leg_behind (with_resolved rnd0 X) rnd rnd' D eps ncl c (map snd (co_items cs)) HL HN He Hwfc eq_refl eq_refl eq_refl [] (lg_timing l) (lg_optics l) nds (rest ++ [NMeasure opt cl]) cs cs1 _ _ P Hes Hpl0 Hthr Enodes
     (tail_nonoptical rnd' opt cl lns) E1 Hsit HP) as (cs2 & E2 & Hb2).
  destruct (legs_behind (with_resolved rnd0 X) rnd rnd' D eps ncl opt cl c (map snd (co_items cs)) HL HN He Hwfc eq_refl eq_refl eq_refl lns (leg_nodes rnd' (lg_timing l) nds) _ _ cs2 Hfine Enodes Hb2) as (U & T & cs3 & E3 & Hb3 & HT).
  rewrite Emap in HT. assert (HT' : forall st, map (track_branch U) (T st) = routed_branches D (l :: legs') st) by (intro st; rewrite HT; unfold routed_branches; now rewrite routes_cons). clear HT.
  destruct Hb3 as (F & Ph & cs0 & P0 & HF & HU & Hsit0 & HP0 & ED3 & Ee3 & En3 & Esnd & Efst).
  pose proof (situation_sent D eps ncl U F Ph T cs0 P0 cs3 HL ltac:(lia) ltac:(lra) HF HU Hsit0 ED3 Ee3 En3 Esnd) as HC3.
  destruct (C47_measurement rnd0 opt cl cs3 _ ltac:(rewrite ED3; lia) ltac:(now rewrite ED3) ltac:(rewrite Ee3; lra) HC3 NDcl ltac:(now rewrite En3))
    as (cs4 & bos & E4 & ND4 & ED4 & Ee4 & En4 & HC4 & HW4 & HA4 & HS4). rewrite ED3, Ee3, En3 in *.
  pose proof (proj2 (carries_wf cs3 _ ltac:(now rewrite ED3) HC3)) as Hall.
  set (pre := leg_nodes rnd' (lg_timing l) nds ++ rest) in *.
  assert (Npre : node_at c (length pre) = NMeasure opt cl) by (unfold node_at; rewrite Enodes; cbn [app]; rewrite app_assoc; fold pre; rewrite app_nth2 by lia; now rewrite Nat.sub_diag).
  assert (Hpre : length pre < length (c_nodes c)) by (rewrite Enodes; cbn [app]; rewrite app_assoc; fold pre; rewrite app_length; cbn; lia).
  assert (Hdet : forall x o, In x P0 -> outcome_detection (dL D) (dN D) (map (ray_branch D) (bd_rays (sent_bundle F (snd x)))) opt o = outcome_detection (dL D) (dN D) (routed_branches D (l :: legs') (fst x)) opt o).
  { intros x o Hx. destruct (proj1 (Forall_forall _ _) (si_settled _ _ _ _ _ _ _ Hsit0) x Hx) as (G1 & G2 & G3). unfold outcome_detection. apply Rsum_ext. intros f Hf. apply filter_In in Hf. destruct Hf as [Hf _]. apply tuples_in in Hf. rewrite <- HT'.
    exact (route_detection D eps ncl U F (Cconj (lone (fst x))) (Ph (fst x)) HL ltac:(lia) HF HU G2 ltac:(rewrite Cnorm2_conj; exact G1) (fst x) (snd x) _ f G3 (proj1 Hf)). }
  exists cs4, bos. split.
  { assert (E23 : evaluate_from (with_resolved rnd0 X) rnd c (seq 0 (length (c_nodes c))) cs 0 = evaluate_from (with_resolved rnd0 X) rnd c [length pre] cs3 0) by (rewrite Enodes; exact (eq_trans E2 E3)).
    unfold evaluate_circuit. unfold evaluate_nodes. rewrite E23.
    rewrite (evaluate_from_single _ _ _ _ cs3 cs4); [reflexivity|exact Hpre|rewrite Npre; exact I|].
    rewrite evaluate_single; [|exact Hpre|rewrite Npre; reflexivity|rewrite Npre; reflexivity]. unfold run_node. rewrite Npre, Hall. cbn [with_resolved x_resolved]. rewrite E4. reflexivity. }
  split; [exact ND4|]. split; [exact ED4|]. split; [exact Ee4|]. split; [exact En4|]. split; [exact HC4|]. split; [exact HW4|]. split.
  - intros b' o Hbo. destruct (HA4 b' o Hbo) as (b & Hb & HA). apply in_map_iff in Hb. destruct Hb as (b0 & <- & Hb0).
    apply in_map_iff in Hb0. destruct Hb0 as (x & <- & Hx). assert (Hit : In (fst x) (map snd (co_items cs))) by (apply (Permutation_in _ HP0); exact (in_map fst _ _ Hx)).
    apply in_map_iff in Hit. destruct Hit as (it & Eit & Hit). exists it. split; [exact Hit|]. rewrite Eit.
    destruct (proj1 (Forall_forall _ _) (si_settled _ _ _ _ _ _ _ Hsit0) x Hx) as (G1 & G2 & [S1 S2 S3 S4 S5 S6]).
    assert (Elab : bd_label b' = s_init (fst x)) by (rewrite (ao_label _ _ _ _ _ _ HA); exact S1).
    split; [exact Elab|]. split; [rewrite (ao_weight _ _ _ _ _ _ HA), (Hdet x o Hx); cbn [sent_bundle bd_weight]; now rewrite S2|].
    split; [exact (ao_outcome _ _ _ _ _ _ HA)|]. split; [exact (ao_norm _ _ _ _ _ _ HA)|].
    intros st Hst. destruct (ao_states _ _ _ _ _ _ HA st Hst) as (y & Hy & Hw & _).
    rewrite sent_bundle_states in Hy. apply in_map_iff in Hy. destruct Hy as (y0 & <- & Hy0). rewrite (proj1 (proj2 (proj2 (proj1 HF y0)))) in Hw.
    assert (Ec : s_classical y0 = s_classical (fst x)).
    { unfold bundle_states in Hy0. apply in_flat_map in Hy0. destruct Hy0 as (r & Hr & Hy0). apply in_map_iff in Hy0. destruct Hy0 as (z & <- & Hz). pose proof (proj1 (Forall_forall _ _) (proj1 (Forall_forall _ _) S5 r Hr) z Hz) as (_ & _ & Hcl' & _). exact Hcl'. }
    split; [|now rewrite <- Ec]. rewrite <- Elab. destruct HC4 as (C1 & C2 & C3). rewrite ED4, Ee4, En4 in C3. assert (Hb' : In b' (map fst bos)) by exact (in_map fst _ _ Hbo). exact (proj1 (bundle_label_states D _ _ b' st (proj1 (Forall_forall _ _) C3 b' Hb') Hst)).
  - intros i o. rewrite HS4. rewrite !filter_map, !Rsum_map. cbn [sent_bundle bd_label bd_weight].
    set (G := fun st : state => (s_cum st * outcome_detection (dL D) (dN D) (routed_branches D (l :: legs') st) opt o)%R).
    transitivity (Rsum (filter (fun x : state * bundle => leqb (s_init (fst x)) i) P0) (fun x => G (fst x))).
    + assert (EF : filter (fun x : state * bundle => leqb (bd_label (snd x)) i) P0 = filter (fun x => leqb (s_init (fst x)) i) P0).
      { apply filter_ext_in. intros x Hx. destruct (proj1 (Forall_forall _ _) (si_settled _ _ _ _ _ _ _ Hsit0) x Hx) as (_ & _ & [S1 _ _ _ _ _]). now rewrite S1. }
      etransitivity; [|rewrite <- EF; reflexivity]. apply Rsum_ext. intros x Hx. apply filter_In in Hx. destruct Hx as [Hx _]. unfold G. rewrite (Hdet x o Hx). destruct (proj1 (Forall_forall _ _) (si_settled _ _ _ _ _ _ _ Hsit0) x Hx) as (_ & _ & [_ S2 _ _ _ _]). now rewrite S2.
    + pose proof (Rsum_map (fun x : state * bundle => fst x) (filter (fun x : state * bundle => leqb (s_init (fst x)) i) P0) G) as R1.
      rewrite <- (filter_map (fun x : state * bundle => fst x) (fun st => leqb (s_init st) i)) in R1.
      pose proof (Rsum_map snd (filter (fun it : ident * state => leqb (s_init (snd it)) i) (co_items cs)) G) as R2. rewrite <- (filter_map snd (fun st => leqb (s_init st) i)) in R2.
      etransitivity; [symmetry; exact R1|]. etransitivity; [|exact R2]. apply Rsum_perm. now apply filter_perm.
Qed.

(** With a single delay this is the experiment of C49. *)
Theorem C57_one_leg D chs d w es st : routed_branches D [Leg (DelayOf chs d w) es] st = sent_branches D es chs (delay_in d st) w st.
Proof.
  unfold routed_branches, sent_branches, start_tracks, timed_tracks. cbn [routes lg_timing lg_optics]. unfold timed_tracks. rewrite !map_map. apply map_ext. intro x. unfold track_branch, sent_photons. cbn [tk_amplitude tk_boson tk_photons]. rewrite !map_map. f_equal. apply map_ext. intro k. cbn [fst snd retimed]. f_equal. f_equal. destruct (channel_in chs k); [ring|reflexivity].
Qed.

(** One photon: the amplitudes of all its histories interfere as far as the pulses overlap. *)
Definition lonely (b : branch) (c : nat) : C := (br_amplitude b / RtoC (br_boson b) * ph_wave (nth_photon b 0) c)%C.
Lemma lonely_interference bs f c : channels_of f = [c] -> Forall (fun b => length (br_photons b) = 1) bs ->
  interference bs f = Csum bs (fun b => Csum bs (fun b' => (lonely b c * Cconj (lonely b' c) * RtoC (pulse_overlap (ph_timing (nth_photon b 0)) (ph_timing (nth_photon b' 0))))%C)).
Proof.
  intros Ef Hb. assert (Hp : NamesSpec.photons f = 1) by (rewrite <- channels_length, Ef; reflexivity).
  assert (Efit : fitting bs f = bs). { unfold fitting. rewrite Hp. clear -Hb. induction Hb as [|b l H _ IH]; [reflexivity|]. cbn [filter]. rewrite H. cbn [Nat.eqb]. now rewrite IH. }
  unfold interference. rewrite Efit, Hp, Ef. apply Csum_ext. intros b _. apply Csum_ext. intros b' _. cbn [seq permutations flat_map inserts app]. rewrite !Csum_cons, !Csum_nil. unfold path, indistinct, lonely, Cprod, Rprod. cbn [combine fold_right fst snd]. rewrite Rmult_1_r, !Cmult_1_r, !Cplus_0_r. reflexivity.
Qed.
Lemma factorials_one vs c : channels_of vs = [c] -> factorials vs = 1.
Proof. intro E. rewrite <- (channels_occ vs (length vs) eq_refl), E. apply factorials_small. unfold occupation. apply Forall_map, Forall_forall. intros i _. cbn. destruct (Nat.eq_dec c i); lia. Qed.
Lemma flat_single {A B} (h : A -> B) l : flat_map (fun x => [h x]) l = map h l.
Proof. induction l as [|a l IH]; [reflexivity|]. cbn. now rewrite IH. Qed.
Lemma lone_detection bs f c : channels_of f = [c] -> Forall (fun b => length (br_photons b) = 1) bs ->
  detection bs f = Cmod (Csum bs (fun b => Csum bs (fun b' => (lonely b c * Cconj (lonely b' c) * RtoC (pulse_overlap (ph_timing (nth_photon b 0)) (ph_timing (nth_photon b' 0))))%C))).
Proof. intros Ef H. unfold detection. rewrite (factorials_one f c Ef), (lonely_interference bs f c Ef H). cbn [INR]. field. Qed.
Lemma start_single D st nm q k : s_comps st = [(nm, q)] -> channels_of (values_of_name D nm) = [k] -> start_tracks D st = [Track (RtoC 1) 1 [(k, (0%R, 1%R))]].
Proof. intros Ec Ek. unfold start_tracks, weighted_components. rewrite Ec. cbn [map fst snd]. rewrite (factorials_one _ _ Ek), Ek. cbn [INR map]. now rewrite sqrt_1. Qed.
Lemma moved_single n U (A : Type) (l : list A) (a : A -> C) (b : A -> R) (p : A -> nat * (R * R)) :
  moved_tracks n U (map (fun x => Track (a x) (b x) [p x]) l) = flat_map (fun x => map (fun j => Track (a x * (U j (fst (p x)) * RtoC 1))%C (b x) [(j, snd (p x))]) (seq 0 n)) l.
Proof.
  unfold moved_tracks. rewrite flat_mapped. apply flat_map_ext. intro x. cbn [tk_photons tk_amplitude tk_boson reroutes map].
  rewrite flat_single, map_map. reflexivity.
Qed.
Theorem C57_single_photon D k1 es1 k2 es2 st nm q k f c :
  s_comps st = [(nm, q)] -> channels_of (values_of_name D nm) = [k] -> channels_of f = [c] ->
  detection (routed_branches D [Leg k1 es1; Leg k2 es2] st) f
  = Cmod (Csum (seq 0 (dN D)) (fun j => Csum (seq 0 (dN D)) (fun j' =>
      (transfer (dN D) es2 c j * transfer (dN D) es1 j k * Cconj (transfer (dN D) es2 c j' * transfer (dN D) es1 j' k)
       * RtoC (pulse_overlap (retimed k2 st j (retimed k1 st k (0%R, 1%R))) (retimed k2 st j' (retimed k1 st k (0%R, 1%R)))))%C))).
Proof.
  intros Ec Ek Ef. unfold routed_branches. rewrite (start_single D st nm q k Ec Ek). cbn [routes lg_timing lg_optics]. unfold timed_tracks at 2. cbn [map tk_amplitude tk_boson tk_photons fst snd].
  pose proof (moved_single (dN D) (transfer (dN D) es1) unit [tt] (fun _ => RtoC 1) (fun _ => 1%R) (fun _ => (k, retimed k1 st k (0%R, 1%R)))) as EM. cbn [map] in EM. rewrite EM. clear EM. cbn [flat_map]. rewrite app_nil_r. unfold timed_tracks. rewrite !map_map. cbn [tk_amplitude tk_boson tk_photons fst snd map].
  rewrite (lone_detection _ f c Ef); [|apply Forall_map, Forall_forall; intros; reflexivity]. f_equal. rewrite Csum_map. apply Csum_ext. intros j _. rewrite Csum_map. apply Csum_ext. intros j' _. unfold lonely, track_branch, nth_photon. cbn [br_amplitude br_boson br_photons tk_amplitude tk_boson tk_photons map nth ph_wave ph_timing fst snd].
  rewrite !Cmult_1_r, !Cmult_1_l. rewrite (Cmult_comm (transfer (dN D) es2 c j)), (Cmult_comm (transfer (dN D) es2 c j')). assert (E1 : forall z : C, (z / RtoC 1)%C = z) by (intro z; apply C_eq; cbn; field). now rewrite !E1.
Qed.

(** ** An interferometer: beam splitter, delay in one arm, beam splitter, counting *)
Definition visibility (t w : R) : R := exp (- ln 2 * (t ^ 2 / (2 * w ^ 2))).
Definition interferometer (t w : R) : list leg := [Leg (DelayOf [] (Delay 0) w) splitter; Leg (DelayOf [0] (Delay t) w) splitter].
Definition lone_state : state := State [49; 48] 1 [(name_string D22 [1; 0], (RtoC 1, 1%R))] [0%R; 0%R] [] [].
Definition lone_coll : coll := Coll D22 2 (1 / 4) [([49; 48], lone_state)].
Lemma lone_delayable : delayable lone_coll.
Proof.
  split; [cbn; lra|]. apply Forall_cons; [|constructor]. cbn [snd lone_coll co_D co_eps co_ncl]. split; [|split; [discriminate|cbn; lia]].
  split; [|split; [|split]].
  - split; [constructor; [intros []|constructor]|]. intros nm [<-|[]]. exists [1; 0]. split; [split; [reflexivity|repeat constructor]|reflexivity].
  - intros x [].
  - apply check_state_iff. cbn. split; [lra|]. split; [|reflexivity]. apply Forall_cons; [cbn; lra|constructor].
  - cbn. lra.
Qed.
Lemma lone_sendable : Forall (fun it => sendable D22 (snd it)) (co_items lone_coll).
Proof.
  apply Forall_cons; [|constructor]. split; [|split].
  - intros nm a p [Z|[]]. assert (a = RtoC 1 /\ p = 1%R) as [-> ->] by (split; congruence). rewrite Cnorm2_RtoC. ring.
  - unfold state_norm2, Rsum, Cnorm2. cbn. ring.
  - constructor; [|constructor]. cbn [fst]. rewrite values_of_name_string by (repeat constructor). cbn. lia.
Qed.
Lemma outcome_all bs o : In o (tuples 3 2) -> outcome_detection 3 2 bs [0; 1] o = detection bs o.
Proof.
  intros Ho. unfold outcome_detection. rewrite Rsum_filter. rewrite (Rsum_single _ o); [|apply tuples_nodup|exact Ho|].
  - apply tuples_in in Ho. destruct o as [|x [|y [|z o]]]; try (exfalso; destruct Ho as [Ho _]; discriminate Ho). cbn [readout map nth]. now rewrite leqb_same.
  - intros f Hf Hn. apply tuples_in in Hf. destruct f as [|x [|y [|z f]]]; try (exfalso; destruct Hf as [Hf _]; discriminate Hf). cbn [readout map nth]. destruct (leqb [x; y] o) eqn:El; [|reflexivity]. apply leqb_spec in El. congruence.
Qed.
Lemma splitter_threshold c k : c < 2 -> k < 2 -> (1 / 4 <= Cnorm2 (transfer 2 splitter c k))%R.
Proof.
  intros Hc Hk. rewrite splitter_transfer by assumption. pose proof r2_sq as Q. unfold optic_transfer, plate. cbn [fst snd m00 m01 m10 m11].
  destruct c as [|[|c]], k as [|[|k]]; try lia; cbn [Nat.eqb]; rewrite Cnorm2_RtoC; nra.
Qed.
Lemma splitter_values : transfer 2 splitter 0 0 = RtoC r2 /\ transfer 2 splitter 0 1 = RtoC r2 /\ transfer 2 splitter 1 0 = RtoC r2 /\ transfer 2 splitter 1 1 = RtoC (- r2).
Proof. repeat split; rewrite splitter_transfer by lia; reflexivity. Qed.
Lemma nothing_values c k : transfer 2 [] c k = if c =? k then RtoC 1 else RtoC 0.
Proof. reflexivity. Qed.
Lemma visibility_overlap t w : pulse_overlap ((0 - t)%R, w) (0%R, w) = visibility t w /\ pulse_overlap (0%R, w) ((0 - t)%R, w) = visibility t w.
Proof. unfold pulse_overlap, visibility. cbn [fst snd]. split; f_equal; f_equal; unfold Rdiv; f_equal; try ring; f_equal; ring. Qed.
Lemma visibility_range t w : w <> 0%R -> (0 < visibility t w <= 1)%R.
Proof.
  intro Hw. unfold visibility. split; [apply exp_pos|]. rewrite <- exp_0. assert (H : (0 <= ln 2 * (t ^ 2 / (2 * w ^ 2)))%R).
  { apply Rmult_le_pos; [rewrite <- ln_1; apply Rlt_le, ln_increasing; lra|]. apply Rmult_le_pos; [apply pow2_ge_0|]. apply Rlt_le, Rinv_0_lt_compat. apply Rmult_lt_0_compat; [lra|]. nra. }
  destruct (Rle_lt_or_eq_dec _ _ H) as [H0|H0]; [left; apply exp_increasing; lra|right; f_equal; lra].
Qed.
Lemma interferometer_outcomes t w : w <> 0%R ->
  let q o := outcome_detection 3 2 (routed_branches D22 (interferometer t w) lone_state) [0; 1] o in
  q [1; 0] = ((1 + visibility t w) / 2)%R /\ q [0; 1] = ((1 - visibility t w) / 2)%R.
Proof.
  intros Hw. cbv beta zeta. destruct splitter_values as (S00 & S01 & S10 & S11). destruct (visibility_overlap t w) as [V1 V2]. pose proof (visibility_range t w Hw) as HV. pose proof r2_sq as Q.
  assert (G : forall f c, channels_of f = [c] -> _) by (intros f c; exact (C57_single_photon D22 (DelayOf [] (Delay 0) w) splitter (DelayOf [0] (Delay t) w) splitter lone_state _ _ 0 f c eq_refl ltac:(rewrite values_of_name_string by (repeat constructor); reflexivity))).
  rewrite !outcome_all by (apply tuples_in; split; [reflexivity|repeat constructor]). unfold interferometer. change (dN D22) with 2 in G.
  assert (GR : forall c s, transfer 2 splitter c 0 = RtoC r2 -> transfer 2 splitter c 1 = RtoC (s * r2) -> (s * s = 1)%R ->
    (Csum (seq 0 2) (fun j => Csum (seq 0 2) (fun j' =>
      (transfer 2 splitter c j * transfer 2 splitter j 0 * Cconj (transfer 2 splitter c j' * transfer 2 splitter j' 0)
       * RtoC (pulse_overlap (retimed (DelayOf [0] (Delay t) w) lone_state j (retimed (DelayOf [] (Delay 0) w) lone_state 0 (0%R, 1%R))) (retimed (DelayOf [0] (Delay t) w) lone_state j' (retimed (DelayOf [] (Delay 0) w) lone_state 0 (0%R, 1%R)))))%C)) = RtoC ((1 + s * visibility t w) / 2))%C).
  { intros c s Ec0 Ec1 Hs. cbn [seq]. rewrite !Csum_cons, !Csum_nil, Ec0, Ec1, S00, S10. cbn [retimed channel_in existsb Nat.eqb orb fst snd delay_in]. rewrite V1, V2, !pulse_overlap_same.
    apply C_eq; cbn; [|ring]. transitivity ((r2 * r2) * (r2 * r2) * (1 + s * s + 2 * (s * visibility t w)))%R; [ring|]. rewrite Q, Hs. field. }
  split.
  - rewrite (G [1; 0] 0 eq_refl), (GR 0 1%R S00 ltac:(rewrite S01; f_equal; ring) ltac:(ring)), Cmod_R, Rabs_pos_eq by lra. f_equal. ring.
  - rewrite (G [0; 1] 1 eq_refl), (GR 1 (-1)%R S10 ltac:(rewrite S11; f_equal; ring) ltac:(ring)), Cmod_R, Rabs_pos_eq by lra. f_equal. ring.
Qed.
(** Any experiment with the photon, from the first node to the measured weights. *)
Lemma lone_runs rnd0 X rnd rnd' legs ndss : legs <> [] -> Forall (leg_ok D22 2 (1 / 4)) legs -> Forall2 (fun l nds => place D22 (optic_gates (lg_optics l)) = Some nds) legs ndss ->
  exists cs' bos, evaluate_circuit (with_resolved rnd0 X) rnd (route_circuit D22 2 (1 / 4) true rnd' legs ndss [0; 1] [0; 1]) lone_coll = Ok cs' /\ carries cs' (map fst bos) /\
    group_weights (co_items cs') (map (fun bo => (bd_label (fst bo), bd_group (fst bo), bd_weight (fst bo))) bos) /\
    forall o, Rsum (filter (fun bo => leqb (bd_label (fst bo)) [49; 48] && leqb (snd bo) o) bos) (fun bo => bd_weight (fst bo)) = outcome_detection 3 2 (routed_branches D22 legs lone_state) [0; 1] o.
Proof.
  intros Hne Hok Hpl.
  destruct (C57_experiment rnd0 X rnd rnd' D22 2 (1 / 4) true legs ndss [0; 1] [0; 1] lone_coll) as (cs' & bos & E & _ & _ & _ & _ & HC & HW & _ & HS); try reflexivity; try assumption.
  - split; [cbn; lia|left; cbn; lia].
  - lra.
  - repeat constructor; cbn; intuition lia.
  - repeat constructor.
  - exact lone_delayable.
  - exact lone_sendable.
  - exists cs', bos. split; [exact E|]. split; [exact HC|]. split; [exact HW|]. intro o. rewrite HS. unfold Rsum. cbn [lone_coll co_items filter snd lone_state s_init s_cum leqb Nat.eqb andb map fold_right]. cbn [Rplus]. change (dL D22) with 3. change (dN D22) with 2. ring.
Qed.
Lemma splitter_leg k : timing_ok D22 2 k -> leg_ok D22 2 (1 / 4) (Leg k splitter).
Proof. intro Hk. split; [exact Hk|]. split; [exact splitter_ok|]. intros c j Hc Hj. right. now apply splitter_threshold. Qed.
Lemma splitter_placed : exists nds, place D22 (optic_gates splitter) = Some nds.
Proof. cbn. eexists. reflexivity. Qed.
Example C57_interferometer_runs rnd0 X rnd rnd' t w : w <> 0%R ->
  exists ndss cs' bos, Forall2 (fun l nds => place D22 (optic_gates (lg_optics l)) = Some nds) (interferometer t w) ndss /\
  evaluate_circuit (with_resolved rnd0 X) rnd (route_circuit D22 2 (1 / 4) true rnd' (interferometer t w) ndss [0; 1] [0; 1]) lone_coll = Ok cs' /\ carries cs' (map fst bos) /\
  let weight o := Rsum (filter (fun bo => leqb (bd_label (fst bo)) [49; 48] && leqb (snd bo) o) bos) (fun bo => bd_weight (fst bo)) in
  weight [1; 0] = ((1 + visibility t w) / 2)%R /\ weight [0; 1] = ((1 - visibility t w) / 2)%R.
Proof.
  intro Hw. destruct splitter_placed as [nds Hpl]. exists [nds; nds].
  assert (H2 : Forall2 (fun l nds => place D22 (optic_gates (lg_optics l)) = Some nds) (interferometer t w) [nds; nds]) by (constructor; [exact Hpl|constructor; [exact Hpl|constructor]]).
  destruct (lone_runs rnd0 X rnd rnd' (interferometer t w) [nds; nds]) as (cs' & bos & E & HC & _ & HS); [discriminate| |exact H2|].
  { constructor; [apply splitter_leg; split; [constructor|exact I]|]. constructor; [apply splitter_leg; split; [repeat constructor|exact I]|constructor]. }
  exists cs', bos. split; [exact H2|]. split; [exact E|]. split; [exact HC|]. cbv beta zeta. rewrite !HS. exact (interferometer_outcomes t w Hw).
Qed.

(** ** A pulse width set in one arm only *)
Definition stretched (t w w' : R) : list leg := interferometer t w ++ [Leg (WidthOf [0] w') []].
Lemma stretched_outcomes t w w' : w <> 0%R -> w' <> 0%R ->
  let q o := outcome_detection 3 2 (routed_branches D22 (stretched t w w') lone_state) [0; 1] o in
  q [1; 0] = ((1 + visibility t w') / 2)%R /\ q [0; 1] = ((1 - visibility t w) / 2)%R.
Proof.
  intros Hw Hw'. cbv beta zeta. destruct splitter_values as (S00 & S01 & S10 & S11). destruct (visibility_overlap t w) as [V1 V2]. destruct (visibility_overlap t w') as [V1' V2']. pose proof (visibility_range t w Hw) as HV. pose proof (visibility_range t w' Hw') as HV'. pose proof r2_sq as Q.
  rewrite !outcome_all by (apply tuples_in; split; [reflexivity|repeat constructor]).
  assert (E0 : start_tracks D22 lone_state = [Track (RtoC 1) 1 [(0, (0%R, 1%R))]]) by (apply (start_single _ _ (name_string D22 [1; 0]) (RtoC 1, 1%R) 0); [reflexivity|rewrite values_of_name_string by (repeat constructor); reflexivity]).
  unfold routed_branches, stretched, interferometer. rewrite E0. change (dN D22) with 2.
  cbn [app routes lg_timing lg_optics timed_tracks map tk_amplitude tk_boson tk_photons fst snd retimed channel_in existsb moved_tracks flat_map reroutes seq Nat.eqb orb delay_in track_branch].
  split; [rewrite (lone_detection _ [1; 0] 0 eq_refl) by (repeat constructor)|rewrite (lone_detection _ [0; 1] 1 eq_refl) by (repeat constructor)].
  - unfold lonely, nth_photon, track_branch. rewrite !Csum_cons, !Csum_nil. cbn [tk_amplitude tk_boson tk_photons map fst snd br_amplitude br_boson br_photons nth ph_wave ph_timing]. rewrite !nothing_values, S00, S01, S10, S11. cbn [Nat.eqb]. rewrite ?V1', ?V2', ?pulse_overlap_same.
    match goal with |- Cmod ?z = _ => assert (Ez : z = RtoC ((1 + visibility t w') / 2)) end.
    { apply C_eq; cbn; [|field]. transitivity (r2 * r2 * (r2 * r2) * (2 + 2 * visibility t w'))%R; [field|]. rewrite Q. field. }
    rewrite Ez, Cmod_R, Rabs_pos_eq by lra. reflexivity.
  - unfold lonely, nth_photon, track_branch. rewrite !Csum_cons, !Csum_nil. cbn [tk_amplitude tk_boson tk_photons map fst snd br_amplitude br_boson br_photons nth ph_wave ph_timing]. rewrite !nothing_values, S00, S01, S10, S11. cbn [Nat.eqb]. rewrite ?V1, ?V2, ?pulse_overlap_same.
    match goal with |- Cmod ?z = _ => assert (Ez : z = RtoC ((1 - visibility t w) / 2)) end.
    { apply C_eq; cbn; [|field]. transitivity (r2 * r2 * (r2 * r2) * (2 - 2 * visibility t w))%R; [field|]. rewrite Q. field. }
    rewrite Ez, Cmod_R, Rabs_pos_eq by lra. reflexivity.
Qed.
(** The probabilities of the outcomes then do not add up to one. *)
Theorem C57_widths_refuted rnd0 X rnd rnd' :
  exists t w w' ndss cs' bos, (0 < w)%R /\ (0 < w')%R /\ Forall2 (fun l nds => place D22 (optic_gates (lg_optics l)) = Some nds) (stretched t w w') ndss /\
  evaluate_circuit (with_resolved rnd0 X) rnd (route_circuit D22 2 (1 / 4) true rnd' (stretched t w w') ndss [0; 1] [0; 1]) lone_coll = Ok cs' /\ carries cs' (map fst bos) /\
  group_weights (co_items cs') (map (fun bo => (bd_label (fst bo), bd_group (fst bo), bd_weight (fst bo))) bos) /\
  let weight o := Rsum (filter (fun bo => leqb (bd_label (fst bo)) [49; 48] && leqb (snd bo) o) bos) (fun bo => bd_weight (fst bo)) in
  (weight [1; 0]%nat + weight [0; 1]%nat = 9 / 8)%R.
Proof.
  exists 2%R, 1%R, (sqrt 2). destruct splitter_placed as [nds Hpl]. exists [nds; nds; []].
  assert (H2 : Forall2 (fun l nds => place D22 (optic_gates (lg_optics l)) = Some nds) (stretched 2 1 (sqrt 2)) [nds; nds; []]) by (constructor; [exact Hpl|constructor; [exact Hpl|constructor; [reflexivity|constructor]]]).
  destruct (lone_runs rnd0 X rnd rnd' (stretched 2 1 (sqrt 2)) [nds; nds; []]) as (cs' & bos & E & HC & HW & HS); [discriminate| |exact H2|].
  { constructor; [apply splitter_leg; split; [constructor|exact I]|]. constructor; [apply splitter_leg; split; [repeat constructor|exact I]|]. constructor; [|constructor]. split; [|split].
    - split; [repeat constructor|]. split; [discriminate|]. intro H. destruct (H 1 ltac:(cbn; lia)) as [Z|[]]; discriminate.
    - constructor.
    - intros c k _ _. cbn [lg_optics transfer]. destruct (c =? k); [right; rewrite Cnorm2_RtoC; lra|now left]. }
  assert (Hs : (0 < sqrt 2)%R) by (apply sqrt_lt_R0; lra).
  exists cs', bos. split; [lra|]. split; [exact Hs|]. split; [exact H2|]. split; [exact E|]. split; [exact HC|]. split; [exact HW|]. cbv beta zeta. rewrite !HS.
  destruct (stretched_outcomes 2 1 (sqrt 2) ltac:(lra) ltac:(lra)) as [A B]. rewrite A, B.
  assert (V1 : visibility 2 1 = (1 / 4)%R).
  { unfold visibility. replace (- ln 2 * (2 ^ 2 / (2 * 1 ^ 2)))%R with (- (ln 2 + ln 2))%R by field. rewrite exp_Ropp, exp_plus, exp_ln by lra. field. }
  assert (V2 : visibility 2 (sqrt 2) = (1 / 2)%R).
  { unfold visibility. rewrite pow2_sqrt by lra. replace (- ln 2 * (2 ^ 2 / (2 * 2)))%R with (- ln 2)%R by field. rewrite exp_Ropp, exp_ln by lra. field. }
  rewrite V1, V2. field.
Qed.
