(** C49, continued: what the experiment says about special cases. *)
From Coq Require Import Reals List Arith Lia Lra Bool Permutation Sorted.
From Coquelicot Require Import Complex.
From Verif Require Import Prelude NamesModel NamesSpec NamesProofs FockModel FockSpec BosonProofs FockProofs GateProofs PropFock StateModel StateSpec StateProofs ApplyProofs
  CollectionModel EvalModel EvalSpec EvalProofs MeasureSpec MeasureProofs WfProofs PropState PropMeasure PropEval PropCollection PropBridge PropPRMeasure PropPROptics OperatorModel ColumnModel ColumnSpec ColumnProofs PropColumn
  GroupProofs TemporalSpec TemporalProofs ResolvedProofs PropTemporal PropDelays InterferenceSpec ArrangementProofs InterferenceProofs MeasuredProofs PropInterference ExperimentSpec ExperimentProofs PermanentProofs PropPermanent SentProofs ConservationProofs PropExperiment.
Import ListNotations.

Lemma Rsum_flat {A B} (l : list A) (k : B -> A -> bool) (O : list B) f : (forall x, In x l -> exists o, In o O /\ k o x = true /\ forall o', In o' O -> k o' x = true -> o' = o) -> NoDup O ->
  Rsum O (fun o => Rsum (filter (k o) l) f) = Rsum l f.
Proof.
  intros H ND. transitivity (Rsum O (fun o => Rsum l (fun x => if k o x then f x else 0%R))); [apply Rsum_ext; intros o _; apply Rsum_filter|].
  rewrite Rsum_swap. apply Rsum_ext. intros x Hx. destruct (H x Hx) as (o & Ho & Hk & Hu). rewrite (Rsum_single _ o); [now rewrite Hk|exact ND|exact Ho|].
  intros o' Ho' Hn. destruct (k o' x) eqn:E; [|reflexivity]. exfalso. apply Hn. now apply Hu.
Qed.
(** The probabilities of all outcomes of one state add up to one. *)
Theorem C49_outcomes_total D es chs t w st opt O : Forall (optic_ok D) es -> w <> 0%R -> wf_state D st -> sendable D st -> s_comps st <> [] ->
  NoDup O -> (forall f, In f (tuples (dL D) (dN D)) -> In (readout opt f) O) ->
  (forall o, (0 <= outcome_detection (dL D) (dN D) (sent_branches D es chs t w st) opt o)%R) /\
  Rsum O (outcome_detection (dL D) (dN D) (sent_branches D es chs t w st) opt) = 1%R.
Proof.
  intros Hes Hw Hwf Hs Hne ND HO. destruct (parts_values_facts D st Hwf Hs Hne) as (P1 & P2 & P3). split.
  - intro o. unfold outcome_detection. apply Rsum_nonneg. intros f _. unfold detection. apply Rle_mult_inv_pos; [apply Cmod_ge_0|apply lt_0_INR, factorials_pos].
  - unfold outcome_detection. rewrite (Rsum_flat (tuples (dL D) (dN D)) (fun o f => leqb (readout opt f) o)); [| |exact ND].
    + pose proof (branches_total D es chs t w Hes Hw (parts_values D st) P1 P2) as T. unfold parts_values in T at 1. rewrite map_map in T. etransitivity; [exact T|exact P3].
    + intros f Hf. exists (readout opt f). split; [now apply HO|]. split; [apply leqb_same|]. intros o' _ E. apply leqb_spec in E. now symmetry.
Qed.

(** A linear map applied to the components. *)
Lemma components_image D st (M : mat) j : 1 <= dL D -> wf_state D st ->
  mat_vec (size_of_basis D) M (state_vector D st) j = Csum (s_comps st) (fun c => (M j (index_of_values D (values_of_name D (fst c))) * fst (snd c))%C).
Proof.
  intros HL Hwf. pose proof Hwf as [ND Hv]. unfold mat_vec.
  assert (Hc : forall c, In c (s_comps st) -> valid D (values_of_name D (fst c)) /\ name_string D (values_of_name D (fst c)) = fst c).
  { intros c Hin. destruct (Hv (fst c) (in_map fst _ _ Hin)) as (vs & Vv & E). rewrite E, values_of_name_string by apply Vv. now split. }
  rewrite (Csum_image (seq 0 (size_of_basis D)) (s_comps st) (fun c => index_of_values D (values_of_name D (fst c)))).
  - apply Csum_ext. intros c Hin. destruct (Hc c Hin) as [Vc Ec]. rewrite state_vector_amp by assumption. unfold amp_of, amplitude. rewrite Ec. rewrite (dget_in leqb leqb_spec (fst c) (snd c) _ ND); [reflexivity|]. now destruct c.
  - apply seq_NoDup.
  - exact (NoDup_map_inv _ _ ND).
  - intros x y Hx Hy E. destruct (Hc x Hx) as [Vx Ex]. destruct (Hc y Hy) as [Vy Ey]. apply index_of_values_inj in E; try assumption. assert (En : fst x = fst y) by congruence.
    destruct x as [n q], y as [n' q']. cbn [fst] in En. subst n'. pose proof (dget_in leqb leqb_spec _ _ _ ND Hx) as D1. pose proof (dget_in leqb leqb_spec _ _ _ ND Hy) as D2. congruence.
  - intros c Hin. apply in_seq. destruct (Hc c Hin) as [Vc _]. pose proof (index_of_values_bound D _ Vc). lia.
  - intros i Hi Hn. apply in_seq in Hi. rewrite state_vector_spec by (try assumption; lia). unfold amplitude. destruct (dget leqb (at_index D i) (s_comps st)) as [ap|] eqn:E; [|ring]. exfalso.
    apply (dget_some_in leqb leqb_spec) in E. apply (Hn _ E). cbn [fst]. unfold at_index. rewrite values_of_name_string by (apply values_from_index_valid; lia). symmetry. apply index_values_roundtrip; lia.
Qed.
Lemma tuples_one n : tuples 1 n = [repeat 0 n].
Proof. induction n as [|n IH]; [reflexivity|]. cbn [tuples seq flat_map repeat]. rewrite IH. reflexivity. Qed.
(** Photons that are not told apart by their arrival times: no delay, or the same delay for all. *)
Definition same_arrival (n : nat) (chs : list nat) (t : R) : Prop :=
  t = 0%R \/ (forall k, k < n -> channel_in chs k = true) \/ (forall k, k < n -> channel_in chs k = false).
Lemma same_arrival_timing D es chs t w st b b' p p' : wf_state D st -> same_arrival (dN D) chs t ->
  In b (sent_branches D es chs t w st) -> In b' (sent_branches D es chs t w st) -> In p (br_photons b) -> In p' (br_photons b') -> ph_timing p = ph_timing p'.
Proof.
  intros [_ Hv] Ht Hb Hb' Hp Hp'. unfold sent_branches in Hb, Hb'. apply in_map_iff in Hb. destruct Hb as (x & <- & Hx). apply in_map_iff in Hb'. destruct Hb' as (x' & <- & Hx').
  cbn [br_photons] in Hp, Hp'. unfold sent_photons in Hp, Hp'. apply in_map_iff in Hp. destruct Hp as (k & <- & Hk). apply in_map_iff in Hp'. destruct Hp' as (k' & <- & Hk'). cbn [ph_timing].
  assert (Hbd : forall y c, In y (weighted_components st) -> In c (channels_of (values_of_name D (fst y))) -> c < dN D).
  { intros y c Hy Hc. assert (Hn : In (fst y) (map fst (s_comps st))).
    { unfold weighted_components in Hy. destruct (s_comps st) as [|[n1 q1] [|c2 cs]]; [destruct Hy| |].
      - destruct Hy as [<-|[]]. now left.
      - apply in_map_iff in Hy. destruct Hy as (z & <- & Hz). cbn [fst]. exact (in_map fst _ _ Hz). }
    destruct (Hv _ Hn) as (vs & Vv & E). rewrite E, values_of_name_string in Hc by apply Vv. rewrite <- (proj1 Vv). now apply channels_bound. }
  pose proof (Hbd x k Hx Hk) as B1. pose proof (Hbd x' k' Hx' Hk') as B2.
  destruct Ht as [->|[H|H]]; [|now rewrite !H by assumption|now rewrite !H by assumption]. rewrite Ropp_0. now destruct (channel_in chs k), (channel_in chs k').
Qed.
(** Then the experiment counts photons as the circuit without delays does. *)
Theorem C49_same_arrival D es M chs t w st f : 1 <= dL D -> 2 <= dN D -> Forall (optic_ok D) es -> circuit_matrix D (optic_gates es) = Some M ->
  wf_state D st -> sendable D st -> same_arrival (dN D) chs t -> valid D f ->
  detection (sent_branches D es chs t w st) f = Cnorm2 (mat_vec (size_of_basis D) M (state_vector D st) (index_of_values D f)).
Proof.
  intros HL HN Hes EM Hwf Hs Ht Hf. pose proof Hs as (_ & Hn & Hp).
  assert (Hmode : interference (sent_branches D es chs t w st) f = RtoC (Cnorm2 (mode_amplitude (fun _ _ => 1%R) (sent_branches D es chs t w st) f (repeat 0 (NamesSpec.photons f))))).
  { rewrite (interference_modes 1 (fun _ _ => 1%R)); [rewrite tuples_one; unfold Rsum; cbn [map fold_right]; now rewrite Rplus_0_r|].
    intros b b' p p' Hb Hb' Hp1 Hp2. rewrite (same_arrival_timing D es chs t w st b b' p p' Hwf Ht Hb Hb' Hp1 Hp2), pulse_overlap_same. unfold Rsum. cbn. ring. }
  unfold detection. rewrite Hmode, Cmod_R, Rabs_right by (apply Rle_ge, Cnorm2_nonneg).
  assert (F0 : forall vs, (0 < INR (factorials vs))%R) by (intro vs; apply lt_0_INR, factorials_pos).
  assert (FC : forall vs, RtoC (sqrt (INR (factorials vs))) <> RtoC 0) by (intros vs X; apply RtoC_inj in X; pose proof (sqrt_lt_R0 _ (F0 vs)); lra).
  assert (Hcomp : forall c, In c (s_comps st) -> valid D (values_of_name D (fst c))).
  { intros c Hin. destruct (proj2 Hwf (fst c) (in_map fst _ _ Hin)) as (vs & Vv & E). rewrite E, values_of_name_string by apply Vv. exact Vv. }
  assert (HA : mode_amplitude (fun _ _ => 1%R) (sent_branches D es chs t w st) f (repeat 0 (NamesSpec.photons f)) =
               (RtoC (sqrt (INR (factorials f))) * Csum (weighted_components st) (fun x => M (index_of_values D f) (index_of_values D (values_of_name D (fst x))) * snd x))%C).
  { unfold mode_amplitude, fitting, sent_branches. rewrite filter_map, Csum_map, Csum_filter, <- Csum_scal_l. apply Csum_ext. intros x Hx. cbn [br_photons]. unfold sent_photons at 1. rewrite map_length, channels_length.
    assert (Hn' : exists c, In c (s_comps st) /\ fst c = fst x).
    { unfold weighted_components in Hx. destruct (s_comps st) as [|[n1 q1] [|c2 cs]]; [destruct Hx| |].
      - destruct Hx as [<-|[]]. exists (n1, q1). split; [now left|reflexivity].
      - apply in_map_iff in Hx. destruct Hx as (z & <- & Hz). exists z. now split. }
    destruct Hn' as (c & Hc & Ec). pose proof (Hcomp c Hc) as Vc. pose proof (proj1 (Forall_forall _ _) Hp c Hc) as Pc. cbn beta in Pc. rewrite Ec in Vc. rewrite Ec in Pc. set (vs := values_of_name D (fst x)) in *.
    destruct (Nat.eqb_spec (NamesSpec.photons vs) (NamesSpec.photons f)) as [E|E].
    - rewrite (C48_permanent D es M vs f HL Hes EM (proj1 Vc) (proj1 Hf) E ltac:(lia)). unfold permanent. fold (orders (NamesSpec.photons f)).
      transitivity ((snd x / RtoC (sqrt (INR (factorials vs)))) * Csum (orders (NamesSpec.photons f)) (fun s => Cprod (combine s (channels_of f)) (fun y => transfer (dN D) es (snd y) (nth (fst y) (channels_of vs) 0))))%C.
      + rewrite <- Csum_scal_l. apply Csum_ext. intros s Hs'. unfold path. cbn [br_amplitude br_boson].
        replace (Rprod (combine s (repeat 0 (NamesSpec.photons f))) (fun _ => 1%R)) with 1%R by (generalize (combine s (repeat 0 (NamesSpec.photons f))); intro l; induction l as [|y l IH]; [reflexivity|cbn; unfold Rprod in IH; rewrite <- IH; ring]).
        rewrite Cmult_1_r. f_equal. apply Cprod_ext. intros [j k] Hy. cbn [fst snd].
        pose proof (sent_nth D es chs t w (vs, snd x) j ltac:(cbn [fst]; rewrite E; exact (orders_bound _ _ _ Hs' (in_combine_l _ _ _ _ Hy)))) as Q. cbn [fst snd] in Q. rewrite Q. reflexivity.
      + rewrite RtoC_mult. field. split; apply FC.
    - rewrite (circuit_conserves D (optic_gates es) M) by (try assumption; intro Z; apply E; now symmetry). ring. }
  rewrite HA, Cnorm2_mult, Cnorm2_RtoC, sqrt_sqrt by (left; apply F0).
  rewrite components_image by assumption.
  assert (HW : Cnorm2 (Csum (weighted_components st) (fun x => M (index_of_values D f) (index_of_values D (values_of_name D (fst x))) * snd x)%C) =
               Cnorm2 (Csum (s_comps st) (fun c => M (index_of_values D f) (index_of_values D (values_of_name D (fst c))) * fst (snd c))%C)).
  { unfold weighted_components. unfold state_norm2 in Hn. destruct (s_comps st) as [|[n1 [a1 p1]] [|c2 cs]].
    - reflexivity.
    - rewrite !Csum_cons, !Csum_nil. cbn [fst snd]. rewrite !Cplus_0_r, !Cnorm2_mult. unfold Rsum in Hn. cbn [map fold_right fst snd] in Hn. rewrite Rplus_0_r in Hn. rewrite Hn. f_equal. unfold Cnorm2. cbn. ring.
    - rewrite Csum_map. reflexivity. }
  rewrite HW. field. pose proof (F0 f). lra.
Qed.
(** ** Two photons *)
Lemma two_wave_real (z y : C) g : (0 <= g <= 1)%R ->
  (z * Cconj z * RtoC 1 + (z * Cconj y * RtoC g + (y * Cconj z * RtoC g + y * Cconj y * RtoC 1)))%C = RtoC (Cnorm2 z + Cnorm2 y + 2 * g * Re (z * Cconj y)%C) /\
  (0 <= Cnorm2 z + Cnorm2 y + 2 * g * Re (z * Cconj y)%C)%R.
Proof.
  intros [G0 G1]. split.
  - destruct z as [a b], y as [c d]. unfold Cnorm2. apply C_eq; cbn; ring.
  - destruct z as [a b], y as [c d]. unfold Cnorm2. cbn. assert (H : (Rabs (2 * (a * c + b * d)) <= (a * a + b * b) + (c * c + d * d))%R).
    { apply Rabs_le. pose proof (Rle_0_sqr (a - c)). pose proof (Rle_0_sqr (a + c)). pose proof (Rle_0_sqr (b - d)). pose proof (Rle_0_sqr (b + d)). unfold Rsqr in *. split; lra. }
    assert (H2 : (- ((a * a + b * b) + (c * c + d * d)) <= g * (2 * (a * c + b * d)))%R).
    { pose proof (Rle_abs (- (2 * (a * c + b * d)))) as HA. rewrite Rabs_Ropp in HA. assert (0 <= a * a + b * b + (c * c + d * d))%R by nra. destruct (Rle_dec 0 (2 * (a * c + b * d))); nra. }
    cbn [fst snd]. unfold Re. cbn. nra.
Qed.
Lemma overlap_gauss a b w : w <> 0%R -> (pulse_overlap (a, w) (b, w) * pulse_overlap (b, w) (a, w))%R = gauss (a - b) w.
Proof.
  intro Hw. rewrite (pulse_overlap_sym (b, w)). unfold pulse_overlap, gauss. rewrite <- exp_plus. f_equal. cbn [fst snd]. field. split; [exact Hw|]. pose proof (Rsqr_pos_lt _ Hw) as Q. rewrite Rsqr_pow2 in Q. lra.
Qed.
Lemma gauss_bounds t w : w <> 0%R -> (0 <= gauss t w <= 1)%R.
Proof.
  intro Hw. pose proof (overlap_gauss t 0 w Hw) as E. rewrite Rminus_0_r in E. rewrite <- E.
  destruct (pulse_overlap_range (t, w) (0%R, w)) as [A B]. destruct (pulse_overlap_range (0%R, w) (t, w)) as [A' B']. cbn [fst snd] in *. specialize (B (or_introl Hw)). specialize (B' (or_introl Hw)). nra.
Qed.
Definition overlap_between (chs : list nat) (t w : R) (a b : nat) : R := if Bool.eqb (channel_in chs a) (channel_in chs b) then 1%R else gauss t w.
Theorem C49_two_photons D es chs t w st nm amp p a b f c d : w <> 0%R ->
  s_comps st = [(nm, (amp, p))] -> channels_of (values_of_name D nm) = [a; b] -> channels_of f = [c; d] ->
  let U := transfer (dN D) es in
  detection (sent_branches D es chs t w st) f =
  ((Cnorm2 (U c a * U d b)%C + Cnorm2 (U c b * U d a)%C + 2 * overlap_between chs t w a b * Re (U c a * U d b * Cconj (U c b * U d a))%C)
   / (INR (factorials (values_of_name D nm)) * INR (factorials f)))%R.
Proof.
  intros Hw Ec Ea Ef U. unfold sent_branches, weighted_components. rewrite Ec. cbn [map]. cbn [fst snd]. unfold sent_photons. rewrite Ea. cbn [map].
  set (vs := values_of_name D nm) in *. assert (Pf : NamesSpec.photons f = 2) by (rewrite <- channels_length, Ef; reflexivity).
  set (P := Photon (fun c0 : nat => transfer (dN D) es c0 a) _). set (Q := Photon (fun c0 : nat => transfer (dN D) es c0 b) _).
  assert (F0 : forall us, (0 < INR (factorials us))%R) by (intro us; apply lt_0_INR, factorials_pos).
  assert (HG : (pulse_overlap (ph_timing P) (ph_timing Q) * pulse_overlap (ph_timing Q) (ph_timing P))%R = overlap_between chs t w a b).
  { unfold P, Q, overlap_between. cbn [ph_timing]. destruct (channel_in chs a), (channel_in chs b); cbn [Bool.eqb].
    - rewrite pulse_overlap_same. ring.
    - rewrite (overlap_gauss _ _ w Hw). unfold gauss. f_equal. field. exact Hw.
    - rewrite (overlap_gauss _ _ w Hw). unfold gauss. f_equal. field. exact Hw.
    - rewrite pulse_overlap_same. ring. }
  assert (HB : (0 <= overlap_between chs t w a b <= 1)%R) by (unfold overlap_between; destruct (Bool.eqb _ _); [lra|now apply gauss_bounds]).
  unfold detection, interference, fitting. cbn [filter br_photons length]. rewrite Pf, Ef. cbn [Nat.eqb seq permutations inserts flat_map map app].
  rewrite !Csum_cons, !Csum_nil. unfold path, indistinct, nth_photon. cbn [combine nth br_photons br_amplitude br_boson]. unfold Cprod, Rprod. cbn [fold_right fst snd nth].
  rewrite !pulse_overlap_same, !Rmult_1_r, HG. rewrite (Rmult_comm (pulse_overlap (ph_timing Q) _)), HG.
  set (k := (RtoC 1 / RtoC (sqrt (INR (factorials vs))))%C).
  assert (Hk : (k * Cconj k)%C = RtoC (/ INR (factorials vs))).
  { unfold k. rewrite <- RtoC_div by (pose proof (sqrt_lt_R0 _ (F0 vs)); lra). rewrite Cconj_RtoC, <- RtoC_mult. f_equal.
    pose proof (sqrt_lt_R0 _ (F0 vs)). rewrite <- (sqrt_sqrt (INR (factorials vs))) at 3 by (left; apply F0). field. lra. }
  assert (W1 : ph_wave P = fun c0 => U c0 a) by reflexivity. assert (W2 : ph_wave Q = fun c0 => U c0 b) by reflexivity. rewrite W1, W2. clear W1 W2. cbn beta.
  set (z := (U c a * U d b)%C). set (y := (U c b * U d a)%C).
  destruct (two_wave_real z y _ HB) as [R1 R2]. set (g := overlap_between chs t w a b) in *.
  match goal with |- (Cmod ?e / _)%R = _ => replace e with (RtoC (/ INR (factorials vs)) * RtoC (Cnorm2 z + Cnorm2 y + 2 * g * Re (z * Cconj y)%C))%C end.
  - rewrite <- RtoC_mult, Cmod_R, Rabs_right.
    + field. split; pose proof (F0 f); pose proof (F0 vs); lra.
    + apply Rle_ge, Rmult_le_pos; [left; apply Rinv_0_lt_compat, F0|exact R2].
  - rewrite <- R1, <- Hk. unfold z, y. rewrite !Cconj_mult, ?Cconj_RtoC. ring.
Qed.
Lemma factorials_distinct vs a b : channels_of vs = [a; b] -> a <> b -> factorials vs = 1.
Proof.
  intros E H. rewrite <- (channels_occ vs (length vs) eq_refl), E. apply factorials_small. unfold occupation. apply Forall_map, Forall_forall. intros i _. cbn. destruct (Nat.eq_dec a i), (Nat.eq_dec b i); lia.
Qed.
Lemma factorials_twice vs c : channels_of vs = [c; c] -> factorials vs = 2.
Proof.
  intros E. assert (Hc : c < length vs) by (apply channels_bound; rewrite E; now left).
  assert (Hn : nth c vs 0 = 2) by (rewrite <- (channels_occ vs (length vs) eq_refl), E, occupation_nth by exact Hc; cbn; destruct (Nat.eq_dec c c); congruence).
  rewrite (factorials_put1 c 1 vs Hc Hn). rewrite factorials_small; [reflexivity|]. apply Forall_forall. intros x Hx. apply (In_nth _ _ 0) in Hx. destruct Hx as (i & Hi & <-). rewrite put1_length in Hi.
  rewrite nth_put1 by exact Hi. destruct (Nat.eqb_spec i c) as [->|Hic]; [lia|]. rewrite <- (channels_occ vs (length vs) eq_refl), E, occupation_nth by exact Hi. cbn. destruct (Nat.eq_dec c i); lia.
Qed.
Lemma element_transfer n e c k : c < n -> transfer n [e] c k = optic_transfer e c k.
Proof.
  intro Hc. cbn [transfer]. rewrite (Csum_single _ c); [rewrite Nat.eqb_refl; ring|apply seq_NoDup|apply in_seq; lia|].
  intros j _ Hj. destruct (Nat.eqb_spec c j); [congruence|ring].
Qed.
Lemma unitary2_facts A : unitary2 A -> Cnorm2 (m11 A) = Cnorm2 (m00 A) /\ Cnorm2 (m10 A) = Cnorm2 (m01 A) /\ (Cnorm2 (m00 A) + Cnorm2 (m01 A) = 1)%R /\
  Re (m00 A * m11 A * Cconj (m10 A * m01 A))%C = (- (Cnorm2 (m00 A) * Cnorm2 (m01 A)))%R.
Proof.
  destruct A as [[a0 a1] [b0 b1] [c0 c1] [d0 d1]]. intros [U1 U2].
  pose proof (f_equal (fun M => fst (m00 M)) U1) as A1. pose proof (f_equal (fun M => fst (m01 M)) U1) as A2. pose proof (f_equal (fun M => snd (m01 M)) U1) as A3. pose proof (f_equal (fun M => fst (m11 M)) U1) as A4.
  pose proof (f_equal (fun M => fst (m00 M)) U2) as B1. pose proof (f_equal (fun M => fst (m11 M)) U2) as B4. cbn in *. unfold Cnorm2. cbn.
  split; [lra|]. split; [lra|]. split; [lra|].
  transitivity ((a0 * c0 + a1 * c1) * (d0 * b0 + d1 * b1) + (a1 * c0 - a0 * c1) * (d0 * b1 - d1 * b0))%R; [ring|].
  assert (E1 : (a0 * c0 + a1 * c1 = - (b0 * d0 + b1 * d1))%R) by lra. assert (E2 : (a1 * c0 - a0 * c1 = - (b1 * d0 - b0 * d1))%R) by lra. rewrite E1, E2.
  transitivity (- ((b0 * b0 + b1 * b1) * (d0 * d0 + d1 * d1)))%R; [ring|]. assert (E3 : (d0 * d0 + d1 * d1 = a0 * a0 + a1 * a1)%R) by lra. rewrite E3. ring.
Qed.
(** The Hong-Ou-Mandel experiment: one photon in each input of a beam splitter with transmission
    [T] and reflection [R]. A delay brings back the coincidences. *)
Theorem C49_hong_ou_mandel D A h v chs t w st nm amp p a b f : w <> 0%R -> optic_ok D (A, (h, v)) ->
  s_comps st = [(nm, (amp, p))] -> channels_of (values_of_name D nm) = [a; b] -> ((a, b) = (h, v) \/ (a, b) = (v, h)) ->
  channel_in chs a <> channel_in chs b ->
  let T := Cnorm2 (m00 A) in let R := Cnorm2 (m01 A) in
  (T + R = 1)%R /\
  (channels_of f = [a; b] -> detection (sent_branches D [(A, (h, v))] chs t w st) f = (T ^ 2 + R ^ 2 - 2 * (T * R) * gauss t w)%R) /\
  (channels_of f = [h; h] \/ channels_of f = [v; v] -> detection (sent_branches D [(A, (h, v))] chs t w st) f = (T * R * (1 + gauss t w))%R).
Proof.
  intros Hw (HU & Hh & Hv & Hne & _) Ec Ea Hab Hch T R. cbn [fst snd] in *. destruct (unitary2_facts A HU) as (F1 & F2 & F3 & F4). split; [exact F3|].
  assert (Hnab : a <> b) by (intro E; apply Hch; now rewrite E).
  assert (HG : overlap_between chs t w a b = gauss t w) by (unfold overlap_between; destruct (channel_in chs a), (channel_in chs b); cbn; congruence).
  assert (E00 : transfer (dN D) [(A, (h, v))] h h = m00 A) by (rewrite element_transfer by exact Hh; unfold optic_transfer; cbn [fst snd]; now rewrite Nat.eqb_refl).
  assert (E01 : transfer (dN D) [(A, (h, v))] v h = m01 A) by (rewrite element_transfer by exact Hv; unfold optic_transfer; cbn [fst snd]; rewrite !Nat.eqb_refl; destruct (Nat.eqb_spec v h); congruence).
  assert (E10 : transfer (dN D) [(A, (h, v))] h v = m10 A) by (rewrite element_transfer by exact Hh; unfold optic_transfer; cbn [fst snd]; rewrite !Nat.eqb_refl; destruct (Nat.eqb_spec v h); congruence).
  assert (E11 : transfer (dN D) [(A, (h, v))] v v = m11 A) by (rewrite element_transfer by exact Hv; unfold optic_transfer; cbn [fst snd]; rewrite !Nat.eqb_refl; destruct (Nat.eqb_spec v h); congruence).
  assert (RC : forall x y : C, Re (x * Cconj y)%C = Re (y * Cconj x)%C) by (intros [x0 x1] [y0 y1]; cbn; ring).
  assert (F4' : Re (m10 A * m01 A * Cconj (m00 A * m11 A))%C = (- (T * R))%R) by (rewrite RC; exact F4).
  assert (NN : forall z : C, Re (z * Cconj z)%C = Cnorm2 z) by (intros [z0 z1]; unfold Cnorm2; cbn; ring).
  split; intro Ef.
  - rewrite (C49_two_photons D _ chs t w st nm amp p a b f a b Hw Ec Ea Ef). rewrite (factorials_distinct _ a b Ea Hnab), (factorials_distinct _ a b Ef Hnab), HG.
    destruct Hab as [E|E]; injection E as -> ->; rewrite E00, E01, E10, E11, !Cnorm2_mult, F1, F2; fold T R.
    + rewrite F4. fold T R. cbn. field.
    + rewrite (Cmult_comm (m11 A)), (Cmult_comm (m01 A)), F4. fold T R. cbn. field.
  - destruct Ef as [Ef|Ef].
    + rewrite (C49_two_photons D _ chs t w st nm amp p a b f h h Hw Ec Ea Ef). rewrite (factorials_distinct _ a b Ea Hnab), (factorials_twice _ h Ef), HG.
      destruct Hab as [E|E]; injection E as -> ->; rewrite E00, E10, (Cmult_comm (m10 A) (m00 A)), NN, !Cnorm2_mult, F2; fold T R; cbn; field.
    + rewrite (C49_two_photons D _ chs t w st nm amp p a b f v v Hw Ec Ea Ef). rewrite (factorials_distinct _ a b Ea Hnab), (factorials_twice _ v Ef), HG.
      destruct Hab as [E|E]; injection E as -> ->; rewrite E01, E11, (Cmult_comm (m11 A) (m01 A)), NN, !Cnorm2_mult, F1; fold T R; cbn; field.
Qed.
(** ** Counting alone does not see the delays *)
Lemma place_wave (D : dims) (chs : list nat) (t w : R) (va : values * C) s cs k x : In (k, x) (combine s cs) ->
  let b := Branch (snd va) (sqrt (INR (factorials (fst va)))) (sent_photons (dN D) [] chs t w (fst va)) in
  k < NamesSpec.photons (fst va) -> path b cs s <> RtoC 0 -> nth k (channels_of (fst va)) 0 = x.
Proof.
  intros Hin b Hk Hp. destruct (Nat.eq_dec (nth k (channels_of (fst va)) 0) x) as [E|E]; [exact E|]. exfalso. apply Hp. unfold path.
  assert (Z : Cprod (combine s cs) (fun x0 => ph_wave (nth_photon b (fst x0)) (snd x0)) = RtoC 0).
  { revert Hin. generalize (combine s cs). intro l. induction l as [|y l IH]; [intros []|]. intros [->|Hin]; unfold Cprod; cbn [fold_right fst snd].
    - unfold b. rewrite (sent_nth D [] chs t w va k Hk). cbn [ph_wave transfer]. destruct (Nat.eqb_spec x (nth k (channels_of (fst va)) 0)); [congruence|ring].
    - unfold Cprod in IH. rewrite (IH Hin). ring. }
  rewrite Z. ring.
Qed.
Lemma counting_term (D : dims) (chs : list nat) (t w : R) (va va' : values * C) f s s' : NamesSpec.photons (fst va) = NamesSpec.photons f -> NamesSpec.photons (fst va') = NamesSpec.photons f ->
  In s (permutations (seq 0 (NamesSpec.photons f))) -> In s' (permutations (seq 0 (NamesSpec.photons f))) ->
  let b va := Branch (snd va) (sqrt (INR (factorials (fst va)))) (sent_photons (dN D) [] chs t w (fst va)) in
  (path (b va) (channels_of f) s * Cconj (path (b va') (channels_of f) s') * RtoC (indistinct (b va) (b va') s s'))%C = (path (b va) (channels_of f) s * Cconj (path (b va') (channels_of f) s'))%C.
Proof.
  intros E E' Hs Hs' b. destruct (Ceq_dec (path (b va) (channels_of f) s) (RtoC 0)) as [Z|Z]; [rewrite Z; ring|]. destruct (Ceq_dec (path (b va') (channels_of f) s') (RtoC 0)) as [Z'|Z'].
  - rewrite Z'. replace (Cconj (RtoC 0)) with (RtoC 0) by (apply C_eq; cbn; ring). ring.
  - replace (indistinct (b va) (b va') s s') with 1%R; [ring|]. symmetry. unfold indistinct. pose proof (orders_length _ _ Hs) as Ls. pose proof (orders_length _ _ Hs') as Ls'.
    transitivity (Rprod (combine s s') (fun _ => 1%R)); [|generalize (combine s s'); intro l; induction l as [|y l IH]; [reflexivity|unfold Rprod in *; cbn; rewrite IH; ring]].
    apply Rprod_ext. intros [k k'] Hin. cbn [fst snd]. apply (In_nth _ _ (0, 0)) in Hin. destruct Hin as (i & Hi & Ei). rewrite combine_length, Ls, Ls', Nat.min_id in Hi. rewrite combine_nth in Ei by congruence. injection Ei as Ek Ek'.
    assert (Lc : length (channels_of f) = NamesSpec.photons f) by apply channels_length.
    assert (A : In (k, nth i (channels_of f) 0) (combine s (channels_of f))) by (rewrite <- Ek, <- combine_nth by congruence; apply nth_In; rewrite combine_length; lia).
    assert (A' : In (k', nth i (channels_of f) 0) (combine s' (channels_of f))) by (rewrite <- Ek', <- combine_nth by congruence; apply nth_In; rewrite combine_length; lia).
    assert (Bk : k < NamesSpec.photons f) by (apply (orders_bound _ s k Hs); rewrite <- Ek; apply nth_In; lia). assert (Bk' : k' < NamesSpec.photons f) by (apply (orders_bound _ s' k' Hs'); rewrite <- Ek'; apply nth_In; lia).
    pose proof (place_wave D chs t w va s (channels_of f) k _ A ltac:(lia) Z) as C1. pose proof (place_wave D chs t w va' s' (channels_of f) k' _ A' ltac:(lia) Z') as C2.
    unfold b. rewrite (sent_nth D [] chs t w va k) by lia. rewrite (sent_nth D [] chs t w va' k') by lia. cbn [ph_timing]. rewrite C1, C2. apply pulse_overlap_same.
Qed.
Lemma counting_delay (D : dims) (chs : list nat) (t t' w : R) st f : detection (sent_branches D [] chs t w st) f = detection (sent_branches D [] chs t' w st) f.
Proof.
  unfold detection. f_equal. f_equal. unfold interference, fitting, sent_branches. rewrite !filter_map, !Csum_map.
  assert (HF : forall r, filter (fun x => length (br_photons (let vs := values_of_name D (fst x) in Branch (snd x) (sqrt (INR (factorials vs))) (sent_photons (dN D) [] chs r w vs))) =? NamesSpec.photons f) (weighted_components st)
     = filter (fun x => NamesSpec.photons (values_of_name D (fst x)) =? NamesSpec.photons f) (weighted_components st)).
  { intro r. apply filter_ext. intro x. cbn [br_photons]. unfold sent_photons. now rewrite map_length, channels_length. }
  rewrite !HF. apply Csum_ext. intros x Hx. rewrite !Csum_map. rewrite ?HF. apply Csum_ext. intros x' Hx'. apply Csum_ext. intros s Hs. apply Csum_ext. intros s' Hs'.
  apply filter_In in Hx. destruct Hx as [_ Hx]. apply Nat.eqb_eq in Hx. apply filter_In in Hx'. destruct Hx' as [_ Hx']. apply Nat.eqb_eq in Hx'.
  pose proof (counting_term D chs t w (values_of_name D (fst x), snd x) (values_of_name D (fst x'), snd x') f s s' Hx Hx' Hs Hs') as T1. cbn [fst snd] in T1.
  pose proof (counting_term D chs t' w (values_of_name D (fst x), snd x) (values_of_name D (fst x'), snd x') f s s' Hx Hx' Hs Hs') as T2. cbn [fst snd] in T2.
  cbn zeta. rewrite T1, T2.
  assert (P : forall y cs0 s0, In s0 (permutations (seq 0 (NamesSpec.photons f))) -> NamesSpec.photons (values_of_name D (fst y)) = NamesSpec.photons f ->
     path (Branch (snd y) (sqrt (INR (factorials (values_of_name D (fst y))))) (sent_photons (dN D) [] chs t w (values_of_name D (fst y)))) cs0 s0
     = path (Branch (snd y) (sqrt (INR (factorials (values_of_name D (fst y))))) (sent_photons (dN D) [] chs t' w (values_of_name D (fst y)))) cs0 s0).
  { intros y cs0 s0 Hs0 Hy. unfold path. cbn [br_amplitude br_boson]. f_equal. apply Cprod_ext. intros [k c] Hk. cbn [fst snd]. assert (Bk : k < NamesSpec.photons f) by (apply (orders_bound _ s0 k Hs0); exact (in_combine_l _ _ _ _ Hk)).
    pose proof (sent_nth D [] chs t w (values_of_name D (fst y), snd y) k ltac:(cbn [fst]; lia)) as Q1. pose proof (sent_nth D [] chs t' w (values_of_name D (fst y), snd y) k ltac:(cbn [fst]; lia)) as Q2. cbn [fst snd] in Q1, Q2. rewrite Q1, Q2. reflexivity. }
  rewrite (P x _ s Hs Hx), (P x' _ s' Hs' Hx'). reflexivity.
Qed.
Lemma forall2_map {A B E} (Q : B -> E -> Prop) (f : A -> B) (g : A -> E) l : (forall x, In x l -> Q (f x) (g x)) -> Forall2 Q (map f l) (map g l).
Proof. induction l as [|x l IH]; intro H; constructor; [apply H; now left|apply IH; intros y Hy; apply H; now right]. Qed.
Theorem C49_counting D chs t w st f : 1 <= dL D -> 2 <= dN D -> wf_state D st -> sendable D st -> valid D f ->
  detection (sent_branches D [] chs t w st) f = Cnorm2 (amplitude st (name_string D f)).
Proof.
  intros HL HN Hwf Hs Hf. rewrite (counting_delay D chs t 0 w st f).
  assert (Hid : Forall (optic_ok D) [(mat2_id, (0, 1))]).
  { constructor; [|constructor]. unfold optic_ok. cbn [fst snd]. repeat split; try lia; unfold mat2_mul, mat2_adj, mat2_id; cbn [m00 m01 m10 m11]; f_equal; apply C_eq; cbn; ring. }
  transitivity (detection (sent_branches D [(mat2_id, (0, 1))] chs 0 w st) f).
  - symmetry. apply (rephased_detection (dN D) (fun _ => RtoC 1)); [intros; unfold Cnorm2; cbn; ring| |exact (proj1 Hf)].
    unfold sent_branches. apply forall2_map. intros x _. split; [reflexivity|]. split; [reflexivity|]. cbn [br_photons]. unfold sent_photons. apply forall2_map. intros k _. cbn [ph_timing ph_wave]. split; [reflexivity|].
    intros c Hc. rewrite element_transfer by exact Hc. cbn [transfer]. unfold optic_transfer. cbn [fst snd m00 m01 m10 m11 mat2_id].
    destruct (Nat.eqb_spec k 0) as [->|]; [destruct (Nat.eqb_spec c 0); [ring|destruct (c =? 1); ring]|]. destruct (Nat.eqb_spec k 1) as [->|]; [|destruct (c =? k); ring].
    destruct (Nat.eqb_spec c 0) as [->|]; [cbn [Nat.eqb]; ring|]. destruct (c =? 1); ring.
  - assert (exists tl, tensor_list_of (dN D) [0; 1] = Some tl) as [tl Htl].
    { destruct (C48_elements_exist D [(mat2_id, (0, 1))] HL ltac:(discriminate) Hid) as [[M EM] _]. unfold circuit_matrix in EM. cbn [optic_gates map place fst snd] in EM. destruct (tensor_list_of (dN D) [0; 1]) as [tl|]; [now exists tl|discriminate]. }
    destruct (C08_identity_gate D [0; 1] tl HL HN Htl) as (M & EM & HM).
    rewrite (C49_same_arrival D _ M chs 0 w st f HL HN Hid EM Hwf Hs (or_introl eq_refl) Hf). f_equal. unfold mat_vec.
    pose proof (index_of_values_bound D f Hf) as Bf. rewrite (Csum_single _ (index_of_values D f)); [|apply seq_NoDup|apply in_seq; lia|].
    + rewrite HM by exact Bf. rewrite Nat.eqb_refl, state_vector_amp by assumption. unfold amp_of. ring.
    + intros j Hj Hn. apply in_seq in Hj. rewrite HM by (try exact Bf; unfold size_of_basis in Hj; lia). destruct (Nat.eqb_spec (index_of_values D f) j); [congruence|ring].
Qed.
Lemma outcome_prob_tuples D x opt o : wf_state D x ->
  outcome_prob D x opt o = Rsum (filter (fun f => leqb (readout opt f) o) (tuples (dL D) (dN D))) (fun f => Cnorm2 (amplitude x (name_string D f))).
Proof.
  intros [ND Hv]. apply RtoC_inj. rewrite Rsum_filter. unfold outcome_prob. rewrite <- !Csum_RtoC. symmetry.
  assert (Hc : forall c, In c (s_comps x) -> valid D (values_of_name D (fst c)) /\ name_string D (values_of_name D (fst c)) = fst c).
  { intros c Hin. destruct (Hv (fst c) (in_map fst _ _ Hin)) as (vs & Vv & E). rewrite E, values_of_name_string by apply Vv. now split. }
  rewrite (Csum_image (tuples (dL D) (dN D)) (s_comps x) (fun c => values_of_name D (fst c))).
  - apply Csum_ext. intros c Hin. destruct (Hc c Hin) as [_ Ec]. rewrite Ec. unfold amplitude. rewrite (dget_in leqb leqb_spec (fst c) (snd c) _ ND) by (now destruct c). reflexivity.
  - apply tuples_nodup.
  - exact (NoDup_map_inv _ _ ND).
  - intros y z Hy Hz E. destruct (Hc y Hy) as [_ Ey]. destruct (Hc z Hz) as [_ Ez]. assert (En : fst y = fst z) by congruence.
    destruct y as [n q], z as [n' q']. cbn [fst] in En. subst n'. pose proof (dget_in leqb leqb_spec _ _ _ ND Hy) as D1. pose proof (dget_in leqb leqb_spec _ _ _ ND Hz) as D2. congruence.
  - intros c Hin. destruct (Hc c Hin) as [Vc _]. apply tuples_in. exact Vc.
  - intros f Hf Hn. apply tuples_in in Hf. destruct (leqb _ _); [|reflexivity]. unfold amplitude. destruct (dget leqb (name_string D f) (s_comps x)) as [ap|] eqn:E; [|f_equal; unfold Cnorm2; cbn; ring]. exfalso.
    apply (dget_some_in leqb leqb_spec) in E. apply (Hn _ E). cbn [fst]. rewrite values_of_name_string by apply Hf. reflexivity.
Qed.
(** When the photons arrive together the experiment measures what the circuit without delays does. *)
Theorem C49_without_delays D es nds eps chs t w st opt o : 2 <= dL D -> 2 <= dN D -> Forall (optic_ok D) es -> es <> [] -> place D (optic_gates es) = Some nds ->
  wf_state D st -> sendable D st -> same_arrival (dN D) chs t ->
  (forall f, valid D f -> let a := mat_vec (size_of_basis D) (nodes_matrix D nds) (state_vector D st) (index_of_values D f) in a = RtoC 0 \/ (eps <= Cnorm2 a)%R) ->
  outcome_detection (dL D) (dN D) (sent_branches D es chs t w st) opt o = outcome_prob D (optical_step D eps nds st) opt o.
Proof.
  intros HL HN Hes Hne Hpl Hwf Hs Ht Hk. assert (EM : circuit_matrix D (optic_gates es) = Some (nodes_matrix D nds)).
  { apply nodes_matrix_circuit'; [lia|exact Hpl|]. intro E. subst nds. destruct es as [|e l]; [congruence|]. cbn [optic_gates map place] in Hpl. destruct (tensor_list_of _ _); [|discriminate]. destruct (place D _); discriminate. }
  rewrite outcome_prob_tuples by (unfold optical_step; apply components_wf; lia). unfold outcome_detection. apply Rsum_ext. intros f Hf. apply filter_In in Hf. destruct Hf as [Hf _]. apply tuples_in in Hf.
  assert (Vf : valid D f) by exact Hf. rewrite (C49_same_arrival D es _ chs t w st f ltac:(lia) HN Hes EM Hwf Hs Ht Vf). f_equal.
  replace (name_string D f) with (at_index D (index_of_values D f)) by (unfold at_index; now rewrite values_index_roundtrip by (try exact Vf; lia)).
  unfold optical_step. rewrite components_amplitude by (try lia; now apply index_of_values_bound). destruct (Rlt_dec _ _) as [Hlt|]; [|reflexivity].
  destruct (Hk f Vf) as [E|E]; [exact E|exfalso; lra].
Qed.
(** The weights of the groups are probabilities: for every label they add up to the weight of the
    states that were sent. *)
Theorem C49_weights rnd0 X rnd rnd' D ncl eps full chs d w es nds opt cl cs :
  2 <= dL D /\ outcomes_clear (dL D) opt -> 2 <= dN D -> (0 < eps)%R -> w <> 0%R -> Forall (optic_ok D) es -> place D (optic_gates es) = Some nds ->
  (forall c k, c < dN D -> k < dN D -> transfer (dN D) es c k = RtoC 0 \/ (eps <= Cnorm2 (transfer (dN D) es c k))%R) ->
  Forall (fun ch => ch < dN D) chs -> delay_exists d ncl -> NoDup cl -> Forall (fun ch => ch < ncl) cl ->
  co_D cs = D -> co_eps cs = eps -> co_ncl cs = ncl -> delayable cs -> Forall (fun it => sendable D (snd it)) (co_items cs) ->
  exists cs' W, evaluate_circuit (with_resolved rnd0 X) rnd (experiment D ncl eps full (time_delay_full rnd' chs d w) nds opt cl) cs = Ok cs' /\
    group_weights (co_items cs') W /\
    forall i, weight_of W i = Rsum (filter (fun it => leqb (s_init (snd it)) i) (co_items cs)) (fun it => s_cum (snd it)).
Proof.
  intros HL HN He Hw Hes Hpl Hthr Hchs Hd NDcl Hcl ED Ee En Hdl Hsend.
  destruct (C49_experiment rnd0 X rnd rnd' D ncl eps full chs d w es nds opt cl cs HL HN He Hes Hpl Hthr Hchs Hd NDcl Hcl ED Ee En Hdl Hsend)
    as (cs' & bos & E & _ & _ & _ & _ & _ & HG & _ & HS).
  exists cs', (map (fun bo => (bd_label (fst bo), bd_group (fst bo), bd_weight (fst bo))) bos). split; [exact E|]. split; [exact HG|].
  intro i. unfold weight_of. rewrite filter_map, Rsum_map. cbn [fst snd].
  set (O := nodup (list_eq_dec Nat.eq_dec) (map snd bos ++ map (readout opt) (tuples (dL D) (dN D)))).
  assert (NDO : NoDup O) by apply NoDup_nodup.
  assert (HO : forall f, In f (tuples (dL D) (dN D)) -> In (readout opt f) O) by (intros f Hf; apply nodup_In, in_or_app; right; now apply in_map).
  rewrite <- (Rsum_flat (filter (fun bo => leqb (bd_label (fst bo)) i) bos) (fun o bo => leqb (snd bo) o) O); [| |exact NDO].
  - transitivity (Rsum O (fun o => Rsum (filter (fun it => leqb (s_init (snd it)) i) (co_items cs))
           (fun it => s_cum (snd it) * outcome_detection (dL D) (dN D) (sent_branches D es chs (delay_in d (snd it)) w (snd it)) opt o)%R)).
    + apply Rsum_ext. intros o _. rewrite <- HS. f_equal. clear. induction bos as [|bo l IH]; [reflexivity|]. cbn [filter]. destruct (leqb (bd_label (fst bo)) i); cbn [filter andb]; [|exact IH]. destruct (leqb (snd bo) o); [now rewrite IH|exact IH].
    + rewrite Rsum_swap. apply Rsum_ext. intros it Hit. apply filter_In in Hit. destruct Hit as [Hit _]. rewrite Rsum_scal_l.
      destruct (proj1 (Forall_forall _ _) (proj2 Hdl) it Hit) as (Hpl' & Hne & _).
      rewrite (proj2 (C49_outcomes_total D es chs (delay_in d (snd it)) w (snd it) opt O Hes Hw ltac:(rewrite <- ED; apply Hpl') (proj1 (Forall_forall _ _) Hsend it Hit) Hne NDO HO)). ring.
  - intros bo Hbo. apply filter_In in Hbo. destruct Hbo as [Hbo _]. exists (snd bo). split; [apply nodup_In, in_or_app; left; now apply in_map|]. split; [apply leqb_same|]. intros o' _ E'. apply leqb_spec in E'. now symmetry.
Qed.
(** The experiment on a beam splitter, from the first node to the measured weights. *)
Definition hom_state : state := State [49; 49] 1 [(name_string D22 [1; 1], (RtoC 1, 1%R))] [0%R; 0%R] [] [].
Definition hom_coll : coll := Coll D22 2 (1 / 4) [([49; 49], hom_state)].
Lemma hom_delayable : delayable hom_coll.
Proof.
  split; [cbn; lra|]. apply Forall_cons; [|constructor]. cbn [snd hom_coll co_D co_eps co_ncl]. split; [|split; [discriminate|cbn; lia]].
  split; [|split; [|split]].
  - split; [constructor; [intros []|constructor]|]. intros nm [<-|[]]. exists [1; 1]. split; [split; [reflexivity|repeat constructor]|reflexivity].
  - intros x [].
  - apply check_state_iff. cbn. split; [lra|]. split; [|reflexivity]. apply Forall_cons; [cbn; lra|constructor].
  - cbn. lra.
Qed.
Lemma hom_sendable : Forall (fun it => sendable D22 (snd it)) (co_items hom_coll).
Proof.
  apply Forall_cons; [|constructor]. split; [|split].
  - intros nm a p [Z|[]]. assert (a = RtoC 1 /\ p = 1%R) as [-> ->] by (split; congruence). rewrite Cnorm2_RtoC. ring.
  - unfold state_norm2, Rsum, Cnorm2. cbn. ring.
  - constructor; [|constructor]. cbn [fst]. rewrite values_of_name_string by (repeat constructor). cbn. lia.
Qed.
Lemma hom_outcomes t w : w <> 0%R ->
  let q o := outcome_detection 3 2 (sent_branches D22 splitter [0] t w hom_state) [0; 1] o in
  q [1; 1] = ((1 - gauss t w) / 2)%R /\ q [2; 0] = ((1 + gauss t w) / 4)%R /\ q [0; 2] = ((1 + gauss t w) / 4)%R.
Proof.
    intros Hw. cbv beta zeta.
    assert (HO : forall o, In o (tuples 3 2) -> outcome_detection 3 2 (sent_branches D22 splitter [0] t w hom_state) [0; 1] o = detection (sent_branches D22 splitter [0] t w hom_state) o).
    { intros o Ho. unfold outcome_detection. rewrite Rsum_filter. rewrite (Rsum_single _ o); [|apply tuples_nodup|exact Ho|].
      - apply tuples_in in Ho. destruct o as [|x [|y [|z o]]]; try (exfalso; destruct Ho as [Ho _]; discriminate Ho). cbn [readout map nth]. now rewrite leqb_same.
      - intros f Hf Hn. apply tuples_in in Hf. destruct f as [|x [|y [|z f]]]; try (exfalso; destruct Hf as [Hf _]; discriminate Hf). cbn [readout map nth]. destruct (leqb [x; y] o) eqn:El; [|reflexivity]. apply leqb_spec in El. congruence. }
    pose proof r2_sq as Q.
    assert (HT : Cnorm2 (m00 plate) = (1 / 2)%R /\ Cnorm2 (m01 plate) = (1 / 2)%R) by (unfold plate; cbn [m00 m01]; rewrite Cnorm2_RtoC; split; lra).
    destruct HT as [HT HR].
    assert (G : forall f, _) by (intro f; exact (C49_hong_ou_mandel D22 plate 0 1 [0] t w hom_state _ _ _ 0 1 f Hw (proj1 (Forall_forall _ _) splitter_ok _ (or_introl eq_refl)) eq_refl
      ltac:(rewrite values_of_name_string by (repeat constructor); reflexivity) (or_introl eq_refl) ltac:(discriminate))).
    cbn zeta in G. rewrite HT, HR in G.
    rewrite !HO by (apply tuples_in; split; [reflexivity|repeat constructor]).
    split; [|split].
    + unfold splitter. rewrite (proj1 (proj2 (G [1; 1]))) by reflexivity. field.
    + unfold splitter. rewrite (proj2 (proj2 (G [2; 0]))) by (left; reflexivity). field.
    + unfold splitter. rewrite (proj2 (proj2 (G [0; 2]))) by (right; reflexivity). field.
Qed.
Example C49_hong_ou_mandel_runs rnd0 X rnd rnd' t w : w <> 0%R ->
  exists nds cs' bos, place D22 (optic_gates splitter) = Some nds /\
  evaluate_circuit (with_resolved rnd0 X) rnd (experiment D22 2 (1 / 4) true (time_delay_full rnd' [0] (Delay t) w) nds [0; 1] [0; 1]) hom_coll = Ok cs' /\
  carries cs' (map fst bos) /\
  let weight o := Rsum (filter (fun bo => leqb (bd_label (fst bo)) [49; 49] && leqb (snd bo) o) bos) (fun bo => bd_weight (fst bo)) in
  weight [1; 1] = ((1 - gauss t w) / 2)%R /\ weight [2; 0] = ((1 + gauss t w) / 4)%R /\ weight [0; 2] = ((1 + gauss t w) / 4)%R.
Proof.
  intro Hw. assert (exists nds, place D22 (optic_gates splitter) = Some nds) as [nds Hpl] by (cbn; eexists; reflexivity). exists nds.
  destruct (C49_experiment rnd0 X rnd rnd' D22 2 (1 / 4) true [0] (Delay t) w splitter nds [0; 1] [0; 1] hom_coll) as (cs' & bos & E & _ & _ & _ & _ & HC & _ & _ & HS); try reflexivity.
  - split; [cbn; lia|left; cbn; lia].
  - lra.
  - exact splitter_ok.
  - exact Hpl.
  - intros c k Hc Hk. right. change (dN D22) with 2 in *. rewrite splitter_transfer by assumption. pose proof r2_sq as Q. unfold optic_transfer, plate. cbn [fst snd m00 m01 m10 m11].
    destruct c as [|[|c]], k as [|[|k]]; try lia; cbn [Nat.eqb]; rewrite Cnorm2_RtoC; nra.
  - repeat constructor.
  - repeat constructor; cbn; intuition lia.
  - repeat constructor.
  - exact hom_delayable.
  - exact hom_sendable.
  - exists cs', bos. split; [exact Hpl|]. split; [exact E|]. split; [exact HC|].
    assert (HW : forall o, Rsum (filter (fun bo => leqb (bd_label (fst bo)) [49; 49] && leqb (snd bo) o) bos) (fun bo => bd_weight (fst bo))
              = outcome_detection 3 2 (sent_branches D22 splitter [0] t w hom_state) [0; 1] o).
    { intro o. rewrite HS. unfold Rsum. cbn [hom_coll co_items filter snd hom_state s_init s_cum leqb Nat.eqb andb map fold_right]. cbn. ring. }
    cbv beta zeta. rewrite !HW. exact (hom_outcomes t w Hw).
Qed.
Lemma gauss_zero w : gauss 0 w = 1%R.
Proof. unfold gauss, Rdiv. rewrite Rmult_0_l. cbn [pow]. rewrite Rmult_0_l, Rmult_0_r. apply exp_0. Qed.
Example C49_without_delays_case w o : w <> 0%R -> exists nds, place D22 (optic_gates splitter) = Some nds /\
  outcome_detection 3 2 (sent_branches D22 splitter [0] 0 w hom_state) [0; 1] o = outcome_prob D22 (optical_step D22 (1 / 4) nds hom_state) [0; 1] o.
Proof.
  intro Hw. assert (exists nds, place D22 (optic_gates splitter) = Some nds) as [nds Hpl] by (cbn; eexists; reflexivity). exists nds. split; [exact Hpl|].
  pose proof hom_delayable as [_ HD]. pose proof (proj1 (Forall_forall _ _) HD _ (or_introl eq_refl)) as [Hp _]. cbn [snd hom_coll co_D] in Hp.
  pose proof (proj1 (Forall_forall _ _) hom_sendable _ (or_introl eq_refl)) as Hs. cbn [snd] in Hs.
  assert (EM : circuit_matrix D22 (optic_gates splitter) = Some (nodes_matrix D22 nds)).
  { apply nodes_matrix_circuit'; [cbn; lia|exact Hpl|]. intro E. subst nds. discriminate Hpl. }
  apply (C49_without_delays D22 splitter nds (1 / 4) [0] 0 w hom_state [0; 1] o); try assumption; try (cbn; lia); [exact splitter_ok|discriminate|apply Hp|now left|].
  intros f Hf a. pose proof (C49_same_arrival D22 splitter _ [0] 0 w hom_state f ltac:(cbn; lia) ltac:(cbn; lia) splitter_ok EM (proj1 Hp) Hs (or_introl eq_refl) Hf) as HA. fold a in HA.
  assert (HV : detection (sent_branches D22 splitter [0] 0 w hom_state) f = 0%R \/ detection (sent_branches D22 splitter [0] 0 w hom_state) f = (1 / 2)%R).
  { destruct (Nat.eq_dec (NamesSpec.photons f) 2) as [E|E].
    - assert (HT : Cnorm2 (m00 plate) = (1 / 2)%R /\ Cnorm2 (m01 plate) = (1 / 2)%R) by (pose proof r2_sq as Q; unfold plate; cbn [m00 m01]; rewrite Cnorm2_RtoC; split; lra). destruct HT as [HT HR].
      pose proof (C49_hong_ou_mandel D22 plate 0 1 [0] 0 w hom_state _ _ _ 0 1 f Hw (proj1 (Forall_forall _ _) splitter_ok _ (or_introl eq_refl)) eq_refl
        ltac:(rewrite values_of_name_string by (repeat constructor); reflexivity) (or_introl eq_refl) ltac:(discriminate)) as G. cbn zeta in G. rewrite HT, HR, gauss_zero in G. destruct G as (_ & G1 & G2). unfold splitter.
      destruct Hf as [Lf _]. destruct f as [|x [|y [|z f]]]; try discriminate Lf. cbn in E. assert (x = 0 /\ y = 2 \/ x = 1 /\ y = 1 \/ x = 2 /\ y = 0) as [[-> ->]|[[-> ->]|[-> ->]]] by lia.
      + right. rewrite G2 by (right; reflexivity). field.
      + left. rewrite G1 by reflexivity. field.
      + right. rewrite G2 by (left; reflexivity). field.
    - left. unfold detection, interference, fitting, sent_branches, weighted_components, hom_state. cbn [s_comps map filter br_photons]. unfold sent_photons. rewrite map_length, channels_length. cbn [fst snd].
      rewrite values_of_name_string by (repeat constructor). change (NamesSpec.photons [1; 1]) with 2. destruct (Nat.eqb_spec 2 (NamesSpec.photons f)); [congruence|]. rewrite Csum_nil, Cmod_0. unfold Rdiv. ring. }
  rewrite HA in HV. destruct HV as [HV|HV]; [left|right; lra]. unfold Cnorm2 in HV. destruct a as [a0 a1]. cbn [fst snd] in HV. assert (a0 = 0%R /\ a1 = 0%R) as [-> ->] by nra. reflexivity.
Qed.
