(** Property theorems C42, continued: optical elements between the gate and the detectors. *)
From Coq Require Import Reals List Arith Lia Lra Bool Permutation Sorted.
From Coquelicot Require Import Complex.
From Verif Require Import Prelude NamesModel NamesSpec NamesProofs FockModel FockSpec FockProofs GateProofs PropFock OpticalModel StateModel StateSpec StateProofs
  ApplyProofs CollectionModel CollectionSpec EvalModel EvalSpec EvalProofs MeasureSpec MeasureProofs WfProofs PropState PropMeasure PropEval PropReshape PropBridge
  OperatorModel OperatorSpec PropOperator PRModel PRSpec PropPR PropPRMeasure.
Import ListNotations.

(** ** Settings *)
Definition sees_at (o : list (nat * nat)) (e : element) : nat := let st := nth (fst (fst e)) o (0, 0) in if snd (fst e) then fst st else snd st.
Definition moved (o : list (nat * nat)) (e : element) (s : nat) : list (nat * nat) :=
  let st := nth (fst (fst e)) o (0, 0) in set_nth o (fst (fst e)) (if snd (fst e) then (s, snd st) else (fst st, s)).


Lemma at_pair_length j f : forall ps, length (at_pair j f ps) = length ps.
Proof. revert j. intros j ps. revert j. induction ps as [|p ps IH]; intros [|j]; cbn; auto. Qed.
Lemma at_pair_q j e : forall ps, map p_q (at_pair j (fun p => followed_pair p e) ps) = map p_q ps.
Proof.
  intros ps. revert j. induction ps as [|p ps IH]; intros [|j]; cbn [at_pair map]; auto; [|now rewrite IH]. f_equal. unfold followed_pair. now destruct (snd (fst e)).
Qed.
Lemma followed_amplitude e : forall ps o w, length o = length ps -> length w = length ps -> fst (fst e) < length ps -> sees_at o e < 2 ->
  settings_amplitude (followed_by ps e) o w =
  (entry_of (snd e) 0 (sees_at o e) * settings_amplitude ps (moved o e 0) w + entry_of (snd e) 1 (sees_at o e) * settings_amplitude ps (moved o e 1) w)%C.
Proof.
  destruct e as [ [j side] A]. unfold followed_by, sees_at, moved. cbn [fst snd]. intros ps.
  change (fun p => followed_pair p (j, side, A)) with (fun p => followed_pair p (0, side, A)).
  revert j. induction ps as [|p ps IH]; intros j [|[s t] o] [|i w] Ho Hw Hj Hs; try discriminate; [cbn in Hj; lia|].
  destruct j as [|j].
  - cbn [at_pair nth set_nth settings_amplitude fst snd]. unfold followed_pair. cbn [fst snd]. destruct side; cbn [p_A p_B settings_amplitude fst snd]; unfold followed; ring.
  - cbn [at_pair nth set_nth settings_amplitude] in *. destruct side; cbn [fst snd] in *; rewrite (IH j o w) by (cbn in *; try lia; exact Hs); cbn [fst snd]; ring.
Qed.
Lemma followed_unitary U A : unitary_setting U -> unitary2 A -> unitary_setting (followed U A).
Proof.
  intros HU HA s s' Hs Hs'. pose proof (HU 0%nat 0%nat ltac:(lia) ltac:(lia)) as U00. pose proof (HU 0%nat 1%nat ltac:(lia) ltac:(lia)) as U01. pose proof (HU 1%nat 0%nat ltac:(lia) ltac:(lia)) as U10. pose proof (HU 1%nat 1%nat ltac:(lia) ltac:(lia)) as U11.
  cbn [Nat.eqb] in *. destruct HA as [_ HA]. pose proof (f_equal m00 HA) as A00. pose proof (f_equal m01 HA) as A01. pose proof (f_equal m10 HA) as A10. pose proof (f_equal m11 HA) as A11. cbn [mat2_mul mat2_adj mat2_id m00 m01 m10 m11] in *.
  unfold followed. rewrite !Cconj_plus, !Cconj_mult.
  transitivity ((entry_of A 0 s * Cconj (entry_of A 0 s')) * (U 0%nat 0%nat * Cconj (U 0%nat 0%nat) + U 0%nat 1%nat * Cconj (U 0%nat 1%nat))
    + (entry_of A 0 s * Cconj (entry_of A 1 s')) * (U 0%nat 0%nat * Cconj (U 1%nat 0%nat) + U 0%nat 1%nat * Cconj (U 1%nat 1%nat))
    + (entry_of A 1 s * Cconj (entry_of A 0 s')) * (U 1%nat 0%nat * Cconj (U 0%nat 0%nat) + U 1%nat 1%nat * Cconj (U 0%nat 1%nat))
    + (entry_of A 1 s * Cconj (entry_of A 1 s')) * (U 1%nat 0%nat * Cconj (U 1%nat 0%nat) + U 1%nat 1%nat * Cconj (U 1%nat 1%nat)))%C; [ring|].
  rewrite U00, U01, U10, U11.
  transitivity (Cconj (entry_of A 0 s') * entry_of A 0 s + Cconj (entry_of A 1 s') * entry_of A 1 s)%C; [ring|].
  destruct s as [|[|s]]; [| |lia]; (destruct s' as [|[|s']]; [| |lia]); cbn [entry_of Nat.eqb]; assumption.
Qed.
Lemma followed_pairs_ok ps e : Forall pair_ok ps -> unitary2 (snd e) -> Forall pair_ok (followed_by ps e).
Proof.
  intros HF HU. unfold followed_by. generalize (fst (fst e)). induction HF as [|p ps (Hq & HA & HB) HF IH]; intros [|j]; cbn [at_pair]; constructor; auto; [|split; auto].
  unfold followed_pair. destruct (snd (fst e)); split; cbn [p_q p_A p_B]; auto; split; auto; now apply followed_unitary.
Qed.

(** ** One element acting on the vector of amplitudes *)
Definition represents (D : dims) (d : nat) (place : list (nat * nat) -> values) (ps : list pr_pair) (w : list nat) (v : vec) : Prop :=
  (forall o, In o (all_outcomes d) -> v (index_of_values D (place o)) = settings_amplitude ps o w) /\
  (forall us, valid D us -> (forall o, In o (all_outcomes d) -> us <> place o) -> v (index_of_values D us) = RtoC 0).

Lemma Csum_two d a b (f : nat -> C) : a < d -> b < d -> a <> b -> (forall k, k < d -> k <> a -> k <> b -> f k = RtoC 0) -> Csum (seq 0 d) f = (f a + f b)%C.
Proof.
  intros Ha Hb Hab Hf. rewrite <- (Csum_delta d a f Ha), <- (Csum_delta d b f Hb), <- Csum_plus. apply Csum_ext. intros k Hk. apply in_seq in Hk.
  destruct (Nat.eqb_spec a k) as [<-|N1].
  - replace (b =? a) with false by (symmetry; apply Nat.eqb_neq; auto). ring.
  - destruct (Nat.eqb_spec b k) as [<-|N2]; [ring|]. rewrite Hf by (auto; lia). ring.
Qed.

Section Element.
  Variables (D : dims) (pairs : list (list nat * R)) (vs : values) (place : list (nat * nat) -> values) (e : element) (h v : nat).
  Hypothesis HL : 2 <= dL D.
  Hypothesis Hp : good_pairs D pairs.
  Hypothesis Hplace : forall o, In o (all_outcomes (length pairs)) -> valid D (place o) /\ configured pairs (map (fun st => 2 * fst st + snd st) o) vs (place o).
  Hypothesis Hj : fst (fst e) < length pairs.
  Hypothesis Hch : element_channels pairs e = [h; v].

  Lemma element_pair : exists ah av bh bv q, nth_error pairs (fst (fst e)) = Some ([ah; av; bh; bv], q) /\ (h, v) = (if snd (fst e) then (ah, av) else (bh, bv)).
  Proof.
    unfold element_channels in Hch. destruct (nth_error pairs (fst (fst e))) as [ [chs q]|] eqn:E; [|discriminate]. destruct chs as [|ah [|av [|bh [|bv [|? ?] ] ] ] ]; try discriminate.
    exists ah, av, bh, bv, q. split; [reflexivity|]. destruct (snd (fst e)); injection Hch as <- <-; reflexivity.
  Qed.
  Lemma outcome_at o : In o (all_outcomes (length pairs)) -> length o = length pairs /\ Forall (fun st => fst st < 2 /\ snd st < 2) o /\
    fst (nth (fst (fst e)) o (0, 0)) < 2 /\ snd (nth (fst (fst e)) o (0, 0)) < 2.
  Proof.
    intros Ho. apply digits_spec in Ho. destruct Ho as (_ & _ & Lo & Fo). split; [exact Lo|]. split; [exact Fo|]. rewrite Forall_forall in Fo. apply Fo. apply nth_In. lia.
  Qed.
  Lemma place_at o : In o (all_outcomes (length pairs)) -> nth h (place o) 0 = 1 - sees_at o e /\ nth v (place o) 0 = sees_at o e /\ sees_at o e < 2.
  Proof.
    intros Ho. destruct element_pair as (ah & av & bh & bv & q & Ej & Ehv). destruct (Hplace o Ho) as [_ (_ & Hc & _)]. destruct (Hc _ _ _ _ _ _ Ej) as (C1 & C2 & C3 & C4).
    destruct (outcome_at o Ho) as (Lo & _ & H1 & H2). 
    assert (Ed : nth (fst (fst e)) (map (fun st : nat * nat => 2 * fst st + snd st) o) 0 = 2 * fst (nth (fst (fst e)) o (0, 0)) + snd (nth (fst (fst e)) o (0, 0))).
    { rewrite (nth_indep _ 0 (2 * fst (0, 0) + snd (0, 0))) by (rewrite map_length; lia). now rewrite (map_nth (fun st : nat * nat => 2 * fst st + snd st)). }
    rewrite Ed in *. rewrite digit_div in C1, C2 by assumption. rewrite digit_mod in C3, C4 by assumption. unfold sees_at. destruct (snd (fst e)); injection Ehv as -> ->; auto.
  Qed.
  Lemma moved_in o s : In o (all_outcomes (length pairs)) -> s < 2 -> In (moved o e s) (all_outcomes (length pairs)).
  Proof.
    intros Ho Hs. destruct (outcome_at o Ho) as (Lo & Fo & H1 & H2). apply all_outcomes_spec. unfold moved. rewrite set_nth_length. split; [exact Lo|].
    clear - Fo Hs H1 H2. generalize dependent (nth (fst (fst e)) o (0, 0)). intros st H1 H2. generalize (fst (fst e)). induction Fo as [|x o Hx Fo IH]; intros [|j]; cbn [set_nth]; constructor; auto.
    unfold sees. destruct (snd (fst e)); cbn; auto.
  Qed.
  Lemma moved_nth o s j : In o (all_outcomes (length pairs)) -> j <> fst (fst e) -> nth j (moved o e s) (0, 0) = nth j o (0, 0).
  Proof.
    intros _ Hne. unfold moved. generalize (if snd (fst e) then (s, snd (nth (fst (fst e)) o (0, 0))) else (fst (nth (fst (fst e)) o (0, 0)), s)). intros x.
    clear - Hne. generalize dependent (fst (fst e)). intros k. revert j k. induction o as [|y o IH]; intros [|j] [|k] Hne; cbn; auto; try lia. 
  Qed.
  Lemma moved_at o s : In o (all_outcomes (length pairs)) -> nth (fst (fst e)) (moved o e s) (0, 0) = if snd (fst e) then (s, snd (nth (fst (fst e)) o (0, 0))) else (fst (nth (fst (fst e)) o (0, 0)), s).
  Proof.
    intros Ho. destruct (outcome_at o Ho) as (Lo & _). unfold moved. generalize (if snd (fst e) then (s, snd (nth (fst (fst e)) o (0, 0))) else (fst (nth (fst (fst e)) o (0, 0)), s)). intros x.
    assert (Hk : fst (fst e) < length o) by lia. clear - Hk. generalize dependent (fst (fst e)). induction o as [|y o IH]; intros [|k] Hk; cbn in *; auto; try lia. apply IH. lia.
  Qed.
  Lemma moved_sees o s : In o (all_outcomes (length pairs)) -> sees_at (moved o e s) e = s.
  Proof. intros Ho. unfold sees_at. rewrite moved_at by assumption. now destruct (snd (fst e)). Qed.

  Lemma digit_nth o j : length o = length pairs -> j < length pairs -> nth j (map (fun st : nat * nat => 2 * fst st + snd st) o) 0 = 2 * fst (nth j o (0, 0)) + snd (nth j o (0, 0)).
  Proof. intros Lo Hj'. rewrite (nth_indep _ 0 (2 * fst (0, 0) + snd (0, 0))) by (rewrite map_length; lia). now rewrite (map_nth (fun st : nat * nat => 2 * fst st + snd st)). Qed.

  (** Outside its two channels the outcome does not change. *)
  Lemma moved_elsewhere o s : In o (all_outcomes (length pairs)) -> s < 2 -> same_elsewhere h v (place o) (place (moved o e s)).
  Proof.
    intros Ho Hs c Hch' Hcv. pose proof (moved_in o s Ho Hs) as Hm. destruct (Hplace o Ho) as [_ (_ & P1 & O1)]. destruct (Hplace _ Hm) as [_ (_ & P2 & O2)].
    destruct (in_dec Nat.eq_dec c (concat (map fst pairs))) as [Hin|Hn]; [|now rewrite O1, O2].
    apply in_concat in Hin. destruct Hin as (l & Hl & Hcl). apply in_map_iff in Hl. destruct Hl as ([chs q] & E & Hpr). cbn [fst] in E. subst chs.
    destruct Hp as (HF & _). rewrite Forall_forall in HF. destruct (HF _ Hpr) as [Hlen _]. cbn [fst] in Hlen. destruct l as [|ah [|av [|bh [|bv [|? ?] ] ] ] ]; try discriminate.
    apply In_nth_error in Hpr. destruct Hpr as (j & Ej). assert (Hjl : j < length pairs) by (apply nth_error_Some; now rewrite Ej).
    destruct (P1 _ _ _ _ _ _ Ej) as (A1 & A2 & A3 & A4). destruct (P2 _ _ _ _ _ _ Ej) as (B1 & B2 & B3 & B4).
    destruct (outcome_at o Ho) as (Lo & Fo & _). destruct (outcome_at _ Hm) as (Lm & Fm & _).
    rewrite digit_nth in A1, A2, A3, A4 by assumption. rewrite digit_nth in B1, B2, B3, B4 by assumption.
    assert (T1 : snd (nth j o (0, 0)) < 2) by (rewrite Forall_forall in Fo; apply Fo, nth_In; lia). assert (T2 : snd (nth j (moved o e s) (0, 0)) < 2) by (rewrite Forall_forall in Fm; apply Fm, nth_In; lia).
    rewrite digit_div in A1, A2 by assumption. rewrite digit_mod in A3, A4 by assumption. rewrite digit_div in B1, B2 by assumption. rewrite digit_mod in B3, B4 by assumption.
    destruct (Nat.eq_dec j (fst (fst e))) as [->|Hne].
    - rewrite moved_at in B1, B2, B3, B4 by assumption. destruct element_pair as (ah' & av' & bh' & bv' & q' & Ej' & Ehv). rewrite Ej in Ej'. injection Ej' as <- <- <- <- <-.
      destruct (snd (fst e)); injection Ehv as -> ->; cbn [fst snd] in *; destruct Hcl as [<-|[<-|[<-|[<-|[] ] ] ] ]; congruence.
    - rewrite moved_nth in B1, B2, B3, B4 by assumption. destruct Hcl as [<-|[<-|[<-|[<-|[] ] ] ] ]; congruence.
  Qed.
  Lemma place_unique o us s : In o (all_outcomes (length pairs)) -> valid D us -> s < 2 -> same_elsewhere h v (place o) us -> nth h us 0 = 1 - s -> nth v us 0 = s -> us = place (moved o e s).
  Proof.
    intros Ho [Lu _] Hs Hsame Hh Hv. pose proof (moved_in o s Ho Hs) as Hm. destruct (place_at _ Hm) as (Q1 & Q2 & _). rewrite moved_sees in Q1, Q2 by assumption.
    destruct (Hplace _ Hm) as [ [Lm _] _]. apply (nth_ext _ _ 0 0); [now rewrite Lu, Lm|]. intros c _.
    destruct (Nat.eq_dec c h) as [->|H1]; [congruence|]. destruct (Nat.eq_dec c v) as [->|H2]; [congruence|].
    rewrite <- (Hsame c H1 H2). now apply moved_elsewhere.
  Qed.

  Variable M : mat.
  Hypothesis HM : forall from to, valid D from -> valid D to ->
      (same_elsewhere h v from to -> M (index_of_values D to) (index_of_values D from) = gate_amp (dL D) (mat2_tr (snd e)) (nth h from 0) (nth v from 0) (nth h to 0) (nth v to 0)) /\
      (~ same_elsewhere h v from to -> M (index_of_values D to) (index_of_values D from) = RtoC 0).

  Lemma same_dec a b : same_elsewhere h v a b \/ ~ same_elsewhere h v a b.
  Proof. apply Classical_Prop.classic. Qed.
  Lemma same_sym a b : same_elsewhere h v a b -> same_elsewhere h v b a.
  Proof. intros H c H1 H2. symmetry. now apply H. Qed.
  Lemma gate_moved s s' : s < 2 -> s' < 2 -> gate_amp (dL D) (mat2_tr (snd e)) (1 - s') s' (1 - s) s = entry_of (snd e) s' s.
  Proof.
    intros Hs Hs'. destruct (gate_one_photon (dL D) (mat2_tr (snd e)) HL) as (G1 & G2 & G3 & G4).
    destruct s as [|[|s]]; [| |lia]; (destruct s' as [|[|s'] ]; [| |lia]); cbn [Nat.sub entry_of]; assumption.
  Qed.

  Lemma element_step ps w x : length ps = length pairs -> length w = length pairs -> represents D (length pairs) place ps w x ->
    represents D (length pairs) place (followed_by ps e) w (mat_vec (size_of_basis D) M x).
  Proof.
    intros Lps Lw [R1 R2]. assert (HL1 : 1 <= dL D) by lia.
    assert (Hk : forall k, k < size_of_basis D -> exists from, valid D from /\ k = index_of_values D from).
    { intros k Hk. exists (values_from_index D k). split; [now apply values_from_index_valid|]. symmetry. now apply index_values_roundtrip. }
    split.
    - intros o Ho. destruct (outcome_at o Ho) as (Lo & _). destruct (place_at o Ho) as (P1 & P2 & Hs). destruct (Hplace o Ho) as [Vo _].
      rewrite followed_amplitude by (auto; lia). unfold mat_vec.
      pose proof (moved_in o 0 Ho ltac:(lia)) as I0. pose proof (moved_in o 1 Ho ltac:(lia)) as I1.
      destruct (Hplace _ I0) as [V0 _]. destruct (Hplace _ I1) as [V1 _].
      rewrite (Csum_two _ (index_of_values D (place (moved o e 0))) (index_of_values D (place (moved o e 1)))).
      + destruct (place_at _ I0) as (Z1 & Z2 & _). destruct (place_at _ I1) as (O1 & O2 & _). rewrite moved_sees in Z1, Z2, O1, O2 by assumption.
        destruct (HM (place (moved o e 0)) (place o) V0 Vo) as [E0 _]. destruct (HM (place (moved o e 1)) (place o) V1 Vo) as [E1 _].
        rewrite E0, E1 by (apply same_sym, moved_elsewhere; auto; lia). rewrite Z1, Z2, O1, O2, P1, P2.
        rewrite (gate_moved _ 0) by (auto; lia). rewrite (gate_moved _ 1) by (auto; lia). now rewrite R1, R1.
      + now apply index_of_values_bound.
      + now apply index_of_values_bound.
      + intros E. apply index_of_values_inj in E; auto. destruct (place_at _ I0) as (_ & Z2 & _). destruct (place_at _ I1) as (_ & O2 & _). rewrite moved_sees in Z2, O2 by assumption. rewrite E in Z2. lia.
      + intros k Hkd N0 N1. destruct (Hk k Hkd) as (from & Vf & ->).
        destruct (Classical_Prop.classic (exists o', In o' (all_outcomes (length pairs)) /\ from = place o')) as [(o' & Ho' & ->)|Hn].
        2:{ rewrite R2; [ring|exact Vf|]. intros o' Ho' E. apply Hn. now exists o'. }
        destruct (same_dec (place o') (place o)) as [Hsame|Hn]; [|rewrite (proj2 (HM _ _ Vf Vo) Hn); ring].
        exfalso. destruct (place_at o' Ho') as (Q1 & Q2 & Hs').
        assert (E : place o' = place (moved o e (sees_at o' e))) by (apply place_unique; auto; now apply same_sym).
        destruct (sees_at o' e) as [|[|n] ]; [apply N0; now rewrite E|apply N1; now rewrite E|lia].
    - intros us Vu Hn. unfold mat_vec. rewrite Csum_zero; [reflexivity|]. intros k Hkd. apply in_seq in Hkd. destruct (Hk k) as (from & Vf & ->); [lia|].
      destruct (Classical_Prop.classic (exists o', In o' (all_outcomes (length pairs)) /\ from = place o')) as [(o' & Ho' & ->)|Hn'].
      2:{ rewrite R2; [ring|exact Vf|]. intros o' Ho' E. apply Hn'. now exists o'. }
      destruct (same_dec (place o') us) as [Hsame|Hn'']; [|rewrite (proj2 (HM _ _ Vf Vu) Hn''); ring].
      rewrite (proj1 (HM _ _ Vf Vu) Hsame). destruct (place_at o' Ho') as (Q1 & Q2 & Hs'). rewrite Q1, Q2. unfold gate_amp.
      replace (dL D <=? 1 - sees_at o' e + sees_at o' e) with false by (symmetry; apply Nat.leb_gt; lia).
      destruct (Nat.eqb_spec (nth h us 0 + nth v us 0) (1 - sees_at o' e + sees_at o' e)) as [E|E]; [|ring].
      exfalso. apply (Hn (moved o' e (nth v us 0))); [apply moved_in; auto; lia|]. apply place_unique; auto; lia.
  Qed.
End Element.

(** ** The elements of a circuit *)
Definition node_of_element (pairs : list (list nat * R)) (e : element) : mat2 * list nat := (snd e, element_channels pairs e).

Lemma element_channels_ok D pairs e : good_pairs D pairs -> fst (fst e) < length pairs ->
  exists h v, element_channels pairs e = [h; v] /\ h < dN D /\ v < dN D /\ h <> v.
Proof.
  intros (HF & ND & Hc) Hj. unfold element_channels. destruct (nth_error pairs (fst (fst e))) as [ [chs q]|] eqn:E; [|apply nth_error_None in E; lia].
  pose proof (nth_error_In _ _ E) as Hin. rewrite Forall_forall in HF. destruct (HF _ Hin) as [Hlen _]. cbn [fst] in Hlen. destruct chs as [|ah [|av [|bh [|bv [|? ?] ] ] ] ]; try discriminate.
  assert (Hcc : forall c, In c [ah; av; bh; bv] -> c < dN D). { intros c Hc'. apply Hc. apply in_concat. exists [ah; av; bh; bv]. split; [|exact Hc']. apply in_map_iff. exists ([ah; av; bh; bv], q). now split. }
  assert (ND4 : NoDup [ah; av; bh; bv]).
  { clear - ND Hin. induction pairs as [|p pairs IH]; [destruct Hin|]. cbn [map concat] in ND. destruct Hin as [->|Hin].
    - cbn [fst app] in ND. inversion ND as [|? ? N1 ND1]; subst. inversion ND1 as [|? ? N2 ND2]; subst. inversion ND2 as [|? ? N3 ND3]; subst. inversion ND3 as [|? ? N4 ND4]; subst. cbn [In] in *.
      constructor; [cbn; tauto|]. constructor; [cbn; tauto|]. constructor; [cbn; tauto|]. constructor; [cbn; tauto|constructor].
    - apply IH; [|exact Hin]. clear - ND. induction (fst p) as [|x l IH]; [exact ND|]. cbn [app] in ND. inversion ND; subst. now apply IH. }
  inversion ND4 as [|? ? N1 ND1]; subst. inversion ND1 as [|? ? N2 ND2]; subst. inversion ND2 as [|? ? N3 ND3]; subst. cbn [In] in *.
  destruct (snd (fst e)); eexists; eexists; (split; [reflexivity|]); repeat split; try (apply Hcc; tauto); intros Heq; subst; tauto.
Qed.

Lemma elements_act D pairs vs place : 2 <= dL D -> 2 <= dN D -> good_pairs D pairs ->
  (forall o, In o (all_outcomes (length pairs)) -> valid D (place o) /\ configured pairs (map (fun st => 2 * fst st + snd st) o) vs (place o)) ->
  forall elems nds ps w x, Forall (element_ok pairs) elems -> FockModel.place D (map (node_of_element pairs) elems) = Some nds ->
    length ps = length pairs -> length w = length pairs -> represents D (length pairs) place ps w x ->
    represents D (length pairs) place (fold_left followed_by elems ps) w (act D nds x).
Proof.
  intros HL HN Hp Hplace. induction elems as [|e elems IH]; intros nds ps w x He Ep Lps Lw Hr.
  - cbn [map FockModel.place] in Ep. injection Ep as <-. exact Hr.
  - inversion He as [|? ? (Hj & HU & Hbad) He']; subst. destruct (element_channels_ok D pairs e Hp Hj) as (h & v & Ech & Hh & Hv & Hne).
    rewrite Ech in Hbad. cbn [nth] in Hbad.
    cbn [map FockModel.place node_of_element] in Ep. change (FockModel.place D ((snd e, element_channels pairs e) :: map (node_of_element pairs) elems) = Some nds) in Ep. cbn [FockModel.place] in Ep. rewrite Ech in Ep.
    destruct (tensor_list_of (dN D) [h; v]) as [tl|] eqn:Et; [|discriminate]. destruct (FockModel.place D (map (node_of_element pairs) elems)) as [nds'|] eqn:Ep'; [|discriminate]. injection Ep as <-.
    cbn [fold_left]. unfold act. cbn [fold_left on_matrix on_tl]. apply IH; auto; [unfold followed_by; now rewrite at_pair_length|].
    destruct (C05_gate_acts_on_its_channels_partial D (snd e) h v ltac:(lia) Hh Hv Hne Hbad) as (M & EM & HM).
    rewrite (circuit_matrix_one D (snd e) [h; v] tl) in EM by (auto; lia). injection EM as EM. rewrite EM.
    now apply (element_step D pairs vs place e h v).
Qed.

Lemma column_nonzero U i : unitary_setting U -> i < 2 -> exists s, s < 2 /\ U s i <> RtoC 0.
Proof.
  intros HU Hi. pose proof (HU 0%nat 0%nat ltac:(lia) ltac:(lia)) as U00. pose proof (HU 0%nat 1%nat ltac:(lia) ltac:(lia)) as U01. pose proof (HU 1%nat 1%nat ltac:(lia) ltac:(lia)) as U11. cbn [Nat.eqb] in *.
  destruct (Ceq_dec (U 0%nat i) (RtoC 0)) as [E0|N]; [|exists 0; split; [lia|exact N] ]. destruct (Ceq_dec (U 1%nat i) (RtoC 0)) as [E1|N]; [|exists 1; split; [lia|exact N] ].
  exfalso. assert (Z : Cconj (RtoC 0) = RtoC 0) by (apply C_eq; cbn; ring).
  destruct i as [|[|i] ]; [| |lia]; rewrite E0, E1, ?Z, ?Cmult_0_l, ?Cplus_0_l, ?Cplus_0_r in *.
  - assert (HZ : (RtoC 1 * RtoC 1 = RtoC 0)%C).
    { rewrite <- U00 at 1. rewrite <- U11. transitivity ((U 0%nat 1%nat * Cconj (U 1%nat 1%nat)) * (U 1%nat 1%nat * Cconj (U 0%nat 1%nat)))%C; [ring|]. rewrite U01. ring. }
    rewrite Cmult_1_l in HZ. apply RtoC_inj in HZ. lra.
  - assert (HZ : (RtoC 1 * RtoC 1 = RtoC 0)%C).
    { rewrite <- U00 at 1. rewrite <- U11. transitivity ((U 0%nat 0%nat * Cconj (U 1%nat 0%nat)) * (U 1%nat 0%nat * Cconj (U 0%nat 0%nat)))%C; [ring|]. rewrite U01. ring. }
    rewrite Cmult_1_l in HZ. apply RtoC_inj in HZ. lra.
Qed.
Lemma settings_nonzero ps : Forall pair_ok ps -> forall w, length w = length ps -> Forall (fun i => i < 4) w -> exists o, In o (all_outcomes (length ps)) /\ settings_amplitude ps o w <> RtoC 0.
Proof.
  induction 1 as [|p ps (_ & HA & HB) _ IH]; intros [|i w] Lw Fw; try discriminate; [exists []; split; [now left|]; cbn; intros E; apply RtoC_inj in E; lra|].
  inversion Fw as [|? ? Hi Fw']; subst. destruct (IH w ltac:(cbn in Lw; lia) Fw') as (o & Ho & Hn).
  destruct (column_nonzero (p_A p) (i / 2) HA) as (s & Hs & Ns); [apply Nat.div_lt_upper_bound; lia|]. destruct (column_nonzero (p_B p) (i mod 2) HB) as (t & Ht & Nt); [apply Nat.mod_upper_bound; lia|].
  exists ((s, t) :: o). split.
  - apply all_outcomes_spec in Ho. apply all_outcomes_spec. destruct Ho as [Lo Fo]. split; [cbn; lia|]. constructor; [split; assumption|exact Fo].
  - cbn [settings_amplitude]. apply Cmult_neq_0; [apply Cmult_neq_0|]; assumption.
Qed.
Lemma setting_small U s i : unitary_setting U -> s < 2 -> i < 2 -> (Cnorm2 (U s i) <= 1)%R.
Proof.
  intros HU Hs Hi. pose proof (HU s s Hs Hs) as E. rewrite Nat.eqb_refl in E. apply (f_equal fst) in E. cbn in E.
  pose proof (Cnorm2_nonneg (U s 0%nat)). pose proof (Cnorm2_nonneg (U s 1%nat)). unfold Cnorm2 in *. destruct i as [|[|i] ]; [| |lia]; lra.
Qed.
Lemma settings_small ps : Forall pair_ok ps -> forall o w, In o (all_outcomes (length ps)) -> length w = length ps -> Forall (fun i => i < 4) w -> (Cnorm2 (settings_amplitude ps o w) <= 1)%R.
Proof.
  induction 1 as [|p ps (_ & HA & HB) _ IH]; intros [|[s t] o] [|i w] Ho Lw Fw; try discriminate; try (cbn [settings_amplitude]; rewrite Cnorm2_RtoC; lra).
  inversion Fw as [|? ? Hi Fw']; subst. apply all_outcomes_spec in Ho. destruct Ho as [Lo Fo]. inversion Fo as [|? ? [Hs Ht] Fo']; subst. cbn [fst snd] in *.
  assert (Ho : In o (all_outcomes (length ps))) by (apply all_outcomes_spec; split; [cbn in Lo; lia|exact Fo']).
  specialize (IH o w Ho ltac:(cbn in Lw; lia) Fw'). cbn [settings_amplitude]. rewrite !Cnorm2_mult.
  pose proof (setting_small (p_A p) s (i / 2) HA Hs ltac:(apply Nat.div_lt_upper_bound; lia)) as S1. pose proof (setting_small (p_B p) t (i mod 2) HB Ht ltac:(apply Nat.mod_upper_bound; lia)) as S2.
  pose proof (Cnorm2_nonneg (p_A p s (i / 2)%nat)). pose proof (Cnorm2_nonneg (p_B p t (i mod 2)%nat)). pose proof (Cnorm2_nonneg (settings_amplitude ps o w)).
  assert (Cnorm2 (p_A p s (i / 2)%nat) * Cnorm2 (p_B p t (i mod 2)%nat) <= 1)%R by nra. assert (0 <= Cnorm2 (p_A p s (i / 2)%nat) * Cnorm2 (p_B p t (i mod 2)%nat))%R by nra. nra.
Qed.

(** ** The states of one group *)
Lemma fold_followed_length elems : forall ps, length (fold_left followed_by elems ps) = length ps.
Proof. induction elems as [|e elems IH]; intros ps; [reflexivity|]. cbn [fold_left]. rewrite IH. unfold followed_by. apply at_pair_length. Qed.
Lemma fold_followed_q elems : forall ps, map p_q (fold_left followed_by elems ps) = map p_q ps.
Proof. induction elems as [|e elems IH]; intros ps; [reflexivity|]. cbn [fold_left]. rewrite IH. unfold followed_by. apply at_pair_q. Qed.
Lemma fold_followed_ok pairs elems : Forall (element_ok pairs) elems -> forall ps, Forall pair_ok ps -> Forall pair_ok (fold_left followed_by elems ps).
Proof. induction 1 as [|e elems (_ & HU & _) _ IH]; intros ps Hps; [exact Hps|]. cbn [fold_left]. apply IH. now apply followed_pairs_ok. Qed.

Definition behind (D : dims) (eps : R) (nds : list onode) (elems : list element) (g : pr_group) : pr_group :=
  Group (fold_left followed_by elems (g_ps g)) (g_id g) (g_label g) (g_weight g) (g_place g) (map (optical_step D eps nds) (g_states g)).

Lemma group_behind D eps ncl pairs vs elems nds g : 2 <= dL D -> 2 <= dN D -> (0 < eps)%R -> good_pairs D pairs -> Forall (element_ok pairs) elems ->
  place D (map (node_of_element pairs) elems) = Some nds -> length (g_ps g) = length pairs ->
  (forall o, In o (all_outcomes (length pairs)) -> configured pairs (map (fun st => 2 * fst st + snd st) o) vs (g_place g o)) ->
  (forall o w, In o (all_outcomes (length pairs)) -> length w = length pairs -> Forall (fun i => i < 4) w ->
     let a := settings_amplitude (fold_left followed_by elems (g_ps g)) o w in a = RtoC 0 \/ (eps <= Cnorm2 a)%R) ->
  group_ready D eps ncl g -> group_ready D eps ncl (behind D eps nds elems g) /\ Forall (fun st => s_comps st <> []) (g_states g).
Proof.
  intros HL HN Heps Hp He Ep Lps Hconf Hthr [ [Hne Hok] Hw Hpl (ws & NDw & Hws & HF) ].
  assert (Hplace : forall o, In o (all_outcomes (length pairs)) -> valid D (g_place g o) /\ configured pairs (map (fun st => 2 * fst st + snd st) o) vs (g_place g o)).
  { intros o Ho. split; [|now apply Hconf]. rewrite <- Lps in Ho. now apply (Hpl o o). }
  pose proof (fold_followed_ok pairs elems He _ Hok) as Hok'.
  assert (HWw : Forall (fun w => length w = length pairs /\ Forall (fun i => i < 4) w) ws) by (apply Forall_forall; intros w Hin; rewrite <- Lps; now apply Hws).
  pose proof (Forall2_in_l _ _ _ _ HWw HF) as HF'.
  assert (Hrep : forall w st, length w = length pairs -> wf_state D st ->
     (forall us, valid D us -> In (name_string D us) (map fst (s_comps st)) -> exists o, In o (all_outcomes (length (g_ps g))) /\ us = g_place g o) ->
     (forall o, In o (all_outcomes (length (g_ps g))) -> amp_of D st (g_place g o) = settings_amplitude (g_ps g) o w) ->
     represents D (length pairs) (g_place g) (fold_left followed_by elems (g_ps g)) w (mat_vec (size_of_basis D) (nodes_matrix D nds) (state_vector D st))).
  { intros w st Lw Hwf Hsup Hamp.
    assert (R0 : represents D (length pairs) (g_place g) (g_ps g) w (state_vector D st)).
    { rewrite <- Lps. split.
      - intros o Ho. destruct (Hpl o o Ho Ho) as [Vo _]. rewrite state_vector_spec by (auto; try lia; now apply index_of_values_bound). unfold at_index. rewrite values_index_roundtrip by (auto; lia). now apply Hamp.
      - intros us Vu Hn. rewrite state_vector_spec by (auto; try lia; now apply index_of_values_bound). unfold at_index. rewrite values_index_roundtrip by (auto; lia).
        unfold amplitude. rewrite (proj2 (dget_none_iff leqb leqb_spec _ _)); [reflexivity|]. intros Hin. destruct (Hsup us Vu Hin) as (o & Ho & ->). now apply (Hn o Ho). }
    pose proof (elements_act D pairs vs (g_place g) HL HN Hp Hplace elems nds (g_ps g) w _ He Ep Lps Lw R0) as [A1 A2]. split.
    - intros o Ho. rewrite nodes_matrix_act by (apply index_of_values_bound; now apply Hplace). now apply A1.
    - intros us Vu Hn. rewrite nodes_matrix_act by now apply index_of_values_bound. now apply A2. }
  split.
  2:{ clear - HF' Hok Lps. induction HF' as [|w st ws sts [ [Lw Fw] (_ & _ & _ & _ & _ & _ & Hamp) ] _ IH]; constructor; [|exact IH].
      intros E. destruct (settings_nonzero (g_ps g) Hok w ltac:(congruence) Fw) as (o & Ho & Hn). apply Hn. rewrite <- (Hamp o Ho). unfold amp_of, amplitude. now rewrite E. }
  constructor; cbn [behind g_ps g_weight g_place g_states g_id g_label].
  - split; [|exact Hok']. intros E. apply (f_equal (@length _)) in E. rewrite fold_followed_length in E. now destruct (g_ps g).
  - exact Hw.
  - rewrite fold_followed_length. exact Hpl.
  - rewrite fold_followed_length. exists ws. split; [exact NDw|]. split; [exact Hws|]. clear HF HWw Hws NDw.
    induction HF' as [|w st ws sts [ [Lw Fw] (Ha & NDa & Hck & Hwf & Hc & Hsup & Hamp) ] _ IH]; [constructor|]. cbn [map]. constructor; [|exact IH].
    destruct (Hrep w st Lw Hwf Hsup Hamp) as [R1 R2].
    unfold optical_step. set (x := mat_vec (size_of_basis D) (nodes_matrix D nds) (state_vector D st)) in *. cbn [with_comps s_aux s_cum].
    split; [rewrite fold_followed_q; exact Ha|]. split; [exact NDa|]. split.
    { unfold check_state in *. cbn [with_comps s_cum s_comps s_classical]. apply andb_true_iff in Hck. destruct Hck as [Hck H4]. apply andb_true_iff in Hck. destruct Hck as [H12 _].
      rewrite H12, H4, andb_true_r, andb_true_l. apply forallb_forall. intros [nm [a p] ] Hin. pose proof (components_probs D eps x st nm a p Hin) as ->. cbn [snd].
      assert (Hb : (Cnorm2 a <= 1)%R).
      { apply (from_vec_in D eps x (seq 0 (size_of_basis D))) in Hin. destruct Hin as (i & Hi & Enm & Ea & _ & Hge). apply in_seq in Hi.
        assert (Vi : valid D (values_from_index D i)) by (apply values_from_index_valid; lia). assert (Ei : index_of_values D (values_from_index D i) = i) by (apply index_values_roundtrip; lia).
        destruct (Classical_Prop.classic (exists o, In o (all_outcomes (length pairs)) /\ values_from_index D i = g_place g o)) as [(o & Ho & E)|Hn].
        - rewrite E in Ei. rewrite Ea, <- Ei, R1 by assumption. apply settings_small; auto; rewrite fold_followed_length, Lps; assumption.
        - rewrite Ea, <- Ei, R2; [rewrite Cnorm2_zero; lra|exact Vi|]. intros o Ho E. apply Hn. now exists o. }
      pose proof (Cnorm2_nonneg a). unfold Rltb. destruct (Rlt_dec (Cnorm2 a) (-1 * eps)); [exfalso; lra|]. destruct (Rlt_dec (1 + eps) (Cnorm2 a)); [exfalso; lra|]. reflexivity. }
    split; [apply components_wf; lia|]. split; [exact Hc|]. rewrite Lps. split.
    { intros us Vu Hin. apply in_map_iff in Hin. destruct Hin as ([nm [a p] ] & E & Hin). cbn [fst] in E. subst nm.
      apply (from_vec_in D eps x (seq 0 (size_of_basis D))) in Hin. destruct Hin as (i & Hi & Enm & Ea & _ & Hge). apply in_seq in Hi.
      assert (Vi : valid D (values_from_index D i)) by (apply values_from_index_valid; lia). unfold at_index in Enm. apply (name_inj D) in Enm; auto. subst us.
      apply Classical_Prop.NNPP. intros Hn. assert (Ez : x i = RtoC 0).
      { replace i with (index_of_values D (values_from_index D i)) by (apply index_values_roundtrip; lia). apply R2; [exact Vi|]. intros o Ho E. apply Hn. now exists o. }
      rewrite Ea, Ez, Cnorm2_zero in Hge. lra. }
    intros o Ho. destruct (Hplace o Ho) as [Vo _]. unfold amp_of. replace (name_string D (g_place g o)) with (at_index D (index_of_values D (g_place g o))) by (unfold at_index; rewrite values_index_roundtrip by (auto; lia); reflexivity).
    rewrite components_amplitude by (try lia; now apply index_of_values_bound). rewrite R1 by assumption. destruct (Rlt_dec _ _) as [Hlt|]; [|reflexivity].
    destruct (Hthr o w Ho Lw Fw) as [Hz|Hge]; [now symmetry|]. exfalso. lra.
Qed.

Lemma evaluate_optical_block X rnd c ks cs : ks <> [] -> (forall k, In k ks -> k < length (c_nodes c) /\ is_optical (node_at c k) = true) ->
  evaluate_from X rnd c ks cs 0 = match run_optical c ks cs with Some cs' => Ok (cs', 0) | None => Raise end.
Proof.
  intros Hne Hk. rewrite evaluate_from_evalR, evalR_unfold.
  assert (Hp : optical_prefix c ks = ks) by (apply optical_prefix_all; intros k Hin; now apply Hk).
  assert (Hr : forallb (fun i => i <? length (c_nodes c)) ks = true) by (apply forallb_forall; intros i Hi; apply Nat.ltb_lt; now apply Hk).
  rewrite Hr. cbn [negb]. destruct ks as [|k r]; [contradiction|].
  assert (Ho : is_optical (node_at c k) = true) by (apply Hk; now left).
  destruct (node_at c k); try discriminate. cbv zeta. rewrite Hp, Nat.leb_refl. destruct (run_optical c (k :: r) cs); [|reflexivity]. now rewrite evalR_nil.
Qed.

(** A block of optical elements, each behind one side of one pair: the settings of the groups are
    multiplied by the matrices of the elements. Amplitudes must be 0 or reach the threshold. *)
Theorem C42_optics X rnd c ks pairs elems cs gs : wf_circuit c -> 2 <= dL (c_D c) -> (0 < c_eps c)%R -> good_pairs (c_D c) pairs ->
  ks <> [] -> (forall k, In k ks -> k < length (c_nodes c) /\ is_optical (node_at c k) = true) ->
  Forall (element_ok pairs) elems ->
  place (c_D c) (map (fun e => (snd e, element_channels pairs e)) elems) = Some (flat_map (fun k => onode_of (node_at c k)) ks) ->
  NoDup (map fst (co_items cs)) -> map snd (co_items cs) = concat (map g_states gs) -> Forall (group_ready (c_D c) (c_eps c) (c_ncl c)) gs ->
  Forall (fun g => length (g_ps g) = length pairs /\
    (exists vs, forall o, In o (all_outcomes (length pairs)) -> configured pairs (map (fun st => 2 * fst st + snd st) o) vs (g_place g o)) /\
    (forall o w, In o (all_outcomes (length pairs)) -> length w = length pairs -> Forall (fun i => i < 4) w ->
       let a := settings_amplitude (fold_left followed_by elems (g_ps g)) o w in a = RtoC 0 \/ (c_eps c <= Cnorm2 a)%R)) gs ->
  exists cs' gs', evaluate_from X rnd c ks cs 0 = Ok (cs', 0) /\ co_D cs' = c_D c /\ co_eps cs' = c_eps c /\ co_ncl cs' = c_ncl c /\
    map fst (co_items cs') = map fst (co_items cs) /\ map snd (co_items cs') = concat (map g_states gs') /\ Forall (group_ready (c_D c) (c_eps c) (c_ncl c)) gs' /\
    Forall2 (fun g g' => g_ps g' = fold_left followed_by elems (g_ps g) /\ g_id g' = g_id g /\ g_label g' = g_label g /\ g_weight g' = g_weight g /\ g_place g' = g_place g /\
      Forall2 same_but_components (g_states g) (g_states g')) gs gs'.
Proof.
  intros Hc HL Heps Hp Hne Hk He Ep ND Hst HG HX. pose proof Hc as (_ & HN & _). set (nds := flat_map (fun k => onode_of (node_at c k)) ks) in *.
  assert (HB : Forall (fun g => group_ready (c_D c) (c_eps c) (c_ncl c) (behind (c_D c) (c_eps c) nds elems g) /\ Forall (fun st => s_comps st <> []) (g_states g)) gs).
  { apply Forall_forall. intros g Hg. rewrite Forall_forall in HG, HX. destruct (HX g Hg) as (Lps & (vs & Hconf) & Hthr). apply (group_behind (c_D c) (c_eps c) (c_ncl c) pairs vs elems nds g); auto. }
  assert (Hin : forall it, In it (co_items cs) -> exists g, In g gs /\ In (snd it) (g_states g)).
  { intros it Hit. apply (in_map snd) in Hit. rewrite Hst in Hit. apply in_concat in Hit. destruct Hit as (l & Hl & Hs). apply in_map_iff in Hl. destruct Hl as (g & <- & Hg). now exists g. }
  assert (Hstate : forall g st, In g gs -> In st (g_states g) -> wf_state (c_D c) st /\ check_state (c_eps c) (c_ncl c) st = true).
  { intros g st Hg Hs. rewrite Forall_forall in HG. destruct (HG g Hg) as [_ _ _ (ws & _ & _ & HF)]. destruct (Forall2_in_r_ex _ _ _ st HF Hs) as (w & _ & (_ & _ & Hck & Hwf & _)). now split. }
  rewrite evaluate_optical_block by assumption. rewrite run_optical_spec; auto.
  2:{ split; [exact ND|]. apply Forall_forall. intros it Hit. destruct (Hin it Hit) as (g & Hg & Hs). split; [now apply (Hstate g)|]. rewrite Forall_forall in HB. destruct (HB g Hg) as [_ Hc']. rewrite Forall_forall in Hc'. now apply Hc'. }
  2:{ apply Forall_forall. intros it Hit. destruct (Hin it Hit) as (g & Hg & Hs). now apply (Hstate g). }
  exists (coll_of c (map (opt_step c ks) (co_items cs))), (map (behind (c_D c) (c_eps c) nds elems) gs). split; [reflexivity|]. cbn [coll_of co_D co_eps co_ncl co_items].
  split; [reflexivity|]. split; [reflexivity|]. split; [reflexivity|]. split; [rewrite map_map; apply map_ext; reflexivity|]. split.
  { rewrite map_map. transitivity (map (optical_step (c_D c) (c_eps c) nds) (map snd (co_items cs))); [rewrite map_map; apply map_ext; reflexivity|]. rewrite Hst, concat_map, !map_map. reflexivity. }
  split; [apply Forall_map; eapply Forall_impl; [|exact HB]; now intros g [Hg _]|].
  clear. induction gs as [|g gs IH]; [constructor|]. cbn [map]. constructor; [|exact IH]. cbn [behind g_ps g_id g_label g_weight g_place g_states]. do 5 (split; [reflexivity|]).
  induction (g_states g) as [|st l IHl]; [constructor|]. cbn [map]. constructor; [|exact IHl]. repeat split.
Qed.

(** ** The complete experiment: gate, optical elements, detectors *)
Lemma evaluate_from_single X rnd c k cs cs' : k < length (c_nodes c) ->
  (match node_at c k with NFunction _ | NMeasure _ _ => True | _ => False end) ->
  evaluate_nodes X rnd c [k] cs = Ok cs' -> evaluate_from X rnd c [k] cs 0 = Ok (cs', 0).
Proof.
  intros Hk Hn E. unfold evaluate_nodes in E. rewrite evaluate_from_evalR in *.
  rewrite evalR_single in * by (auto; destruct (node_at c k); try reflexivity; destruct Hn).
  unfold run_node in *. destruct (node_at c k); try destruct Hn.
  - destruct (all_have AuxPhotonResolution (co_items cs)); [destruct (x_resolved X opt cl cs)|destruct (all_have AuxPopescuRohrlich (co_items cs)); [destruct (x_pr X opt cl cs)|destruct (measure_items c k opt cl (co_items cs))]];
      cbn in *; try discriminate; now injection E as <-.
  - destruct (f cs); cbn in *; [now injection E as <-|discriminate].
Qed.

Definition experiment (D : dims) (ncl : nat) (eps : R) (full : bool) (gate : node) (nds : list onode) (opt cl : list nat) : circuit :=
  Circuit D ncl eps full (fresh_keys D) (gate :: map (fun nd => NOptical (on_matrix nd) (on_tl nd)) nds ++ [NMeasure opt cl]).

Theorem C42_experiment rnd0 X rnd rnd' rid D ncl eps full pairs elems nds opt cl cs :
  let c := experiment D ncl eps full (popescu_rohrlich_correlation_gate rnd' rid pairs) nds opt cl in
  let settings := fold_left followed_by elems (map (fun pr => Pair (snd pr) no_setting no_setting) pairs) in
  2 <= dL D -> 2 <= dN D -> (0 < eps)%R -> good_pairs D pairs -> pairs <> [] -> Forall (element_ok pairs) elems ->
  place D (map (fun e => (snd e, element_channels pairs e)) elems) = Some nds -> (forall i j, rid i = rid j -> i = j) ->
  (forall n, In n opt -> n < dN D) -> (forall n, In n cl -> n < ncl) -> NoDup cl ->
  (forall o w, In o (all_outcomes (length pairs)) -> length w = length pairs -> Forall (fun i => i < 4) w ->
     settings_amplitude settings o w = RtoC 0 \/ (eps <= Cnorm2 (settings_amplitude settings o w))%R) ->
  co_D cs = D -> co_eps cs = eps -> co_ncl cs = ncl -> co_items cs <> [] ->
  Forall (fun it => let st := snd it in check_state eps ncl st = true /\ (0 <= s_cum st <= 1)%R /\ NoDup (map fst (s_aux st)) /\
     (forall x, ~ In (AuxPhotonResolution, x) (s_aux st)) /\ exists vs p, valid D vs /\ s_comps st = [(name_string D vs, (RtoC 1, p))]) (co_items cs) ->
  exists cs' outs, evaluate_circuit (with_pr rnd0 X) rnd c cs = Ok cs' /\ NoDup (map fst (co_items cs')) /\
    (co_D cs' = D /\ co_eps cs' = eps /\ co_ncl cs' = ncl) /\ map snd (co_items cs') = concat outs /\
    Forall2 (fun it out => exists os, Permutation os (all_outcomes (length pairs)) /\
        Forall2 (fun o s => exists x, outcome_has settings o x /\ s_cum s = (x * s_cum (snd it))%R /\ s_init s = s_init (snd it) /\
          s_results s = s_results (snd it) ++ [(s_classical s, (x * s_cum (snd it))%R)] /\
          (forall a, In a (s_aux s) <-> In a (s_aux (snd it)) /\ fst a <> AuxPopescuRohrlich) /\
          forall vs p, s_comps (snd it) = [(name_string D vs, (RtoC 1, p))] -> valid D vs ->
            exists vs', configured pairs (map (fun st => 2 * fst st + snd st) o) vs vs' /\ s_comps s = [(name_string D vs', (RtoC 1, 1%R))] /\
              written cl (readout opt vs') (s_classical (snd it)) (s_classical s)) os out) (co_items cs) outs.
Proof.
  intros c settings HL HN Heps Hp Hne He Ep Hrid Hopt Hcl NDcl Hthr ED Eeps Encl Hitems HI.
  set (n := length nds).
  assert (Hlen : length (c_nodes c) = S (S n)) by (unfold c, experiment; cbn [c_nodes length]; rewrite app_length, map_length; cbn [length]; unfold n; lia).
  assert (N0 : node_at c 0 = popescu_rohrlich_correlation_gate rnd' rid pairs) by reflexivity.
  assert (Nm : node_at c (S n) = NMeasure opt cl).
  { unfold node_at, c, experiment. cbn [c_nodes nth]. rewrite app_nth2 by (rewrite map_length; unfold n; lia). rewrite map_length. unfold n. now rewrite Nat.sub_diag. }
  assert (No : forall k, In k (seq 1 n) -> k < length (c_nodes c) /\ is_optical (node_at c k) = true).
  { intros k Hk. apply in_seq in Hk. split; [lia|]. unfold node_at, c, experiment. cbn [c_nodes]. destruct k as [|k]; [lia|]. cbn [nth]. rewrite app_nth1 by (rewrite map_length; unfold n in Hk; lia).
    rewrite (nth_indep _ NSpectrum (NOptical (on_matrix (ONode mat2_id [])) (on_tl (ONode mat2_id [])))) by (rewrite map_length; unfold n in Hk; lia). rewrite (map_nth (fun nd => NOptical (on_matrix nd) (on_tl nd))). reflexivity. }
  assert (En : flat_map (fun k => onode_of (node_at c k)) (seq 1 n) = nds).
  { assert (G : forall l pre, flat_map (fun k => onode_of (nth k (pre ++ map (fun nd => NOptical (on_matrix nd) (on_tl nd)) l ++ [NMeasure opt cl]) NSpectrum)) (seq (length pre) (length l)) = l).
    { clear. induction l as [|nd l IH]; intros pre; [reflexivity|]. cbn [length seq flat_map map]. rewrite app_nth2 by lia. rewrite Nat.sub_diag. cbn [app nth onode_of]. 
      replace (pre ++ NOptical (on_matrix nd) (on_tl nd) :: map (fun nd => NOptical (on_matrix nd) (on_tl nd)) l ++ [NMeasure opt cl])
        with ((pre ++ [NOptical (on_matrix nd) (on_tl nd)]) ++ map (fun nd => NOptical (on_matrix nd) (on_tl nd)) l ++ [NMeasure opt cl]) by (rewrite <- app_assoc; reflexivity).
      replace (S (length pre)) with (length (pre ++ [NOptical (on_matrix nd) (on_tl nd)])) by (rewrite app_length; cbn; lia). rewrite IH. destruct nd. reflexivity. }
    apply (G nds [popescu_rohrlich_correlation_gate rnd' rid pairs]). }
  assert (Hc : wf_circuit c).
  { split; [cbn; lia|]. split; [exact HN|]. split; [reflexivity|]. cbn [c experiment c_nodes c_D]. constructor; [exact I|]. apply Forall_app. split; [|constructor; [exact I|constructor]].
    apply Forall_map. eapply Forall_impl; [|apply (place_perm D _ nds HN Ep)]. intros nd H. exact H. }
  (* the gate *)
  assert (HI1 : Forall (fun it => wf_state (co_D cs) (snd it) /\ check_state (co_eps cs) (co_ncl cs) (snd it) = true) (co_items cs)).
  { rewrite ED, Eeps, Encl. eapply Forall_impl; [|exact HI]. cbn beta zeta. intros it (Hck & _ & _ & _ & vs & p & Hv & Ec). split; [|exact Hck]. split; rewrite Ec; cbn [map fst]; [apply NoDup_cons; [intros []|constructor]|].
    intros nm [<-|[] ]. now exists vs. }
  destruct (C42_gate (with_pr rnd0 X) rnd rnd' rid c 0 pairs cs ltac:(lia) N0 ltac:(now rewrite ED) ltac:(now rewrite ED) HI1) as (cs1 & outs & ws & E1 & ND1 & ED1 & Eeps1 & Encl1 & Eout & NDw & Hws & HF).
  apply evaluate_from_single in E1; [|lia|rewrite N0; exact I]. rewrite ED in HF.
  set (jits := combine (seq 0 (length (co_items cs))) (co_items cs)) in *.
  assert (Hj : map snd jits = co_items cs /\ map fst jits = seq 0 (length (co_items cs))).
  { unfold jits. clear. generalize 0. induction (co_items cs) as [|it l IH]; intros k; [now split|]. cbn [length seq combine map fst snd]. destruct (IH (S k)) as [-> ->]. now split. }
  destruct Hj as [Hj1 Hj2].
  assert (HJ : Forall (fun jit : nat * (ident * state) => let st := snd (snd jit) in exists vs p, s_comps st = [(name_string D vs, (RtoC 1, p))] /\ valid D vs /\ (0 <= s_cum st <= 1)%R /\ length (s_classical st) = ncl /\ NoDup (map fst (s_aux st))) jits).
  { apply Forall_forall. intros jit Hin. assert (Hin' : In (snd jit) (co_items cs)) by (rewrite <- Hj1; now apply in_map). rewrite Forall_forall in HI. destruct (HI _ Hin') as (Hck & Hcum & NDa & _ & vs & p & Hv & Ec).
    exists vs, p. split; [exact Ec|]. split; [exact Hv|]. split; [exact Hcum|]. split; [|exact NDa]. unfold check_state in Hck. apply andb_true_iff in Hck. destruct Hck as [_ Hck]. now apply Nat.eqb_eq in Hck. }
  destruct (groups_of_gate D eps ncl pairs rid ws HL ltac:(lra) Hp Hne NDw Hws jits outs HJ HF) as (gs & G1 & G2 & G3 & G4).
  assert (NDg : NoDup (map g_id gs)).
  { rewrite G2, <- (map_map fst rid), Hj2. apply FinFun.Injective_map_NoDup; [intros i j; apply Hrid|apply seq_NoDup]. }
  (* the optical elements *)
  assert (HX : Forall (fun g => length (g_ps g) = length pairs /\
    (exists vs, forall o, In o (all_outcomes (length pairs)) -> configured pairs (map (fun st => 2 * fst st + snd st) o) vs (g_place g o)) /\
    (forall o w, In o (all_outcomes (length pairs)) -> length w = length pairs -> Forall (fun i => i < 4) w ->
       let a := settings_amplitude (fold_left followed_by elems (g_ps g)) o w in a = RtoC 0 \/ (c_eps c <= Cnorm2 a)%R)) gs).
  { pose proof (Forall2_in_l _ _ _ _ HJ G4) as G5. clear - G5 Hthr. induction G5 as [|jit g jits gs [ (vs & p & Es & Hv & _) (P1 & _ & _ & P4) ] _ IH]; constructor; [|exact IH].
    rewrite P1, map_length. split; [reflexivity|]. split; [exists vs; now apply (P4 vs p)|exact Hthr]. }
  assert (HO : exists cs2 gs', evaluate_from (with_pr rnd0 X) rnd c (seq 1 n) cs1 0 = Ok (cs2, 0) /\ co_D cs2 = D /\ co_eps cs2 = eps /\ co_ncl cs2 = ncl /\
    map fst (co_items cs2) = map fst (co_items cs1) /\ map snd (co_items cs2) = concat (map g_states gs') /\ Forall (group_ready D eps ncl) gs' /\
    Forall2 (fun g g' => g_ps g' = fold_left followed_by elems (g_ps g) /\ g_id g' = g_id g /\ g_label g' = g_label g /\ g_weight g' = g_weight g /\ g_place g' = g_place g /\
      Forall2 same_but_components (g_states g) (g_states g')) gs gs').
  { destruct elems as [|e elems'].
    - cbn [map place] in Ep. injection Ep as Ep. assert (Hn0 : n = 0) by (unfold n; now rewrite <- Ep). rewrite Hn0. exists cs1, gs. split; [rewrite evaluate_from_evalR; now rewrite evalR_nil|].
      split; [congruence|]. split; [congruence|]. split; [congruence|]. split; [reflexivity|]. split; [rewrite G3; exact Eout|]. split; [exact G1|].
      clear. induction gs as [|g gs IH]; constructor; [|exact IH]. cbn [fold_left]. do 5 (split; [reflexivity|]). induction (g_states g); constructor; auto. repeat split.
    - apply (C42_optics (with_pr rnd0 X) rnd c (seq 1 n) pairs (e :: elems') cs1 gs); auto.
      + intros E. destruct nds as [|? ?]; [|discriminate]. cbn [map place] in Ep. destruct (tensor_list_of (dN D) (element_channels pairs e)); [|discriminate]. match type of Ep with match ?t with _ => _ end = _ => destruct t end; discriminate.
      + rewrite En. exact Ep.
      + rewrite G3. exact Eout. }
  destruct HO as (cs2 & gs' & E2 & ED2 & Eeps2 & Encl2 & Ek2 & Est2 & G1' & G4').
  assert (NDg' : NoDup (map g_id gs')).
  { replace (map g_id gs') with (map g_id gs); [exact NDg|]. clear - G4'. induction G4' as [|g g' gs gs' (_ & E & _) _ IH]; [reflexivity|]. cbn [map]. now rewrite E, IH. }
  assert (HC : Forall2 (fun g jit => Forall2 (prepared D pairs (rid (fst jit)) (snd (snd jit))) ws (g_states g)) gs jits).
  { clear - HF G3. revert gs G3. induction HF as [|jit out jits outs H _ IH]; intros [|g gs] G3; try discriminate; [constructor|]. cbn [map] in G3. injection G3 as G3 G3'. constructor; [now rewrite G3|now apply IH]. }
  assert (Hres : exists it, In it (co_items cs2) /\ forall x, ~ In (AuxPhotonResolution, x) (s_aux (snd it))).
  { destruct jits as [|jit jits'] eqn:Ej; [exfalso; apply Hitems; now rewrite <- Hj1|].
    destruct gs as [|g gs1]; [inversion HC|]. destruct gs' as [|g' gs1']; [inversion G4'|]. assert (HC1 : Forall2 (prepared D pairs (rid (fst jit)) (snd (snd jit))) ws (g_states g)) by (inversion HC; assumption).
    assert (HS : Forall2 same_but_components (g_states g) (g_states g')) by (inversion G4' as [|? ? ? ? (_ & _ & _ & _ & _ & HS) _]; exact HS).
    remember (g_states g) as S1 eqn:ES1. remember (g_states g') as S2 eqn:ES2.
    inversion HC1 as [Ew Eo|w s ws' sts' Hs HC1' Ew Eo].
    - exfalso. assert (In (repeat 0 (length pairs)) []) as []. rewrite Ew. apply Hws. split; [apply repeat_length|]. apply Forall_forall. intros z Hz. apply repeat_spec in Hz. lia.
    - rewrite <- Eo in HS. inversion HS as [|? s' ? sts'' (_ & _ & _ & _ & Eaux) HS1 Ea Eb].
      assert (In s' (map snd (co_items cs2))) as Hin by (rewrite Est2; cbn [map concat]; rewrite <- ES2, <- Eb; now left). apply in_map_iff in Hin. destruct Hin as (it1 & E & Hin). exists it1. split; [exact Hin|]. rewrite E, Eaux.
      assert (Hit : In (snd jit) (co_items cs)) by (rewrite <- Hj1; now left).
      rewrite Forall_forall in HI. destruct (HI _ Hit) as (_ & _ & NDa & Hres & _). destruct Hs as (_ & _ & _ & _ & _ & Ho & _). destruct (Ho NDa) as [_ Ho']. intros z Hz. apply (Hres z). apply Ho'; [discriminate|exact Hz]. }
  (* the detectors *)
  destruct (C42_measurement rnd0 X rnd c (S n) opt cl cs2 gs' Hc ltac:(lia) Nm Hopt Hcl NDcl ED2 Eeps2 Encl2 G1' NDg' Est2 Hres) as (cs3 & outs3 & E3 & ND3 & EC3 & Eout3 & HF3).
  apply evaluate_from_single in E3; [|lia|rewrite Nm; exact I].
  exists cs3, outs3. split.
  { assert (EQ : seq 1 n ++ [S n] = seq 1 (S n)) by (symmetry; exact (seq_S n 1)).
    unfold evaluate_circuit, evaluate_nodes. rewrite Hlen. replace (seq 0 (S (S n))) with ([0] ++ (seq 1 n ++ [S n])) by (cbn [app]; rewrite EQ; reflexivity).
    assert (HS : StronglySorted lt ([0] ++ seq 1 n ++ [S n])) by (cbn [app]; rewrite EQ; apply (seq_sorted (S (S n)) 0)).
    rewrite C19_two_calls; auto.
    - rewrite E1. cbn [rbind fst snd]. rewrite C19_two_calls; auto.
      + rewrite E2. cbn [rbind fst snd]. rewrite E3. reflexivity.
      + rewrite EQ. apply (seq_sorted (S n) 1).
      + intros k Hk. rewrite EQ in Hk. apply in_seq in Hk. lia.
      + intros k Hk. destruct (No k Hk) as [_ Hopt']. destruct (node_at c k); try reflexivity; discriminate.
      + cbn [cut_ok]. right. right. now rewrite Nm.
    - intros k Hk. cbn [app In] in Hk. rewrite EQ in Hk. destruct Hk as [<-|Hk]; [lia|]. apply in_seq in Hk. lia.
    - intros k [<-|[] ]. now rewrite N0.
    - unfold cut_ok. destruct (seq 1 n ++ [S n]); [exact I|]. right. left. cbn [last]. now rewrite N0. }
  split; [exact ND3|]. split; [exact EC3|]. split; [exact Eout3|].
  assert (HN' : Forall (fun jit : nat * (ident * state) => NoDup (map fst (s_aux (snd (snd jit))))) jits).
  { eapply Forall_impl; [|exact HJ]. cbn beta zeta. now intros jit (vs & p & _ & _ & _ & _ & H). }
  rewrite <- Hj1. clear - G4 G4' HF3 HC HN'. revert gs' outs3 G4' HF3 HC HN'. induction G4 as [|jit g jits gs (P1 & P2 & P3 & P4) _ IH]; intros gs' outs3 G4' HF3 HC HN'.
  { inversion G4'; subst. inversion HF3; subst. constructor. }
  inversion G4' as [|? g' ? gs1 (Q1 & _ & Q2 & Q3 & Q4 & HS) G4'']; subst. inversion HF3 as [|? out ? outs4 (st & os & Hst & HP & HR) HF4]; subst. inversion HC as [|? ? ? ? HC1 HC2]; subst.
  inversion HN' as [|? ? HNj HN2]; subst.
  cbn [map]. constructor; [|now apply (IH gs1)].
  rewrite Q1, fold_followed_length, P1, map_length in HP. exists os. split; [exact HP|].
  rewrite Q1, P1, Q2, P2, Q3, P3, Q4 in HR. change (fold_left followed_by elems (map (fun pr : list nat * R => Pair (snd pr) no_setting no_setting) pairs)) with settings in HR.
  destruct (Forall2_in_r_ex _ _ _ st HS Hst) as (st0 & Hst0 & (_ & _ & Ecl & Eres & Eaux)). destruct (Forall2_in_r_ex _ _ _ st0 HC1 Hst0) as (w & _ & (_ & _ & Ecl0 & Eres0 & _ & Haux0 & _)). destruct (Haux0 HNj) as [_ Haux].
  assert (HO : Forall (fun o => In o (all_outcomes (length pairs))) os) by (apply Forall_forall; intros o Ho; eapply Permutation_in; [exact HP|exact Ho]).
  pose proof (Forall2_in_l _ _ _ _ HO HR) as HR'. eapply Forall2_impl; [|exact HR']. intros o s [Ho (x & Hx & Ec & Ei & Ecomp & Hwr & Hres & Hax)].
  exists x. split; [exact Hx|]. split; [exact Ec|]. split; [exact Ei|]. split; [now rewrite Hres, Eres, Eres0|].
  split; [intros a; rewrite Hax, Eaux; split; intros [Ha Hb]; (split; [now apply Haux|exact Hb])|].
  intros vs p Es Hv. exists (g_place g o). split; [now apply (P4 vs p)|]. split; [exact Ecomp|]. now rewrite <- Ecl0, <- Ecl.
Qed.

(** A wave plate behind side A of one pair: all hypotheses hold. *)
Definition r2 : R := sqrt (1 / 2).
Lemma r2_sq : (r2 * r2 = 1 / 2)%R.
Proof. apply sqrt_sqrt. lra. Qed.
Definition plate : mat2 := Mat2 (RtoC r2) (RtoC r2) (RtoC r2) (RtoC (- r2)).
Lemma plate_unitary : unitary2 plate.
Proof.
  pose proof r2_sq as E. split; unfold mat2_mul, mat2_adj, mat2_id, plate; cbn [m00 m01 m10 m11]; f_equal; apply C_eq; cbn; lra.
Qed.
Definition vacuum_state : state := State [105] 1 [([0;0;0;0], (RtoC 1, 1%R))] [0%R; 0%R] [] [].
Example C42_experiment_case : exists cs' outs x,
  evaluate_circuit (with_pr (fun _ => 0) (Externals (fun _ _ _ => None) (fun _ _ _ => None))) (fun _ => 0)
    (experiment (Dims 2 4 true) 2 (1 / 4) true (popescu_rohrlich_correlation_gate (fun _ => 0) (fun k => [k]) [([0;1;2;3], 2%R)])
       (map (fun g => ONode (fst g) (snd g)) [(plate, [0;1;2;3])]) [0;2] [0;1])
    (Coll (Dims 2 4 true) 2 (1 / 4) [([105], vacuum_state)]) = Ok cs' /\ map snd (co_items cs') = concat outs /\
  length (concat outs) = 4 /\ pair_probability (Pair 2 (followed no_setting plate) no_setting) (0, 0) x.
Proof.
  pose proof r2_sq as E2.
  destruct (C42_experiment (fun _ => 0) (Externals (fun _ _ _ => None) (fun _ _ _ => None)) (fun _ => 0) (fun _ => 0) (fun k => [k]) (Dims 2 4 true) 2 (1 / 4) true
    [([0;1;2;3], 2%R)] [((0, true), plate)] (map (fun g => ONode (fst g) (snd g)) [(plate, [0;1;2;3])]) [0;2] [0;1] (Coll (Dims 2 4 true) 2 (1 / 4) [([105], vacuum_state)]))
    as (cs' & outs & Ev & _ & _ & Eo & HF).
  - cbn; lia.
  - cbn; lia.
  - lra.
  - split; [constructor; [split; [reflexivity|cbn; lra]|constructor]|]. cbn [map concat fst app]. split.
    + repeat constructor; cbn; lia.
    + intros c Hc. cbn in Hc |- *. lia.
  - discriminate.
  - constructor; [|constructor]. split; [cbn; lia|]. split; [apply plate_unitary|]. cbn. lia.
  - reflexivity.
  - intros i j H. now injection H.
  - intros n Hn. cbn in Hn |- *. lia.
  - intros n Hn. cbn in Hn |- *. lia.
  - repeat constructor; cbn; lia.
  - intros o w Ho Lw Fw. cbn [length] in Lw. destruct w as [|i [|? ?] ]; try discriminate. inversion Fw as [|? ? Hi _]; subst.
    cbn [length all_outcomes flat_map map app In] in Ho.
    destruct Ho as [<-|[<-|[<-|[<-|[] ] ] ] ]; (destruct i as [|[|[|[|i] ] ] ]; [| | | |lia]);
      cbn [fold_left map followed_by at_pair followed_pair fst snd p_q p_A p_B settings_amplitude];
      unfold followed, no_setting, plate; cbn [entry_of m00 m01 m10 m11 Nat.eqb fst Nat.div Nat.modulo Nat.divmod snd Nat.sub];
      first [left; apply C_eq; cbn; ring | right; unfold Cnorm2; cbn; nra].
  - reflexivity.
  - reflexivity.
  - reflexivity.
  - discriminate.
  - constructor; [|constructor]. cbn [snd]. split.
    + unfold check_state, vacuum_state. cbn [s_cum s_comps s_classical forallb snd length]. unfold Rltb. repeat match goal with |- context [Rlt_dec ?a ?b] => destruct (Rlt_dec a b); [exfalso; lra|] end. reflexivity.
    + cbn [vacuum_state s_cum s_aux map]. split; [lra|]. split; [constructor|]. split; [intros x []|]. exists [0;0;0;0], 1%R. split; [split; [reflexivity|repeat constructor]|reflexivity].
  - exists cs', outs, (pair_value (Pair 2 (followed no_setting plate) no_setting) (0, 0)). split; [exact Ev|]. split; [exact Eo|]. split.
    + inversion HF as [|? out ? outs' (os & HP & HR) HF']; subst. inversion HF'; subst. cbn [concat]. rewrite app_nil_r. transitivity (length os); [|now rewrite (Permutation_length HP)].
      clear - HR. induction HR; [reflexivity|]. cbn [length]. now rewrite IHHR.
    + apply pair_probability_value. cbn. lra.
Qed.

(** The gate adds the amplitudes of components that become equal, so for a state in which the pair
    channels are in superposition the norm is not kept. *)
Definition superposed : state := State [105] 1 [([1;0;0;0], (RtoC r2, (1 / 2)%R)); ([0;1;0;0], (RtoC r2, (1 / 2)%R))] [0%R] [] [].
Theorem C42_gate_superposition_refuted : exists X rnd c cs cs', wf_circuit c /\
  node_at c 0 = popescu_rohrlich_correlation_gate (fun _ => 0) (fun k => [k]) [([0;1;2;3], 1%R)] /\
  map snd (co_items cs) = [superposed] /\ wf_state (co_D cs) superposed /\ state_norm2 superposed = 1%R /\
  evaluate_nodes X rnd c [0] cs = Ok cs' /\ co_items cs' <> [] /\ Forall (fun it => state_norm2 (snd it) = 2%R) (co_items cs').
Proof.
  pose proof r2_sq as E2.
  set (D := Dims 2 4 true). set (c := Circuit D 1 0 true (fresh_keys D) [popescu_rohrlich_correlation_gate (fun _ => 0) (fun k => [k]) [([0;1;2;3], 1%R)]]).
  set (cs := Coll D 1 0 [([105], superposed)]).
  assert (Hck : check_state 0 1 superposed = true).
  { unfold check_state, superposed. cbn [s_cum s_comps s_classical forallb snd length]. unfold Rltb. repeat match goal with |- context [Rlt_dec ?a ?b] => destruct (Rlt_dec a b); [exfalso; lra|] end. reflexivity. }
  assert (Hwf : wf_state D superposed).
  { split; [repeat constructor; cbn; intuition discriminate|]. cbn. intros nm [<-|[<-|[] ] ]; [exists [1;0;0;0]|exists [0;1;0;0]]; (split; [split; [reflexivity|repeat constructor]|reflexivity]). }
  assert (Es : forall w, In w (all_words 1) -> exists nm, pr_state D 0 1 [0] [([0;1;2;3], 1%R)] superposed w = Some (State [105] ((1 / 2) ^ 1) [(nm, ((r2 + r2)%C, Cnorm2 (r2 + r2)%C))] [0%R] []
      (dset aux_eqb AuxPopescuRohrlich (AuxPR (PRInfo [0] w [1%R] [105] 1)) []))).
  { intros w Hw. unfold pr_state, copy_state, make_state. rewrite Hck. cbn in Hw. destruct Hw as [<-|[<-|[<-|[<-|[] ] ] ] ]; (eexists; cbn -[Cnorm2 pow Rdiv]; reflexivity). }
  destruct (Es [0] ltac:(cbn; tauto)) as (n0 & S0). destruct (Es [1] ltac:(cbn; tauto)) as (n1 & S1). destruct (Es [2] ltac:(cbn; tauto)) as (n2 & S2). destruct (Es [3] ltac:(cbn; tauto)) as (n3 & S3).
  assert (Eg : exists its, pr_gate (fun _ => 0) (fun k => [k]) [([0;1;2;3], 1%R)] cs = Some (with_items cs its) /\ its <> [] /\ Forall (fun it => state_norm2 (snd it) = 2%R) its).
  { eexists. split.
    - unfold pr_gate. cbn [cs co_items co_D co_eps co_ncl length seq combine map option_list fst snd]. change (all_words 1) with [[0]; [1]; [2]; [3]]. cbn [map]. rewrite S0, S1, S2, S3. cbn [option_list option_map]. reflexivity.
    - set (l := concat _). 
      assert (Hm : map snd (fst (add_states_random (fun _ => 0) 0 l [])) = l) by apply (states_random_map (fun _ => 0) l 0 []). split.
      + intros E. rewrite E in Hm. unfold l in Hm. discriminate.
      + assert (HF : Forall (fun st => state_norm2 st = 2%R) l).
        { unfold l. cbn [concat app]. unfold state_norm2, Rsum, Cnorm2. repeat (apply Forall_cons; [cbn; lra|]). apply Forall_nil. }
        rewrite <- Hm in HF. apply Forall_forall. intros it Hit. rewrite Forall_forall in HF. apply HF. now apply in_map. }
  destruct Eg as (its & Eg & Hne & HF).
  exists (Externals (fun _ _ _ => None) (fun _ _ _ => None)), (fun _ => 0), c, cs, (with_items cs its). split.
  - split; [cbn; lia|]. split; [cbn; lia|]. split; [reflexivity|]. constructor; [exact I|constructor].
  - split; [reflexivity|]. split; [reflexivity|]. split; [exact Hwf|]. split; [unfold state_norm2, superposed, Rsum, Cnorm2; cbn; lra|]. split; [|now split].
    rewrite evaluate_single by (cbn; auto). unfold run_node. change (node_at c 0) with (popescu_rohrlich_correlation_gate (fun _ => 0) (fun k => [k]) [([0;1;2;3], 1%R)]). unfold popescu_rohrlich_correlation_gate.
    rewrite Eg. reflexivity.
Qed.
