(** Proper collections stay proper across a bridge. *)
From Coq Require Import Reals List Arith Lia Lra Bool Permutation.
From Coquelicot Require Import Complex.
From Verif Require Import Prelude NamesModel NamesSpec NamesProofs FockModel FockSpec FockProofs StateModel StateSpec StateProofs
  CollectionModel EvalModel EvalSpec EvalProofs MeasureSpec MeasureProofs PropEval ReshapeSpec ReshapeProofs PropReshape BridgeSpec PropBridge ExponentialProofs
  ApplyProofs WfProofs CircuitSpec CircuitProofs PropCircuit.
Import ListNotations.

Definition clean (st : state) : Prop := forall nm a p, In (nm, (a, p)) (s_comps st) -> a <> RtoC 0 /\ p = Cnorm2 a.
Lemma dset_in {V} (k k0 : list nat) (v v0 : V) d : In (k, v) (dset leqb k0 v0 d) -> In (k, v) d \/ v = v0.
Proof.
  induction d as [|[k1 v1] d IH]; cbn [dset]; [intros [E|[]]; injection E as _ <-; now right|]. destruct (leqb k0 k1).
  - intros [E|H]; [injection E as _ <-; now right|left; now right].
  - intros [E|H]; [left; now left|]. destruct (IH H) as [H1|H1]; [left; now right|now right].
Qed.
Lemma dict_of_in {V} (l : list (list nat * V)) k v : In (k, v) (dict_of leqb l) -> exists k', In (k', v) l.
Proof.
  unfold dict_of. assert (G : forall l d, In (k, v) (fold_left (fun d kv => dset leqb (fst kv) (snd kv) d) l d) -> In (k, v) d \/ exists k', In (k', v) l).
  { clear. induction l as [|[k0 v0] l IH]; cbn [fold_left fst snd]; intros d H; [now left|]. destruct (IH _ H) as [H1|[k' H1]]; [|right; exists k'; now right].
    destruct (dset_in _ _ _ _ _ H1) as [H2| ->]; [now left|right; exists k0; now left]. }
  intro H. destruct (G l [] H) as [[]|H1]. exact H1.
Qed.
Lemma extended_clean D p extra kcl st : clean st -> clean (extended_state D p extra kcl st).
Proof.
  intros H nm a q Hin. cbn [extended_state s_comps] in Hin. unfold extend_components in Hin. apply dict_of_in in Hin. destruct Hin as (k & Hin). apply in_map_iff in Hin.
  destruct Hin as ([nm0 [a0 p0]] & E & Hin). cbn in E. injection E as _ <- <-. exact (H nm0 a0 p0 Hin).
Qed.
Lemma adjusted_clean D L' st : clean st -> clean (with_comps st (adjust_components D L' (s_comps st))).
Proof.
  intros H nm a q Hin. unfold with_comps in Hin. cbn [s_comps] in Hin. unfold adjust_components in Hin. apply dict_of_in in Hin. destruct Hin as (k & Hin). apply in_map_iff in Hin.
  destruct Hin as ([nm0 [a0 p0]] & E & Hin). cbn in E. injection E as _ <- <-. exact (H nm0 a0 p0 Hin).
Qed.
Lemma clean_has D st vs : wf_state D st -> clean st -> has D st vs -> amp_of D st vs <> RtoC 0.
Proof.
  intros [ND _] H [V Hin]. unfold amp_of, amplitude. apply in_map_iff in Hin. destruct Hin as ([nm [a p]] & E & Hin). cbn in E. subst nm.
  rewrite (dget_in leqb leqb_spec _ (a, p)) by assumption. cbn. apply (H _ _ _ Hin).
Qed.
Lemma reduced_proper D ncl keep clkeep o st s : 1 <= dL D -> proper_state D ncl st -> reduced D keep clkeep o st s -> proper_state (kept_shape D keep) (length clkeep) s.
Proof.
  intros HL (W & Hc & Hn & Hcum & Hlen & Hx) (R1 & R2 & R3 & R4 & R5 & R6 & R7 & R8 & R9 & R10 & R11 & R12).
  split; [exact R7|]. split; [|split; [exact R9|split; [|split; [rewrite R4; apply map_length|congruence]]]].
  - intros nm a p Hin. split; [|exact (R8 nm a p Hin)]. destruct R7 as [ND HN]. destruct (HN nm) as (ks & Vk & ->); [apply in_map_iff; now exists (nm, (a, p))|].
    assert (Ea : amp_of (kept_shape D keep) s ks = a). { unfold amp_of, amplitude. rewrite (dget_in leqb leqb_spec _ (a, p)) by assumption. reflexivity. }
    destruct (R12 ks) as (vs & Hv & Ho & Ek); [split; [exact Vk|apply in_map_iff; now exists (name_string (kept_shape D keep) ks, (a, p))]|].
    rewrite <- Ea, Ek, R10; [|apply Hv|exact Ho]. intro E. apply (clean_has D st vs W Hc Hv).
    assert (Hs : RtoC (sqrt (outcome_prob D st (other_channels (dN D) keep) o)) <> RtoC 0) by (intro E1; apply RtoC_inj in E1; pose proof (sqrt_lt_R0 _ R6); lra).
    transitivity (amp_of D st vs / RtoC (sqrt (outcome_prob D st (other_channels (dN D) keep) o)) * RtoC (sqrt (outcome_prob D st (other_channels (dN D) keep) o)))%C; [field; exact Hs|rewrite E; ring].
  - rewrite R5. assert (Hle : (outcome_prob D st (other_channels (dN D) keep) o <= 1)%R).
    { rewrite outcome_prob_basis by assumption. rewrite <- Hn, <- (norm_amp D st HL W). apply Rsum_le. intros f _. pose proof (Cnorm2_nonneg (amp_of D st f)). destruct (leqb _ _); lra. }
    split; [apply Rmult_lt_0_compat; lra|]. rewrite <- (Rmult_1_l 1). apply Rmult_le_compat; lra.
Qed.
Definition all_proper (cs : coll) : Prop := Forall (fun it => proper_state (co_D cs) (co_ncl cs) (snd it)) (co_items cs).
Lemma extend_default rnd seed k kcl cs : extend rnd seed k kcl [] cs = extend rnd seed k kcl (default_distribution (dL (co_D cs))) cs.
Proof.
  unfold extend. cbv zeta. assert (E : length (default_distribution (dL (co_D cs))) = dL (co_D cs)) by (unfold default_distribution; now rewrite map_length, seq_length).
  destruct (default_distribution (dL (co_D cs))) as [|x d] eqn:Ed; [reflexivity|]. rewrite E, Nat.eqb_refl. reflexivity.
Qed.
Lemma extend_proper rnd seed k kcl cs : 1 <= dL (co_D cs) -> (0 < co_eps cs)%R -> all_proper cs -> Forall (fun it => (co_eps cs <= s_cum (snd it))%R) (co_items cs) -> 0 < k + kcl ->
  exists cs' seed', extend rnd seed k kcl [] cs = Some (cs', seed') /\ co_eps cs' = co_eps cs /\ co_D cs' = shape_with_extra (co_D cs) k /\ co_ncl cs' = co_ncl cs + kcl /\ all_proper cs'.
Proof.
  intros HL He HP HC Hk.
  assert (HW : Forall (fun it => wf_state (co_D cs) (snd it)) (co_items cs)) by (eapply Forall_impl; [|exact HP]; intros it H; apply H).
  destruct (C35_does_not_raise rnd seed k kcl (default_distribution (dL (co_D cs))) cs) as ([cs' seed'] & E); auto.
  { lra. } { unfold default_distribution; now rewrite map_length, seq_length. }
  { apply Forall_forall. intros p Hp. unfold default_distribution in Hp. apply in_map_iff in Hp. destruct Hp as (j & <- & _). destruct (j =? 0); lra. }
  { eapply Forall_impl; [|exact HP]. intros it H. split; [apply H|]. apply (proper_check (co_D cs)); [lra|exact H]. }
  rewrite <- extend_default in E. exists cs', seed'. split; [exact E|].
  destruct (C35_default_is_vacuum rnd seed k kcl cs cs' seed' HL HW Hk He HC E) as (ED & En & _ & H2).
  assert (Ec : co_eps cs' = co_eps cs /\ forall it', In it' (co_items cs') -> exists p x st, In st (map snd (co_items cs)) /\ snd it' = extended_state (co_D cs) p x kcl st).
  { clear - E Hk. unfold extend in E. cbv zeta in E. destruct ((k =? 0) && (kcl =? 0)) eqn:Ek.
    - exfalso. apply andb_prop in Ek. destruct Ek as [E1 E2]. apply Nat.eqb_eq in E1, E2. lia.
    - destruct (fold_left _ _ _) as [[its sd]|] eqn:Ef; [|discriminate]. injection E as <- <-. split; [reflexivity|]. cbn [co_items]. intros it' Hin.
      apply extend_fold in Ef; [|constructor]. destruct Ef as (_ & new & -> & Hm). cbn [app] in Hin. assert (Hs : In (snd it') (map snd new)) by now apply in_map.
      rewrite Hm in Hs. apply in_map_iff in Hs. destruct Hs as ([[p x] st] & Es & Hs). apply filter_In in Hs. destruct Hs as [Hs _]. apply in_prod_iff in Hs. exists p, x, st. cbn in Es. split; [tauto|now symmetry]. }
  destruct Ec as [Ee Hx]. split; [exact Ee|]. split; [exact ED|]. split; [exact En|]. unfold all_proper. apply Forall_forall. intros it' Hin.
  destruct (Forall2_in_r_ex _ _ _ it' H2 Hin) as (it & Hit & X1 & X2 & X3 & X4 & X5 & X6 & X7 & _). unfold all_proper in HP. rewrite Forall_forall in HP.
  destruct (HP it Hit) as (W & Hc & Hn & Hcum & Hlen & Haux). rewrite repeat_length in X6. split; [rewrite ED; exact X6|]. split; [|split; [congruence|split; [rewrite X5; lra|split; [|congruence]]]].
  - destruct (Hx it' Hin) as (p & x & st & Hst & ->). apply extended_clean. apply in_map_iff in Hst. destruct Hst as (it0 & <- & Hit0). exact (proj1 (proj2 (HP it0 Hit0))).
  - rewrite X4, app_length, repeat_length, En, Hlen. reflexivity.
Qed.
Lemma reduce_proper keep clkeep cs : 1 <= dL (co_D cs) -> (0 < co_eps cs)%R -> co_items cs <> [] -> NoDup (map fst (co_items cs)) -> all_proper cs ->
  2 <= length keep -> clkeep <> [] \/ co_ncl cs = 0 -> Forall (fun c => c < dN (co_D cs)) keep -> Forall (fun c => c < co_ncl cs) clkeep ->
  exists cs', reduce keep clkeep cs = Some cs' /\ co_eps cs' = co_eps cs /\ co_D cs' = kept_shape (co_D cs) keep /\ co_ncl cs' = length clkeep /\ all_proper cs'.
Proof.
  intros HL He Hne ND HP Hk Hcl HF HG.
  assert (HW : Forall (fun it => wf_state (co_D cs) (snd it)) (co_items cs)) by (eapply Forall_impl; [|exact HP]; intros it H; apply H).
  destruct (C34_does_not_raise keep clkeep cs) as (cs' & E); auto; [lra| |].
  { eapply Forall_impl; [|exact HP]. intros it (W & Hc & Hn & Hcum & _). split; [exact W|]. split; [exact Hn|]. split; [lra|]. intros vs Hv. now apply clean_has. }
  exists cs'. split; [exact E|]. destruct (C34_reduce keep clkeep cs cs') as (ED & En & Ee & _ & groups & EG & H2); auto; [destruct keep; [cbn in Hk; lia|discriminate]|].
  split; [exact Ee|]. split; [exact ED|]. split; [exact En|]. unfold all_proper. apply Forall_forall. intros it' Hin. rewrite EG in Hin. apply in_concat in Hin. destruct Hin as (g & Hg & Hin).
  destruct (Forall2_in_r_ex _ _ _ g H2 Hg) as (it & Hit & (os & _ & _ & HO) & _). destruct (Forall2_in_r_ex _ _ _ it' HO Hin) as (o & _ & _ & HR). rewrite ED, En.
  unfold all_proper in HP. rewrite Forall_forall in HP. eapply reduced_proper; [exact HL|exact (HP it Hit)|exact HR].
Qed.
Lemma adjust_proper L' cs : 1 <= dL (co_D cs) -> 1 <= L' -> (0 < co_eps cs)%R -> NoDup (map fst (co_items cs)) -> all_proper cs ->
  Forall (fun it => forall vs, has (co_D cs) (snd it) vs -> Forall (fun v => v < L') vs) (co_items cs) ->
  exists cs', adjust_length L' cs = Some cs' /\ co_eps cs' = co_eps cs /\ all_proper cs'.
Proof.
  intros HL HL' He ND HP HF.
  assert (HW : Forall (fun it => wf_state (co_D cs) (snd it) /\ forall vs, has (co_D cs) (snd it) vs -> Forall (fun v => v < L') vs) (co_items cs)).
  { unfold all_proper in HP. rewrite Forall_forall in *. intros it Hit. split; [apply (HP it Hit)|apply (HF it Hit)]. }
  destruct (C36_does_not_raise L' cs) as (cs' & E); auto.
  { unfold all_proper in HP. rewrite Forall_forall in *. intros it Hit. split; [apply (HP it Hit)|]. split; [apply (HF it Hit)|]. apply (proper_check (co_D cs)); [lra|exact (HP it Hit)]. }
  exists cs'. split; [exact E|]. destruct (C36_adjust_length L' cs cs' HL HL' ND HW E) as (ED & En & Ee & H2). split; [exact Ee|].
  assert (Hx : forall it', In it' (co_items cs') -> exists it, In it (co_items cs) /\ snd it' = with_comps (snd it) (adjust_components (co_D cs) L' (s_comps (snd it)))).
  { clear - E HL'. unfold adjust_length in E. cbv zeta in E. destruct (Nat.eqb_spec L' 0) as [E0|_]; [lia|]. destruct (option_list _) as [its|] eqn:Eo; [|discriminate]. injection E as <-. cbn [co_items].
    intros it' Hin. destruct it' as [i s]. apply dict_of_in in Hin. destruct Hin as (i' & Hin). revert its Eo Hin. induction (co_items cs) as [|it l IH]; cbn [map]; intros its Eo Hin.
    - cbn in Eo. injection Eo as <-. destruct Hin.
    - cbn [option_list] in Eo. unfold adjust_state at 1 in Eo. unfold make_state at 1 in Eo. destruct (check_state _ _ _); [|discriminate]. cbn [option_map] in Eo. destruct (option_list _) as [its1|] eqn:E1; [|discriminate]. injection Eo as <-.
      destruct Hin as [Ei|Hin]; [injection Ei as _ <-; exists it; split; [now left|reflexivity]|]. destruct (IH its1 eq_refl Hin) as (it0 & H0 & E0). exists it0. split; [now right|exact E0]. }
  unfold all_proper. apply Forall_forall. intros it' Hin. destruct (Forall2_in_r_ex _ _ _ it' H2 Hin) as (it & Hit & _ & (A1 & A2 & A3 & A4 & A5) & B & N & _).
  unfold all_proper in HP. rewrite Forall_forall in HP. destruct (HP it Hit) as (W & Hc & Hn & Hcum & Hlen & Haux). split; [exact B|]. split; [|split; [congruence|split; [rewrite A2; lra|split; [congruence|congruence]]]].
  destruct (Hx it' Hin) as (it0 & Hit0 & ->). apply adjusted_clean. exact (proj1 (proj2 (HP it0 Hit0))).
Qed.

Lemma reduce_all_classical keep cs : reduce keep [] cs = reduce keep (seq 0 (co_ncl cs)) cs.
Proof. unfold reduce. destruct (co_ncl cs); reflexivity. Qed.

(** The bridge does not raise, and hands over a proper collection. *)
Lemma bridge_proper rnd c next cs seed :
  let D := c_D c in let D' := Dims (dL (c_D next)) (dN (c_D next)) (dLeft D) in
  co_D cs = D -> co_ncl cs = c_ncl c -> 1 <= dL D -> 1 <= dN D -> 1 <= dL D' -> 2 <= dN D' -> (0 < co_eps cs)%R ->
  co_items cs <> [] -> NoDup (map fst (co_items cs)) -> all_proper cs ->
  Forall (fun it => (forall vs, has D (snd it) vs -> Forall (fun v => v < dL D') (carried_values (dN D') vs)) /\
        forall o, possible D (snd it) (dropped_channels D (dN D')) o ->
          (co_eps cs <= s_cum (snd it) * outcome_prob D (snd it) (dropped_channels D (dN D')) o)%R) (co_items cs) ->
  (c_ncl next = 0 -> c_ncl c = 0) ->
  exists cs' seed', bridge_reshape rnd c next cs seed = Some (cs', seed') /\ co_D cs' = D' /\ co_ncl cs' = c_ncl next /\ co_eps cs' = co_eps cs /\
    all_proper cs' /\ NoDup (map fst (co_items cs')) /\ co_items cs' <> [] /\ arriving D D' (c_ncl next) (co_items cs) (co_items cs').
Proof.
  intros D D' ED En HL HN HL' HN' He Hne ND HP HF Hcl.
  assert (HF0 : Forall (fun it => wf_state D (snd it) /\ state_norm2 (snd it) = 1%R /\ length (s_classical (snd it)) = co_ncl cs /\ (co_eps cs <= s_cum (snd it))%R) (co_items cs)).
  { unfold all_proper in HP. rewrite Forall_forall in *. intros it Hit. destruct (HP it Hit) as (W & Hc & Hn & Hcum & Hlen & _). rewrite ED in W. split; [exact W|]. split; [exact Hn|]. split; [exact Hlen|].
    destruct (HF it Hit) as [_ Hp]. destruct (norm_pos_has D (snd it) HL W Hn) as (vs & V & Hin).
    specialize (Hp (readout (dropped_channels D (dN D')) vs) (ex_intro _ vs (conj V (conj Hin eq_refl)))).
    assert (Hle : (outcome_prob D (snd it) (dropped_channels D (dN D')) (readout (dropped_channels D (dN D')) vs) <= 1)%R).
    { rewrite outcome_prob_basis by assumption. rewrite <- Hn, <- (norm_amp D (snd it) HL W). apply Rsum_le. intros f _. pose proof (Cnorm2_nonneg (amp_of D (snd it) f)). destruct (leqb _ _); lra. }
    eapply Rle_trans; [exact Hp|]. rewrite <- (Rmult_1_r (s_cum (snd it))) at 2. apply Rmult_le_compat_l; lra. }
  assert (Hck : Forall (fun it => check_state (co_eps cs) (co_ncl cs) (snd it) = true) (co_items cs)).
  { eapply Forall_impl; [|exact HP]. intros it H. apply (proper_check (co_D cs)); [lra|exact H]. }
  assert (HC0 : Forall (fun it => (co_eps cs <= s_cum (snd it))%R) (co_items cs)) by (eapply Forall_impl; [|exact HF0]; cbv beta; tauto).
  (* optical channels *)
  assert (S1 : exists cs1 seed1, (if dN D <? dN D' then extend rnd seed (dN D' - dN D) 0 [] cs
           else if dN D' <? dN D then option_map (fun x => (x, seed)) (reduce (seq 0 (dN D')) [] cs) else Some (cs, seed)) = Some (cs1, seed1) /\ all_proper cs1).
  { destruct (Nat.ltb_spec (dN D) (dN D')) as [Hlt|Hge].
    - destruct (extend_proper rnd seed (dN D' - dN D) 0 cs) as (cs1 & s1 & E & _ & _ & _ & H); rewrite ?ED; auto; [lia|]. exists cs1, s1. split; [exact E|exact H].
    - destruct (Nat.ltb_spec (dN D') (dN D)) as [Hlt|Hge'].
      + rewrite reduce_all_classical. destruct (reduce_proper (seq 0 (dN D')) (seq 0 (co_ncl cs)) cs) as (cs1 & E & _ & _ & _ & H); rewrite ?ED, ?seq_length; auto.
        { destruct (co_ncl cs); [now right|left; discriminate]. }
        { apply Forall_forall. intros x Hx. apply in_seq in Hx. lia. }
        { apply Forall_forall. intros x Hx. apply in_seq in Hx. lia. }
        exists cs1, seed. rewrite E. split; [reflexivity|exact H].
      + exists cs, seed. split; [reflexivity|exact HP]. }
  destruct S1 as (cs1 & seed1 & E1 & HP1).
  destruct (optical_stage rnd seed cs (dN D') cs1 seed1) as (D1 & N1 & P1 & ND1 & A1 & H1); rewrite ?ED; auto; [lia| |].
  { eapply Forall_impl; [|exact HF0]. cbv beta. tauto. }
  assert (HD1 : dN (co_D cs1) = dN D' /\ dL (co_D cs1) = dL D /\ dLeft (co_D cs1) = dLeft D) by (rewrite D1; rewrite ED; auto).
  destruct HD1 as (HDN1 & HDL1 & HDF1). rewrite ED in A1.
  assert (HW0 : Forall (fun it => wf_state D (snd it) /\ state_norm2 (snd it) = 1%R) (co_items cs)) by (eapply Forall_impl; [|exact HF0]; cbv beta; tauto).
  assert (Hne1 : co_items cs1 <> []) by (eapply arriving_nonempty; [exact HL|exact Hne|exact HW0|exact A1]).
  assert (HC1 : Forall (fun it => (co_eps cs1 <= s_cum (snd it))%R) (co_items cs1)).
  { apply Forall_forall. intros it1 Hin. destruct (arriving_in _ _ _ _ _ _ A1 Hin) as (it & o & Hit & Ho & Hc).
    destruct Hc as (_ & _ & _ & C4 & C5 & _). rewrite C5, P1. rewrite HDN1 in *. rewrite Forall_forall in HF. now apply (HF it Hit). }
  assert (HF1 : Forall (fun it => wf_state (co_D cs1) (snd it) /\ state_norm2 (snd it) = 1%R /\ length (s_classical (snd it)) = co_ncl cs1 /\ (co_ncl cs1 < c_ncl next -> (co_eps cs1 <= s_cum (snd it))%R)) (co_items cs1)).
  { unfold all_proper in HP1. rewrite Forall_forall in *. intros it Hit. destruct (HP1 it Hit) as (W & _ & Hn & _ & Hl & _). split; [exact W|]. split; [exact Hn|]. split; [exact Hl|]. intros _. exact (HC1 it Hit). }
  (* classical channels *)
  assert (S2 : exists cs2 seed2, (if co_ncl cs1 <? c_ncl next then extend rnd seed1 0 (c_ncl next - co_ncl cs1) [] cs1
           else if c_ncl next <? co_ncl cs1 then option_map (fun x => (x, seed1)) (reduce [] (seq 0 (c_ncl next)) cs1) else Some (cs1, seed1)) = Some (cs2, seed2) /\ all_proper cs2).
  { destruct (Nat.ltb_spec (co_ncl cs1) (c_ncl next)) as [Hlt|Hge].
    - destruct (extend_proper rnd seed1 0 (c_ncl next - co_ncl cs1) cs1) as (cs2 & s2 & E & _ & _ & _ & H); auto; [lia|rewrite P1; exact He|lia|]. exists cs2, s2. split; [exact E|exact H].
    - destruct (Nat.ltb_spec (c_ncl next) (co_ncl cs1)) as [Hlt|Hge'].
      + rewrite (proj1 (C34_all_channels [] (seq 0 (c_ncl next)) cs1 ltac:(lia) ltac:(lia))).
        destruct (reduce_proper (seq 0 (dN (co_D cs1))) (seq 0 (c_ncl next)) cs1) as (cs2 & E & _ & _ & _ & H); rewrite ?seq_length; auto; [lia|rewrite P1; exact He|lia| | | |].
        { destruct (c_ncl next) eqn:E0; [exfalso; lia|left; discriminate]. }
        { apply Forall_forall. intros x Hx. apply in_seq in Hx. lia. }
        { apply Forall_forall. intros x Hx. apply in_seq in Hx. lia. }
        exists cs2, seed1. rewrite E. split; [reflexivity|exact H].
      + exists cs1, seed1. split; [reflexivity|exact HP1]. }
  destruct S2 as (cs2 & seed2 & E2 & HP2).
  destruct (classical_stage rnd seed1 cs1 (c_ncl next) cs2 seed2) as (D2 & N2 & P2 & ND2 & A2); auto; try lia; [rewrite P1; intros _; exact He|].
  assert (HF2 : Forall (fun it => forall vs, has (co_D cs2) (snd it) vs -> Forall (fun v => v < dL (c_D next)) vs) (co_items cs2)).
  { apply Forall_forall. intros it2 Hin vs Hv. destruct (Forall2_in_r_ex _ _ _ it2 A2 Hin) as (it1 & Hin1 & Ho & Hh). rewrite D2 in Hv.
    destruct (H1 it1 vs Hin1 (Hh vs Hv)) as (it & us & Hit & Hu & ->). rewrite Forall_forall in HF. rewrite ED in Hu. destruct (HF it Hit) as (Hf & _). apply (Hf us Hu). }
  destruct (adjust_proper (dL (c_D next)) cs2) as (cs3 & E3 & P3 & HP3); auto; [rewrite D2; lia|rewrite P2, P1; exact He|].
  assert (EB : bridge_reshape rnd c next cs seed = Some (cs3, seed2)).
  { unfold bridge_reshape, copy_collection. rewrite (copy_items_ok _ _ _ Hck). cbn [option_map]. replace (with_items cs (co_items cs)) with cs by (now destruct cs). cbv zeta.
    fold D. change (dN (c_D next)) with (dN D'). rewrite E1. rewrite <- En, <- N1, E2, E3. reflexivity. }
  destruct (C28_reshape rnd c next cs seed cs3 seed2) as (D3 & N3 & ND3 & A3); auto; [cbn [dN]; change (dN (c_D next)) with (dN D'); lia| |].
  { unfold all_proper in HP. rewrite Forall_forall in *. intros it Hit. destruct (HF0 it Hit) as (W & Hn & _). destruct (HF it Hit) as (Hf & Hp). split; [exact W|]. split; [exact Hn|]. split; [exact Hf|]. intros _. split; [exact He|exact Hp]. }
  exists cs3, seed2. split; [exact EB|]. split; [exact D3|]. split; [exact N3|]. split; [congruence|]. split; [exact HP3|]. split; [exact ND3|]. split; [|exact A3].
  eapply arriving_nonempty; [exact HL|exact Hne|exact HW0|exact A3].
Qed.
