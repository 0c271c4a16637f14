(** C43: successive time delays. Read with ColumnModel.v (model) and TemporalSpec.v (vocabulary). *)
From Coq Require Import Reals List Arith Lia Lra Bool Permutation.
From Coquelicot Require Import Complex.
From Verif Require Import Prelude NamesModel NamesSpec NamesProofs FockModel FockProofs StateModel StateSpec StateProofs ApplyProofs
  CollectionModel EvalModel PropMeasure PropCollection PropEval PropBridge PropPRMeasure OperatorModel ColumnModel ColumnSpec ColumnProofs PropColumn
  GroupProofs TemporalSpec TemporalProofs ResolvedProofs PropTemporal.
Import ListNotations.

Section Two.
Variables (cs : coll) (w : R).
Hypothesis (HN : 1 <= dN (co_D cs)) (Hdl : delayable cs) (Hpr : Forall (fun it => probs_ok (snd it)) (co_items cs)).

Lemma base_groups : exists igs, resolved_groups cs = Some (map snd igs) /\ Forall (photon_group (co_D cs) (co_eps cs) (co_ncl cs)) igs /\ NoDup (map (fun ig => (fst ig, g_id (snd ig))) igs).
Proof.
  apply resolved_plain; [exact HN|apply Hdl|]. pose proof (delayable_good cs Hdl) as H. apply Forall_forall. intros it Hit.
  split; [exact (proj1 (Forall_forall _ _) H it Hit)|exact (proj1 (Forall_forall _ _) Hpr it Hit)].
Qed.
Lemma base_check : Forall (fun it => check_state (co_eps cs) (co_ncl cs) (snd it) = true) (co_items cs).
Proof. pose proof (delayable_good cs Hdl) as H. revert H. apply Forall_impl. intros it [[_ [_ [K _]]] _]. exact K. Qed.

(** Two delays: every photon state gets both. *)
Lemma two_delays rnd1 rnd2 chs1 d1 chs2 d2 : delay_exists d1 (co_ncl cs) -> delay_exists d2 (co_ncl cs) ->
  Forall (fun c => c < dN (co_D cs)) chs1 -> Forall (fun c => c < dN (co_D cs)) chs2 ->
  forall igs, resolved_groups cs = Some (map snd igs) -> Forall (photon_group (co_D cs) (co_eps cs) (co_ncl cs)) igs -> NoDup (map (fun ig => (fst ig, g_id (snd ig))) igs) ->
  exists cs1 cs2, add_time_delay rnd1 chs1 d1 w cs = Some cs1 /\ add_time_delay rnd2 chs2 d2 w cs1 = Some cs2 /\
    Permutation (map snd (co_items cs2)) (map (fun st => delay_result (co_D cs) chs2 d2 w (delay_result (co_D cs) chs1 d1 w st)) (flat_map (fun ig => group_states_of (snd ig)) igs)).
Proof.
  intros Hd1 Hd2 Hc1 Hc2 igs E Hp Hnd.
  destruct (delay_groups rnd1 cs igs chs1 d1 w Hd1 Hc1 base_check E Hp Hnd) as [cs1 [E1 [F1 [F2 [F3 [_ [G1 [G2 G3]]]]]]]]. cbv zeta in *.
  set (igs1 := map (fun ig => (fst ig, delayed_group (co_D cs) chs1 d1 w (snd ig))) igs) in *.
  rewrite <- F1, <- F2, <- F3 in G2. pose proof (photon_items_check _ _ _ _ _ G1 G2) as Hck1.
  destruct (resolved_again cs1 igs1) as [igs1' [E2 P2]]; [rewrite F1; exact HN|exact G1|exact G2|exact G3|].
  destruct (delay_groups rnd2 cs1 igs1' chs2 d2 w) as [cs2 [E3 [_ [_ [_ [_ [K1 _]]]]]]].
  - rewrite F3. exact Hd2.
  - rewrite F1. exact Hc2.
  - exact Hck1.
  - exact E2.
  - apply Forall_forall. intros ig Hig. apply (Permutation_in _ P2) in Hig. exact (proj1 (Forall_forall _ _) G2 ig Hig).
  - apply (Permutation_NoDup (Permutation_sym (Permutation_map (fun ig => (fst ig, g_id (snd ig))) P2))). exact G3.
  - exists cs1, cs2. split; [exact E1|]. split; [exact E3|]. rewrite K1, F1.
    etransitivity; [apply Permutation_flat_map; apply Permutation_map; exact P2|]. unfold igs1.
    assert (Q : forall l : list (ident * group), flat_map (fun ig => group_states_of (snd ig)) (map (fun ig => (fst ig, delayed_group (co_D cs) chs2 d2 w (snd ig))) (map (fun ig => (fst ig, delayed_group (co_D cs) chs1 d1 w (snd ig))) l))
       = map (fun st => delay_result (co_D cs) chs2 d2 w (delay_result (co_D cs) chs1 d1 w st)) (flat_map (fun ig => group_states_of (snd ig)) l)).
    { induction l as [|ig l IH]; [reflexivity|]. cbn [map flat_map fst snd]. rewrite IH, map_app, !delayed_group_states, map_map. reflexivity. }
    rewrite Q. reflexivity.
Qed.
Lemma one_delay rnd chs d : delay_exists d (co_ncl cs) -> Forall (fun c => c < dN (co_D cs)) chs ->
  forall igs, resolved_groups cs = Some (map snd igs) -> Forall (photon_group (co_D cs) (co_eps cs) (co_ncl cs)) igs -> NoDup (map (fun ig => (fst ig, g_id (snd ig))) igs) ->
  exists cs1, add_time_delay rnd chs d w cs = Some cs1 /\
    map snd (co_items cs1) = map (delay_result (co_D cs) chs d w) (flat_map (fun ig => group_states_of (snd ig)) igs).
Proof.
  intros Hd Hc igs E Hp Hnd.
  destruct (delay_groups rnd cs igs chs d w Hd Hc base_check E Hp Hnd) as [cs1 [E1 [_ [_ [_ [_ [G1 _]]]]]]]. exists cs1. split; [exact E1|]. rewrite G1. clear.
  induction igs as [|ig l IH]; [reflexivity|]. cbn [map flat_map fst snd]. rewrite IH, map_app, delayed_group_states. reflexivity.
Qed.
End Two.

Lemma with_photon_twice st i j : with_photon (with_photon st i) j = with_photon st j.
Proof. unfold with_photon. rewrite resolution_with. cbn [or_else r_column r_amplitude r_boson r_group r_group_cum]. apply with_resolution_twice. Qed.
Lemma delay_twice D chs1 d1 chs2 d2 w st :
  delay_result D chs2 d2 w (delay_result D chs1 d1 w st)
  = with_photon st ((fst (or_else (photon_of st) (0%R, w)) - (if touches D chs1 st then delay_in d1 st else 0) - (if touches D chs2 st then delay_in d2 st else 0))%R, w).
Proof.
  unfold delay_result at 1. unfold delay_result at 3. rewrite photon_with. cbn [or_else fst].
  assert (Ht : forall chs i, touches D chs (with_photon st i) = touches D chs st) by reflexivity. unfold delay_result. rewrite Ht, with_photon_twice.
  assert (Hd : delay_in d2 (with_photon st ((if touches D chs1 st then fst (or_else (photon_of st) (0, w)) - delay_in d1 st else fst (or_else (photon_of st) (0, w)))%R, w)) = delay_in d2 st) by (destruct d2; reflexivity).
  rewrite Hd, !photon_with. cbn [or_else fst]. do 2 f_equal. destruct (touches D chs1 st), (touches D chs2 st); ring.
Qed.

(** Two delays of the same channels add up: the states are those of a single delay. In particular
    a delay is undone by the opposite delay (t1 + t2 = 0). *)
Theorem C43_delays_add rnd1 rnd2 rnd3 chs t1 t2 w cs : 1 <= dN (co_D cs) -> delayable cs -> Forall (fun it => probs_ok (snd it)) (co_items cs) ->
  Forall (fun c => c < dN (co_D cs)) chs ->
  exists cs1 cs2 cs3, add_time_delay rnd1 chs (Delay t1) w cs = Some cs1 /\ add_time_delay rnd2 chs (Delay t2) w cs1 = Some cs2 /\
    add_time_delay rnd3 chs (Delay (t1 + t2)) w cs = Some cs3 /\
    Permutation (map snd (co_items cs2)) (map snd (co_items cs3)).
Proof.
  intros HN Hdl Hpr Hc. destruct (base_groups cs HN Hdl Hpr) as [igs [E [Hp Hnd]]].
  destruct (two_delays cs w HN Hdl rnd1 rnd2 chs (Delay t1) chs (Delay t2) I I Hc Hc igs E Hp Hnd) as [cs1 [cs2 [E1 [E2 P]]]].
  destruct (one_delay cs w Hdl rnd3 chs (Delay (t1 + t2)) I Hc igs E Hp Hnd) as [cs3 [E3 Q]].
  exists cs1, cs2, cs3. split; [exact E1|]. split; [exact E2|]. split; [exact E3|]. rewrite Q. etransitivity; [exact P|]. apply Permutation_refl'.
  apply map_ext. intro st. rewrite delay_twice. unfold delay_result. cbn [delay_in]. do 2 f_equal. destruct (touches (co_D cs) chs st); ring.
Qed.
(** Delays of any channels, given or read from classical channels, can be exchanged. *)
Theorem C43_delays_commute rnd1 rnd2 rnd3 rnd4 chs1 d1 chs2 d2 w cs : 1 <= dN (co_D cs) -> delayable cs -> Forall (fun it => probs_ok (snd it)) (co_items cs) ->
  Forall (fun c => c < dN (co_D cs)) chs1 -> Forall (fun c => c < dN (co_D cs)) chs2 -> delay_exists d1 (co_ncl cs) -> delay_exists d2 (co_ncl cs) ->
  exists cs1 cs2 cs3 cs4, add_time_delay rnd1 chs1 d1 w cs = Some cs1 /\ add_time_delay rnd2 chs2 d2 w cs1 = Some cs2 /\
    add_time_delay rnd3 chs2 d2 w cs = Some cs3 /\ add_time_delay rnd4 chs1 d1 w cs3 = Some cs4 /\
    Permutation (map snd (co_items cs2)) (map snd (co_items cs4)).
Proof.
  intros HN Hdl Hpr Hc1 Hc2 Hd1 Hd2. destruct (base_groups cs HN Hdl Hpr) as [igs [E [Hp Hnd]]].
  destruct (two_delays cs w HN Hdl rnd1 rnd2 chs1 d1 chs2 d2 Hd1 Hd2 Hc1 Hc2 igs E Hp Hnd) as [cs1 [cs2 [E1 [E2 P]]]].
  destruct (two_delays cs w HN Hdl rnd3 rnd4 chs2 d2 chs1 d1 Hd2 Hd1 Hc2 Hc1 igs E Hp Hnd) as [cs3 [cs4 [E3 [E4 Q]]]].
  exists cs1, cs2, cs3, cs4. split; [exact E1|]. split; [exact E2|]. split; [exact E3|]. split; [exact E4|].
  etransitivity; [exact P|]. etransitivity; [|symmetry; exact Q]. apply Permutation_refl'.
  apply map_ext. intro st. rewrite !delay_twice. do 2 f_equal. ring.
Qed.

(** ** Examples *)
(** Two photons in two channels: the collection of the Hong-Ou-Mandel experiment. *)
Definition pair_state : state := State [49; 49] 1 [(name_string D22 [1; 1], (RtoC 1, 1%R))] [] [] [].
Definition pair_coll : coll := Coll D22 0 0 [([49; 49], pair_state)].
Lemma pair_delayable : delayable pair_coll /\ Forall (fun it => probs_ok (snd it)) (co_items pair_coll).
Proof.
  split; [split; [cbn; lra|]|].
  - apply Forall_cons; [|constructor]. cbn [snd pair_coll co_D co_eps co_ncl]. split; [|split; [discriminate|cbn; lia]].
    split; [|split; [|split]].
    + split; [constructor; [intros []|constructor]|]. intros nm [<-|[]]. exists [1; 1]. split; [split; [reflexivity|repeat constructor]|reflexivity].
    + intros x [].
    + apply check_state_iff. cbn. split; [lra|]. split; [|reflexivity]. apply Forall_cons; [cbn; lra|constructor].
    + cbn. lra.
  - apply Forall_cons; [|constructor]. intros nm a p [Z|[]]. assert (a = RtoC 1 /\ p = 1%R) as [-> ->] by (split; congruence). rewrite Cnorm2_RtoC. ring.
Qed.
(** A superposition is covered too. *)
Definition bell_coll : coll := Coll D22 1 0 [([50; 48], bell_like)].
Example C43_delay_applies : delayable bell_coll /\ Forall (fun it => probs_ok (snd it)) (co_items bell_coll) /\ delay_exists (DelayFrom 0) (co_ncl bell_coll).
Proof.
  destruct C44_roundtrip_applies as [H1 [H2 [H3 H4]]]. split; [split; [cbn; lra|]|split].
  - apply Forall_cons; [|constructor]. cbn [snd]. split; [exact H1|]. split; [discriminate|]. intros _. split; [exact H3|exact H4].
  - apply Forall_cons; [|constructor]. intros nm a p [Z|[Z|[]]]; apply (f_equal snd) in Z; cbn [snd] in Z; pose proof (f_equal fst Z) as Z1; pose proof (f_equal snd Z) as Z2; cbn [fst snd] in Z1, Z2; rewrite <- Z1, <- Z2; reflexivity.
  - cbn. lia.
Qed.

Lemma shown_cum D sts pts : Forall2 (shows D) sts pts -> Rsum sts s_cum = Rsum pts pt_cum.
Proof. induction 1 as [|st pt sts pts H _ IH]; [reflexivity|]. rewrite !Rsum_cons, IH. destruct H as [_ [_ [-> _]]]. reflexivity. Qed.
(** The weights kept in the states themselves (cumulative_probability) do not add up: every photon
    state gets the weight of the whole state. *)
Theorem C43_state_weights_refuted : ~ (forall rnd chs d w cs cs', 1 <= dN (co_D cs) -> delayable cs -> delay_exists d (co_ncl cs) -> Forall (fun c => c < dN (co_D cs)) chs ->
  add_time_delay rnd chs d w cs = Some cs' ->
  Rsum (co_items cs') (fun it => s_cum (snd it)) = Rsum (co_items cs) (fun it => s_cum (snd it))).
Proof.
  intro H. pose proof (proj1 pair_delayable) as Hdl. set (rnd := fun n : nat => n).
  assert (HN : 1 <= dN (co_D pair_coll)) by (cbn; lia). assert (Hc : Forall (fun c => c < dN (co_D pair_coll)) [0]) by (apply Forall_cons; [cbn; lia|constructor]).
  destruct (C43_delay_states rnd [0] (Delay 0) 1 pair_coll HN Hdl I Hc) as [cs' [sks [idss [pts [E [_ [Hp [_ [Hids [HF Hperm]]]]]]]]]].
  specialize (H rnd [0] (Delay 0%R) 1%R pair_coll cs' HN Hdl I Hc E). rewrite <- (Rsum_map snd (co_items cs') s_cum), (shown_cum _ _ _ HF), (Rsum_perm _ _ _ Hperm) in H.
  destruct sks as [|sk [|sk2 sks]]; [apply Permutation_length in Hp; discriminate| |apply Permutation_length in Hp; discriminate].
  cbn [map co_items pair_coll snd] in Hp. apply Permutation_length_1 in Hp. cbn [map] in Hids. inversion Hids as [|? ids ? ? [Hl _] Hn]; subst. inversion Hn; subst.
  cbn [combine flat_map fst snd] in H. rewrite app_nil_r in H. rewrite Hp in H, Hl. cbn [weighted_components pair_state s_comps length] in Hl.
  destruct ids as [|id [|? ?]]; try discriminate. unfold numbered in H. cbn [weighted_components pair_state s_comps combine flat_map] in H. rewrite app_nil_r in H.
  unfold delay_parts in H. cbn [fst snd co_D pair_coll] in H. rewrite (values_of_name_string D22 [1; 1]) in H by (repeat constructor).
  change (channels_of [1; 1]) with [0; 1] in H. cbn [map] in H. unfold Rsum in H. cbn [fold_right pt_cum s_cum co_items snd pair_state pair_coll] in H. lra.
Qed.
