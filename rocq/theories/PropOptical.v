(** Property theorems C11-C15: the built-in optical nodes. *)
From Coq Require Import Reals List Arith Lia Bool Permutation Lra.
From Coquelicot Require Import Complex.
From Verif Require Import Prelude NamesModel NamesSpec NamesProofs FockModel FockSpec BosonProofs FockProofs GateProofs
  OpticalModel OpticalProofs PropFock.
Import ListNotations.

(** ** C11 *)
Theorem C11_builtin_nodes_unitary : forall n call gs,
  gates_of n call = Some gs -> Forall (fun g => unitary2 (fst g) /\ mat2_symmetric (fst g)) gs.
Proof.
  intros n call gs E.
  assert (G : forall t p chs, unitary2 (fst (generic_matrix t p, chs)) /\ mat2_symmetric (fst (generic_matrix t p, chs : list nat)))
    by (intros; split; [apply generic_unitary|apply generic_symmetric]).
  assert (GM : forall a b r t g, mix_generic a b r t = Some g -> unitary2 (fst g) /\ mat2_symmetric (fst g)).
  { intros a b r t g. unfold mix_generic.
    destruct (Req_EM_T _ _); [|discriminate]. destruct (Rle_dec 0 r); [|discriminate].
    destruct (Rle_dec 0 t); [|discriminate]. intros F; injection F as <-. apply G. }
  destruct call; cbn [gates_of] in E;
    try (injection E as <-; repeat constructor; apply G).
  - destruct (mix_generic a b refl transm) eqn:F; [|discriminate]. injection E as <-.
    repeat constructor; eapply GM; eauto.
  - destruct (n <? 4); [discriminate|]. injection E as <-. repeat constructor; apply G.
  - destruct (n <? 4); [discriminate|]. injection E as <-. repeat constructor; apply G.
  - destruct (n <? 4); [discriminate|]. destruct (mix_generic a0 _ _ _) eqn:F; [|discriminate].
    destruct (mix_generic a1 _ _ _) eqn:F'; [|discriminate]. injection E as <-.
    repeat constructor; eapply GM; eauto.
Qed.

(** Hence every circuit built from these methods has a unitary Fock matrix. *)
Theorem C11_builtin_circuits_unitary : forall D calls M,
  1 <= dL D -> 2 <= dN D -> calls_matrix D calls = Some M ->
  unitary_mat (dL D ^ dN D) M /\
  forall v, norm2 (dL D ^ dN D) (mat_vec (dL D ^ dN D) M v) = norm2 (dL D ^ dN D) v.
Proof.
  intros D calls M HL HN E. unfold calls_matrix in E.
  destruct (gates_of_calls (dN D) calls) as [gs|] eqn:Eg; [|discriminate].
  apply (C07_unitary_gates D gs M HL HN); auto.
  clear E M HL HN. revert gs Eg. induction calls as [|c r IH]; intros gs Eg; cbn [gates_of_calls] in Eg.
  - injection Eg as <-. constructor.
  - destruct (gates_of (dN D) c) eqn:Ec; [|discriminate].
    destruct (gates_of_calls (dN D) r); [|discriminate]. injection Eg as <-.
    apply Forall_app. split; auto.
    eapply Forall_impl; [|eapply C11_builtin_nodes_unitary; eauto]. cbn. tauto.
Qed.

Example C11_case : exists M,
  calls_matrix (Dims 3 4 true)
    [Half_wave_plate_225 0 1; Phase_shift 0 (PI / 3); Non_polarizing_50_50 0 1 2 3; Quarter_wave_plate 2 3 (1/7)] = Some M.
Proof. eexists. reflexivity. Qed.

(** ** C12 *)
Lemma leqb_refl_true (a : values) : leqb a a = true.
Proof. now apply leqb_spec. Qed.

Lemma calls_matrix_single D c g :
  gates_of (dN D) c = Some [g] -> calls_matrix D [c] = circuit_matrix D [g].
Proof. intros E. unfold calls_matrix. cbn [gates_of_calls]. rewrite E. reflexivity. Qed.

Theorem C12_swap_exchanges : forall D a b,
  1 <= dL D -> a < dN D -> b < dN D -> a <> b ->
  exists M, calls_matrix D [Swap a b] = Some M /\
    forall from to, valid D from -> valid D to -> nth a from 0 + nth b from 0 < dL D ->
      (exchanged a b from to -> M (index_of_values D to) (index_of_values D from) = RtoC 1) /\
      (~ exchanged a b from to -> M (index_of_values D to) (index_of_values D from) = RtoC 0).
Proof.
  assert (G : forall D h v, 1 <= dL D -> h < v -> v < dN D ->
    exists M, circuit_matrix D [(generic_matrix (PI / 4) PI, [h; v])] = Some M /\
      forall from to, valid D from -> valid D to -> nth h from 0 + nth v from 0 < dL D ->
        (exchanged h v from to -> M (index_of_values D to) (index_of_values D from) = RtoC 1) /\
        (~ exchanged h v from to -> M (index_of_values D to) (index_of_values D from) = RtoC 0)).
  { intros D h v HL Hhv Hv.
    destruct (C05_gate_acts_on_its_channels_partial D (generic_matrix (PI / 4) PI) h v) as (M & EM & HM); try lia.
    exists M. split; [exact EM|]. intros from to Hf Ht Hlt. destruct (HM from to Hf Ht) as [H1 H2].
    rewrite swap_matrix in H1. unfold mat2_tr in H1; cbn [m00 m01 m10 m11] in H1.
    rewrite gate_amp_anti, !Cpow_1 in H1 by auto.
    split.
    - intros (E1 & E2 & E3). rewrite H1 by auto. rewrite E1, E2, !Nat.eqb_refl. cbn [andb]. ring.
    - intros Hne.
      assert (Dec : same_elsewhere h v from to \/ ~ same_elsewhere h v from to).
      { unfold same_elsewhere.
        assert (Hd : forall n, (forall c, c < n -> c <> h -> c <> v -> nth c from 0 = nth c to 0) \/
                          ~ (forall c, c < n -> c <> h -> c <> v -> nth c from 0 = nth c to 0)).
        { induction n as [|n [IH|IH]]; [left; lia| |right; intros C; apply IH; auto].
          destruct (Nat.eq_dec n h) as [->|N1]; [left; intros c Hc; assert (c < h \/ c = h) as [?|?] by lia; auto; lia|].
          destruct (Nat.eq_dec n v) as [->|N2]; [left; intros c Hc; assert (c < v \/ c = v) as [?|?] by lia; auto; lia|].
          destruct (Nat.eq_dec (nth n from 0) (nth n to 0)) as [E|E].
          - left; intros c Hc. assert (c < n \/ c = n) as [?|?] by lia; auto. now subst.
          - right; intros C. apply E, C; auto. }
        destruct (Hd (dN D)) as [Hy|Hn].
        - left. intros c Hc1 Hc2. destruct (le_lt_dec (dN D) c); auto.
          destruct Hf as [Lf _], Ht as [Lt _]. rewrite !nth_overflow by lia. reflexivity.
        - right. intros C. apply Hn. auto. }
      destruct Dec as [Hs|Hs]; [|now apply H2].
      rewrite H1 by auto. destruct (nth h to 0 =? nth v from 0) eqn:E1; auto.
      destruct (nth v to 0 =? nth h from 0) eqn:E2; auto. exfalso. apply Hne.
      apply Nat.eqb_eq in E1, E2. now split. }
  intros D a b HL Ha Hb Hne.
  destruct (b <? a) eqn:E.
  - apply Nat.ltb_lt in E. destruct (G D b a HL E Ha) as (M & EM & HM). exists M. split.
    + erewrite calls_matrix_single; [exact EM|]. cbn [gates_of]. unfold swap_gate.
      replace (b <? a) with true by (symmetry; now apply Nat.ltb_lt). reflexivity.
    + intros from to Hf Ht Hlt. destruct (HM from to Hf Ht ltac:(lia)) as [H1 H2].
      assert (Sx : exchanged a b from to <-> exchanged b a from to).
      { unfold exchanged, same_elsewhere. split; intros (E1 & E2 & E3); repeat split; auto; intros; apply E3; auto. }
      split; intros Hx; [apply H1; now apply Sx|apply H2; intros C; apply Hx; now apply Sx].
  - apply Nat.ltb_ge in E. destruct (G D a b HL ltac:(lia) Hb) as (M & EM & HM). exists M. split; auto.
    erewrite calls_matrix_single; [exact EM|]. cbn [gates_of]. unfold swap_gate.
    replace (b <? a) with false by (symmetry; now apply Nat.ltb_ge). reflexivity.
Qed.

Example C12_case : valid (Dims 4 3 true) [2;1;1] /\ 2 + 1 < 4 /\ exchanged 2 0 [2;1;1] [1;1;2].
Proof.
  split; [split; [reflexivity|repeat constructor]|]. split; [lia|].
  split; [reflexivity|]. split; [reflexivity|].
  intros c H1 H2. destruct c as [|[|[|c]]]; try lia; reflexivity.
Qed.

(** The polarising beam splitter exchanges the vertical channels of its two ports. *)
Theorem C12_polarizing_beamsplitter : forall D a0 a1 b0 b1,
  4 <= dN D -> calls_matrix D [Polarizing_bs a0 a1 b0 b1] = calls_matrix D [Swap a1 b1].
Proof.
  intros. unfold calls_matrix. cbn [gates_of_calls gates_of].
  replace (dN D <? 4) with false by (symmetry; now apply Nat.ltb_ge). reflexivity.
Qed.

(** ** C13 *)
(** The phase shifter is implemented on a pair of channels (channel 0, or 1 when c = 0,
    with c). As long as that pair holds fewer than L photons it does what it promises; *)
Theorem C13_phase_shift_partial : forall D c phi,
  1 <= dL D -> 2 <= dN D -> c < dN D ->
  let partner := if c =? 0 then 1 else 0 in
  exists M, calls_matrix D [Phase_shift c phi] = Some M /\
    forall from to, valid D from -> valid D to -> nth c from 0 + nth partner from 0 < dL D ->
      M (index_of_values D to) (index_of_values D from)
      = if leqb from to then cis (INR (nth c from 0) * phi) else RtoC 0.
Proof.
  intros D c phi HL HN Hc partner.
  set (p := partner). assert (Hp : p < dN D /\ p <> c /\ (c = 0 -> p = 1)).
  { unfold p, partner. destruct (c =? 0) eqn:E; [apply Nat.eqb_eq in E|apply Nat.eqb_neq in E]; lia. }
  destruct Hp as (Hp & Hpc & Hp1).
  destruct (tensor_list_good (dN D) p c) as (rest & Et & HP); auto.
  exists (full_matrix D (generic_matrix 0 phi) (p :: c :: rest)). split.
  - erewrite calls_matrix_single.
    + apply circuit_matrix_one; eauto.
    + cbn [gates_of]. replace [p; c] with (if c =? 0 then [1; 0] else [0; c]); [reflexivity|].
      unfold p, partner. destruct (c =? 0) eqn:E; [apply Nat.eqb_eq in E; now subst|reflexivity].
  - intros from to Hf Ht Hlt. rewrite full_matrix_tuples by auto.
    rewrite <- gate_amp_tr, phase_matrix. unfold mat2_tr; cbn [m00 m01 m10 m11].
    rewrite gate_amp_diag by lia. rewrite Cpow_1, cis_pow. fold (cis (INR (nth c from 0) * phi)).
    destruct (leqb from to) eqn:E.
    + apply leqb_spec in E; subst. rewrite leqb_refl_true, !Nat.eqb_refl. cbn [andb]. ring.
    + destruct (leqb (pick rest to) (pick rest from)) eqn:El; auto.
      destruct (nth p to 0 =? nth p from 0) eqn:E1; auto. destruct (nth c to 0 =? nth c from 0) eqn:E2; auto.
      exfalso. apply leqb_spec in El. apply Nat.eqb_eq in E1, E2.
      assert (from = to).
      { apply (pick_inj (dN D) (p :: c :: rest)); auto; [apply Hf|apply Ht|].
        unfold pick in *. cbn [map]. now rewrite E1, E2, El. }
      subst. rewrite leqb_refl_true in E. discriminate.
Qed.

Example C13_case : valid (Dims 3 3 true) [0;1;2] /\ nth 2 [0;1;2] 0 + nth 0 [0;1;2] 0 < 3.
Proof. split; [split; [reflexivity|repeat constructor]|simpl; lia]. Qed.

(** otherwise no phase at all is applied, depending on photons in another channel. *)
Theorem C13_refuted : exists D c phi M vs,
  1 <= dL D /\ 2 <= dN D /\ c < dN D /\ calls_matrix D [Phase_shift c phi] = Some M /\ valid D vs /\
  M (index_of_values D vs) (index_of_values D vs) <> cis (INR (nth c vs 0) * phi).
Proof.
  set (D := Dims 2 2 true).
  destruct (C10_overfull_pairs_identity_partial D (generic_matrix 0 PI) 0 1) as (M & EM & HM);
    try (simpl; lia); auto.
  exists D, 1, PI, M, [1;1].
  assert (V : valid D [1;1]) by (split; [reflexivity|repeat constructor]).
  split; [simpl; lia|]. split; [simpl; lia|]. split; [simpl; lia|].
  split; [erewrite calls_matrix_single; [exact EM|reflexivity]|]. split; [exact V|].
  destruct (HM [1;1] [1;1] V V ltac:(simpl; lia)) as [-> _].
  rewrite leqb_refl_true. unfold cis. cbn [nth INR]. rewrite Rmult_1_l, cos_PI, sin_PI.
  intros E. injection E. lra.
Qed.

(** ** C14 *)
Lemma sqrt2_inv_sq : (/ sqrt 2 * / sqrt 2 = / 2)%R.
Proof. rewrite <- Rinv_mult, sqrt_sqrt by lra. reflexivity. Qed.


(** For the channel pairs C05 covers; Hong-Ou-Mandel needs room for two photons. *)
Theorem C14_mix_50_50_partial : forall D a b,
  2 <= dL D -> a < dN D -> b < dN D -> a <> b -> (b = 0 -> a = 1) ->
  exists M, calls_matrix D [Mix_50_50 a b] = Some M /\
    (forall from to, valid D from -> valid D to -> same_elsewhere a b from to ->
       nth a from 0 + nth b from 0 = 1 -> nth a to 0 + nth b to 0 = 1 ->
       Cnorm2 (M (index_of_values D to) (index_of_values D from)) = (/ 2)%R) /\
    (3 <= dL D -> forall from to, valid D from -> valid D to -> same_elsewhere a b from to ->
       nth a from 0 = 1 -> nth b from 0 = 1 ->
       (nth a to 0 = 1 -> nth b to 0 = 1 -> M (index_of_values D to) (index_of_values D from) = RtoC 0) /\
       (nth a to 0 = 2 /\ nth b to 0 = 0 \/ nth a to 0 = 0 /\ nth b to 0 = 2 ->
          Cnorm2 (M (index_of_values D to) (index_of_values D from)) = (/ 2)%R)).
Proof.
  intros D a b HL Ha Hb Hne Hbad.
  destruct (C05_gate_acts_on_its_channels_partial D (generic_matrix (PI / 8) PI) a b) as (M & EM & HM); auto; [lia|].
  exists M. split; [erewrite calls_matrix_single; [exact EM|reflexivity]|].
  pose proof sqrt2_inv_sq as Q. rewrite mix_matrix in HM. unfold mat2_tr in HM; cbn [m00 m01 m10 m11] in HM.
  set (A := Mat2 _ _ _ _) in HM.
  split.
  - intros from to Hf Ht Hs E1 E2. destruct (HM from to Hf Ht) as [-> _]; auto.
    destruct (gate_one_photon (dL D) A HL) as (G1 & G2 & G3 & G4).
    assert (N2 : forall x, (x * x = /2)%R -> Cnorm2 (RtoC x) = (/2)%R) by (intros x Hx; now rewrite Cnorm2_RtoC).
    destruct (nth a from 0) as [|[|n]]; destruct (nth b from 0) as [|[|m]]; try lia;
      destruct (nth a to 0) as [|[|n']]; destruct (nth b to 0) as [|[|m']]; try lia.
    + rewrite G4. unfold A; cbn [m11]. apply N2. lra.
    + rewrite G3. unfold A; cbn [m01]. apply N2. lra.
    + rewrite G2. unfold A; cbn [m10]. apply N2. lra.
    + rewrite G1. unfold A; cbn [m00]. apply N2. lra.
  - intros H3 from to Hf Ht Hs E1 E2. destruct (HM from to Hf Ht) as [-> _]; auto. rewrite E1, E2.
    assert (GA : forall u v, u + v = 2 -> gate_amp (dL D) A 1 1 u v
       = (boson_poly (m00 A) (m10 A) (m01 A) (m11 A) 1 1 u * RtoC (sqrt (INR (fact u * fact v))))%C).
    { intros u v Huv. unfold gate_amp. replace (dL D <=? 1 + 1) with false by (symmetry; apply Nat.leb_gt; lia).
      rewrite Huv. cbn [Nat.add Nat.eqb]. do 3 f_equal. change (INR (fact 1 * fact 1)) with 1%R. field. }
    split.
    + intros F1 F2. rewrite F1, F2, GA by lia. unfold A; cbn. apply C_eq; simpl; ring.
    + assert (S2 : sqrt (INR 2) = sqrt 2) by (f_equal; simpl; lra).
      assert (Q2 : (sqrt 2 * sqrt 2 = 2)%R) by (apply sqrt_sqrt; lra).
      intros [[F1 F2]|[F1 F2]]; rewrite F1, F2, GA by lia; cbn [fact Nat.mul Nat.add]; rewrite S2;
        unfold A; cbn [boson_poly boson_poly1 m00 m01 m10 m11 Nat.eqb]; unfold Cnorm2; simpl; ring_simplify;
        set (x := (/ sqrt 2)%R) in *; set (y := sqrt 2) in *; clearbody x y.
      * replace (x ^ 4 * y ^ 2)%R with ((x * x) * (x * x) * (y * y))%R by ring. rewrite Q, Q2. lra.
      * replace (x ^ 4 * y ^ 2)%R with ((x * x) * (x * x) * (y * y))%R by ring. rewrite Q, Q2. lra.
Qed.

Example C14_case :
  valid (Dims 3 3 true) [1;2;1] /\ valid (Dims 3 3 true) [0;2;2] /\ same_elsewhere 0 2 [1;2;1] [0;2;2].
Proof.
  split; [split; [reflexivity|repeat constructor]|]. split; [split; [reflexivity|repeat constructor]|].
  intros c H1 H2. destruct c as [|[|[|c]]]; try lia; reflexivity.
Qed.

(** With Fock length 2 (at most one photon per channel) there is no interference: the
    truncation rule lets the pair pass. *)
Theorem C14_length_two_refuted : exists M,
  calls_matrix (Dims 2 2 true) [Mix_50_50 0 1] = Some M /\ valid (Dims 2 2 true) [1;1] /\
  M (index_of_values (Dims 2 2 true) [1;1]) (index_of_values (Dims 2 2 true) [1;1]) = RtoC 1.
Proof.
  set (D := Dims 2 2 true).
  destruct (C10_overfull_pairs_identity_partial D (generic_matrix (PI / 8) PI) 0 1) as (M & EM & HM);
    try (simpl; lia); auto.
  exists M. split; [erewrite calls_matrix_single; [exact EM|reflexivity]|].
  assert (V : valid D [1;1]) by (split; [reflexivity|repeat constructor]). split; [exact V|].
  destruct (HM [1;1] [1;1] V V ltac:(simpl; lia)) as [-> _]. now rewrite leqb_refl_true.
Qed.

(** ** C15 *)
(** What the node does: it reflects with probability 4RT and transmits with (T-R)^2. *)
Theorem C15_actual_probabilities : forall D a b R T,
  2 <= dL D -> a < dN D -> b < dN D -> a <> b -> (b = 0 -> a = 1) ->
  (0 <= R)%R -> (0 <= T)%R -> (R + T = 1)%R ->
  exists M, calls_matrix D [Mix_generic a b R T] = Some M /\
    forall from to, valid D from -> valid D to -> same_elsewhere a b from to ->
      nth a from 0 + nth b from 0 = 1 -> nth a to 0 + nth b to 0 = 1 ->
      Cnorm2 (M (index_of_values D to) (index_of_values D from))
      = if nth a from 0 =? nth a to 0 then ((T - R) ^ 2)%R else (4 * R * T)%R.
Proof.
  intros D a b R T HL Ha Hb Hne Hbad HR HT E.
  assert (Hg : exists g, mix_generic a b R T = Some g).
  { unfold mix_generic. destruct (Req_EM_T _ _); [|contradiction].
    destruct (Rle_dec 0 R); [|contradiction]. destruct (Rle_dec 0 T); [|contradiction]. eauto. }
  destruct Hg as [g Hg]. pose proof (mix_generic_matrix a b R T g Hg) as (_ & _ & _ & Eg).
  match type of Eg with _ = (?m, _) => set (A := m) in Eg end.
  destruct (C05_gate_acts_on_its_channels_partial D A a b) as (M & EM & HM); auto; [lia|].
  exists M. split.
  { erewrite calls_matrix_single; [exact EM|]. cbn [gates_of]. rewrite Hg, Eg. reflexivity. }
  intros from to Hf Ht Hs E1 E2. destruct (HM from to Hf Ht) as [-> _]; auto.
  destruct (gate_one_photon (dL D) (mat2_tr A) HL) as (G1 & G2 & G3 & G4).
  assert (Q : ((2 * sqrt R * sqrt T) * (2 * sqrt R * sqrt T) = 4 * R * T)%R).
  { replace ((2 * sqrt R * sqrt T) * (2 * sqrt R * sqrt T))%R with (4 * (sqrt R * sqrt R) * (sqrt T * sqrt T))%R by ring.
    now rewrite !sqrt_sqrt by auto. }
  destruct (nth a from 0) as [|[|n]]; destruct (nth b from 0) as [|[|m]]; try lia;
    destruct (nth a to 0) as [|[|n']]; destruct (nth b to 0) as [|[|m']]; try lia;
    rewrite ?G1, ?G2, ?G3, ?G4; unfold A; cbn [mat2_tr m00 m01 m10 m11 Nat.eqb]; rewrite Cnorm2_RtoC; auto; ring.
Qed.

(** The requested probability is obtained only for R = 0 and R = 3/4. *)
Theorem C15_when_correct : forall R T : R,
  (R + T = 1)%R -> (4 * R * T = R)%R <-> (R = 0 \/ R = 3 / 4)%R.
Proof.
  intros R T E. replace T with (1 - R)%R by lra. split.
  - intros H. assert (F : (R * (R - 3 / 4) = 0)%R) by lra.
    apply Rmult_integral in F. lra.
  - intros [->| ->]; field.
Qed.

Theorem C15_refuted : exists D R T M from to,
  2 <= dL D /\ (0 <= R)%R /\ (0 <= T)%R /\ (R + T = 1)%R /\ calls_matrix D [Mix_generic 0 1 R T] = Some M /\
  valid D from /\ valid D to /\ from = [1;0] /\ to = [0;1] /\
  Cnorm2 (M (index_of_values D to) (index_of_values D from)) = 1%R /\ R = (1 / 2)%R.
Proof.
  set (D := Dims 2 2 true).
  destruct (C15_actual_probabilities D 0 1 (1/2) (1/2)) as (M & EM & HM); try (simpl; lia); try lra.
  exists D, (1/2)%R, (1/2)%R, M, [1;0], [0;1].
  assert (V1 : valid D [1;0]) by (split; [reflexivity|repeat constructor]).
  assert (V2 : valid D [0;1]) by (split; [reflexivity|repeat constructor]).
  split; [simpl; lia|]. do 3 (split; [lra|]). split; [exact EM|]. split; [exact V1|]. split; [exact V2|].
  split; [reflexivity|]. split; [reflexivity|]. split; [|reflexivity].
  rewrite (HM [1;0] [0;1] V1 V2).
  - cbn. lra.
  - intros c H1 H2. destruct c as [|[|c]]; try lia; simpl; destruct c; reflexivity.
  - reflexivity.
  - reflexivity.
Qed.

Print Assumptions C11_builtin_nodes_unitary.
Print Assumptions C11_builtin_circuits_unitary.
Print Assumptions C12_swap_exchanges.
Print Assumptions C12_polarizing_beamsplitter.
Print Assumptions C13_phase_shift_partial.
Print Assumptions C13_refuted.
Print Assumptions C14_mix_50_50_partial.
Print Assumptions C14_length_two_refuted.
Print Assumptions C15_actual_probabilities.
Print Assumptions C15_when_correct.
Print Assumptions C15_refuted.
