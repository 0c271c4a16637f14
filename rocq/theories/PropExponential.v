(** C53: gates given as exponentials of quadratic Hamiltonians; the wave plate written with
    Hamiltonians against the wave plate node. *)
From Coquelicot Require Import Coquelicot.
From Coq Require Import Reals List Arith Lia Lra Bool Classical_Prop.
From Verif Require Import Prelude NamesModel NamesSpec NamesProofs FockModel FockSpec BosonProofs FockProofs GateProofs PropFock OpticalModel OpticalProofs PropOptical StateModel StateSpec CollectionModel EvalModel OperatorModel OperatorSpec PropOperator ExponentialSpec ExponentialProofs PermanentProofs ReshapeProofs WfProofs.
Import ListNotations.

Lemma transition_two L power hs T : Forall (fun h => h_channels h = two) hs -> hs <> [] -> transition_matrix L power hs = Some T ->
  T = combine_matrices (size_of_basis (Dims L 2 true)) (map (fun h => exponential (size_of_basis (Dims L 2 true)) power (limited_matrix L two (h_operators h))) hs).
Proof.
  intros HF Hne E. unfold transition_matrix in E. assert (Ec : operator_channels hs = two) by (destruct hs as [|h hs]; [contradiction|]; inversion HF; assumption).
  rewrite Ec in E. cbv zeta in E. unfold two at 1 in E. destruct (forallb _ hs); [|discriminate]. injection E as <-. reflexivity.
Qed.

Lemma fold_left_mul Us : forall A, fold_left (fun V U => mat2_mul V U) Us A = mat2_mul A (fold_right mat2_mul mat2_id Us).
Proof.
  induction Us as [|U Us IH]; intros A; cbn [fold_left fold_right]; [now rewrite mat2_mul_id_r|]. now rewrite IH, mat2_mul_assoc.
Qed.

Lemma list_bound L power hs Gs Us N x T : N < L -> 1 <= power -> (0 <= x)%R -> hs <> [] -> Forall (fun h => h_channels h = two) hs ->
  Forall2 (fun h G => acts_like L N (limited_matrix L two (h_operators h)) G x) hs Gs ->
  Forall2 (fun G U => flow G U /\ forall t, unitary2 (U t)) Gs Us ->
  transition_matrix L power hs = Some T ->
  blocks (Dims L 2 true) T /\
  forall n u, n <= N -> u <= N ->
  (Cmod (gam (fold_right mat2_mul mat2_id (map (fun U => U 1%R) Us)) N n u - sector L N T n u)%C <= series_error N (length hs) power x)%R.
Proof.
  intros HN Hp Hx Hne HC HA HF ET. apply transition_two in ET; auto. subst T. set (K := Dims L 2 true). set (delta := (x ^ power / INR (fact power))%R).
  assert (Hd : (0 <= delta)%R) by (unfold delta; apply Rmult_le_pos; [now apply pow_le|left; apply Rinv_0_lt_compat, ExponentialProofs.fact_pos]).
  assert (H2 : Forall2 (fun M U => blocks K M /\ unitary2 U /\ forall n u, n <= N -> u <= N -> (Cmod (gam U N n u - sector L N M n u)%C <= delta)%R)
    (map (fun h => exponential (size_of_basis K) power (limited_matrix L two (h_operators h))) hs) (map (fun U => U 1%R) Us)).
  { clear HC Hne. revert Us HF. induction HA as [|h G hs Gs HhG HA IH]; intros Us HF; inversion HF as [|G' U Gs' Us' [F HU] HF' ]; subst; cbn [map]; constructor; [|now apply IH].
    split; [apply blocks_exponential; apply HhG|]. split; [apply HU|]. intros n u Hn Hu. eapply exponential_bound; eauto. }
  split.
  - apply blocks_combine. clear - H2. induction H2 as [|M U l Us0 (H & _) H2 IH]; constructor; auto.
  - intros n u Hn Hu. pose proof (combine_bound L N HN power delta Hp Hd _ _ H2 (fun i j => if i =? j then RtoC 1 else RtoC 0) mat2_id 0%R
      (blocks_id K) unitary2_id (Rle_refl 0)) as B.
    rewrite fold_left_mul, mat2_mul_id_l in B. rewrite map_length in B. unfold series_error. cbv zeta. fold delta. unfold combine_matrices.
    eapply Rle_trans; [apply B; auto|].
    + intros n' u' Hn' Hu'. unfold sector. rewrite (sector_eqb L N HN), gam_id, (Nat.eqb_sym u' n') by auto. destruct (n' =? u'); rewrite <- (Cmod_0); apply Req_le; f_equal; ring.
    + apply Req_le. ring.
Qed.

(** The matrix entries, for every output. *)
Lemma sector_entry L N T V e n m : N < L -> n + m = N -> (0 <= e)%R -> blocks (Dims L 2 true) T ->
  (forall n u, n <= N -> u <= N -> (Cmod (gam V N n u - sector L N T n u)%C <= e)%R) ->
  forall u v, u < L -> v < L -> (Cmod (T (index_of_values (Dims L 2 true) [n; m]) (index_of_values (Dims L 2 true) [u; v]) - gate_amp L V n m u v)%C <= e)%R.
Proof.
  intros HN En He HB H u v Hu Hv. fold (at_pair L n m). fold (at_pair L u v). destruct (Nat.eq_dec (u + v) (n + m)) as [E|E].
  - rewrite gate_amp_gam by lia. rewrite En. replace m with (N - n) by lia. replace v with (N - u) by lia.
    rewrite <- Cmod_opp. replace (- (T (at_pair L n (N - n)) (at_pair L u (N - u)) - gam V N n u))%C with (gam V N n u - T (at_pair L n (N - n)) (at_pair L u (N - u)))%C by ring.
    apply H; lia.
  - rewrite gate_amp_zero by exact E. rewrite HB; [|apply (at_pair_bound L); lia|apply (at_pair_bound L); lia|].
    + replace (RtoC 0 - RtoC 0)%C with (RtoC 0) by ring. now rewrite Cmod_0.
    + rewrite !(pair_values L N HN) by lia. cbn. lia.
Qed.
Lemma series_error_pos N k power x : (0 <= x)%R -> (0 <= series_error N k power x)%R.
Proof.
  intros Hx. unfold series_error. cbv zeta. assert (Hd : (0 <= x ^ power / INR (fact power))%R) by (apply Rmult_le_pos; [now apply pow_le|left; apply Rinv_0_lt_compat, ExponentialProofs.fact_pos]).
  set (delta := (x ^ power / INR (fact power))%R) in *. clearbody delta.
  apply Rmult_le_pos; [apply Rmult_le_pos; [apply Rmult_le_pos; [apply pos_INR|]|exact Hd]|]; apply pow_le; [apply pos_INR|lra].
Qed.

Lemma quadratic_acts L N G b : N < L -> (Cmod (m00 G) <= b)%R -> (Cmod (m01 G) <= b)%R -> (Cmod (m10 G) <= b)%R -> (Cmod (m11 G) <= b)%R ->
  acts_like L N (limited_matrix L two (h_operators (quadratic G))) G (b * INR (2 * N + 1)).
Proof.
  intros HN B00 B01 B10 B11. assert (Hb : (0 <= b)%R) by (eapply Rle_trans; [apply Cmod_ge_0|exact B00]). split; [|split; [|split]].
  - apply (blocks_limited L two); [lia|]. cbn [h_operators quadratic]. intros op Hop. repeat destruct Hop as [<-|Hop]; [..|destruct Hop]; (split; [cbn; lia|split; reflexivity]).
  - intros n u Hn Hu. rewrite sector_limited by auto. cbn [h_operators quadratic]. rewrite !Csum_cons, Csum_nil.
    rewrite contribution_00, contribution_01, contribution_10, contribution_11 by auto. unfold sector_gen. destruct (n =? u), (n =? S u), (S n =? u); ring.
  - apply Rmult_le_pos; [exact Hb|apply pos_INR].
  - intros u Hu. eapply Rle_trans; [now apply sector_columns|].
    assert (E1 : INR (2 * N + 1) = (INR u + INR (N - u) + INR (S N))%R) by (rewrite <- !plus_INR; f_equal; lia).
    rewrite E1. pose proof (pos_INR u). pose proof (pos_INR (N - u)). pose proof (pos_INR (S N)). nra.
Qed.

(** C53: a list of quadratic Hamiltonians acts, up to the error of the truncated series, like the
    optical gate with the matrix exp(G1) exp(G2) ... (the last one acts first). *)
Theorem C53_quadratic : forall L power b Gs Us T n m u v, let K := Dims L 2 true in
  1 <= power -> n + m < L -> u < L -> v < L -> Gs <> [] ->
  Forall2 (fun G U => flow G U /\ (forall t, unitary2 (U t)) /\
    (Cmod (m00 G) <= b /\ Cmod (m01 G) <= b /\ Cmod (m10 G) <= b /\ Cmod (m11 G) <= b)%R) Gs Us ->
  transition_matrix L power (map quadratic Gs) = Some T ->
  let k := length Gs in let N := n + m in
  let delta := ((b * INR (2 * N + 1)) ^ power / INR (fact power))%R in
  (Cmod (T (index_of_values K [n; m]) (index_of_values K [u; v]) - gate_amp L (fold_right mat2_mul mat2_id (map (fun U => U 1%R) Us)) n m u v)%C
   <= INR k * INR (N + 1) ^ k * delta * (1 + delta) ^ k)%R.
Proof.
  intros L power b Gs Us T n m u v K Hp HN Hu Hv Hne HF ET k N delta.
  assert (Hb : (0 <= b)%R).
  { destruct HF as [|G U Gs Us (_ & _ & B & _) _]; [contradiction|]. eapply Rle_trans; [apply Cmod_ge_0|exact B]. }
  assert (Hx : (0 <= b * INR (2 * N + 1))%R) by (apply Rmult_le_pos; [exact Hb|apply pos_INR]).
  destruct (list_bound L power (map quadratic Gs) Gs Us N (b * INR (2 * N + 1)) T HN Hp Hx) as [HB H]; auto.
  - destruct Gs; [contradiction|discriminate].
  - apply Forall_forall. intros h Hh. apply in_map_iff in Hh. destruct Hh as (G & <- & _). reflexivity.
  - clear ET Hne. induction HF as [|G U Gs' Us' (_ & _ & B00 & B01 & B10 & B11) HF IH]; cbn [map]; constructor; auto. now apply quadratic_acts.
  - eapply PropEval.Forall2_impl; [|exact HF]. intros G U (F & HU & _). now split.
  - rewrite map_length in H. fold k in H. unfold series_error in H. cbv zeta in H. fold delta in H. rewrite (Nat.add_1_r N).
    exact (sector_entry L N T _ _ n m HN eq_refl (series_error_pos N k power _ Hx) HB H u v Hu Hv).
Qed.
Print Assumptions C53_quadratic.

(** ** The wave plate *)
Definition rotation (x : R) : mat2 := Mat2 (RtoC (cos x)) (RtoC (sin x)) (RtoC (- sin x)) (RtoC (cos x)).
Definition phases (x y : R) : mat2 := Mat2 (cis x) (RtoC 0) (RtoC 0) (cis y).

Lemma sc1 x : (cos x * cos x + sin x * sin x = 1)%R.
Proof. pose proof (sin2_cos2 x) as H. unfold Rsqr in H. lra. Qed.
Lemma rotation_unitary x : unitary2 (rotation x).
Proof.
  pose proof (sc1 x). split; unfold mat2_mul, mat2_adj, rotation, mat2_id; cbn [m00 m01 m10 m11]; rewrite !Cconj_RtoC; f_equal; apply C_eq; cbn; lra.
Qed.
Lemma phases_unitary x y : unitary2 (phases x y).
Proof.
  pose proof (sc1 x). pose proof (sc1 y). split; unfold mat2_mul, mat2_adj, phases, mat2_id, cis; cbn [m00 m01 m10 m11]; f_equal; apply C_eq; cbn; lra.
Qed.
Lemma cderiv_real (f : R -> R) t (a : R) : is_derive f t a -> cderiv (fun x => RtoC (f x)) t (RtoC a).
Proof. intros H. split; [exact H|exact (is_derive_const (K := R_AbsRing) (V := R_NormedModule) 0%R t)]. Qed.
Lemma cos_deriv theta t : is_derive (fun x => cos (x * theta)) t (- (theta * sin (t * theta)))%R.
Proof. auto_derive; [exact I|]. ring. Qed.
Lemma sin_deriv theta t : is_derive (fun x => sin (x * theta)) t (theta * cos (t * theta))%R.
Proof. auto_derive; [exact I|]. ring. Qed.
Lemma msin_deriv theta t : is_derive (fun x => - sin (x * theta))%R t (- (theta * cos (t * theta)))%R.
Proof. auto_derive; [exact I|]. ring. Qed.
Lemma rotation_flow theta : flow (Mat2 (RtoC 0) (RtoC theta) (RtoC (- theta)) (RtoC 0)) (fun t => rotation (t * theta)).
Proof.
  split.
  - rewrite Rmult_0_l. unfold rotation, mat2_id. rewrite cos_0, sin_0, Ropp_0. reflexivity.
  - intros t. unfold mat2_mul, rotation. cbn [m00 m01 m10 m11]. split; [|split; [|split]].
    + eapply cderiv_eq; [|apply cderiv_real, cos_deriv]. apply C_eq; cbn; ring.
    + eapply cderiv_eq; [|apply cderiv_real, sin_deriv]. apply C_eq; cbn; ring.
    + eapply cderiv_eq; [|apply cderiv_real, msin_deriv]. apply C_eq; cbn; ring.
    + eapply cderiv_eq; [|apply cderiv_real, cos_deriv]. apply C_eq; cbn; ring.
Qed.
Lemma cis_deriv theta t : cderiv (fun x => cis (x * theta)) t ((0, theta)%R * cis (t * theta))%C.
Proof.
  split; unfold cis; cbn [fst snd Cmult].
  - replace (0 * cos (t * theta) - theta * sin (t * theta))%R with (- (theta * sin (t * theta)))%R by ring. apply cos_deriv.
  - replace (0 * sin (t * theta) + theta * cos (t * theta))%R with (theta * cos (t * theta))%R by ring. apply sin_deriv.
Qed.
Lemma phases_flow x y : flow (Mat2 (0, x)%R (RtoC 0) (RtoC 0) (0, y)%R) (fun t => phases (t * x) (t * y)).
Proof.
  split.
  - rewrite !Rmult_0_l. unfold phases, mat2_id, cis. now rewrite cos_0, sin_0.
  - intros t. unfold mat2_mul, phases. cbn [m00 m01 m10 m11]. split; [|split; [|split]].
    + eapply cderiv_eq; [|apply cis_deriv]. ring.
    + eapply cderiv_eq; [|apply cderiv_const]. ring.
    + eapply cderiv_eq; [|apply cderiv_const]. ring.
    + eapply cderiv_eq; [|apply cis_deriv]. ring.
Qed.

Definition rotating (x : R) : mat2 := Mat2 (RtoC 0) (RtoC x) (RtoC (- x)) (RtoC 0).
Definition phasing (x y : R) : mat2 := Mat2 (0, x)%R (RtoC 0) (RtoC 0) (0, y)%R.
Lemma Cmod_imag x : Cmod (0, x)%R = Rabs x.
Proof. unfold Cmod. cbn [fst snd]. rewrite <- (sqrt_Rsqr_abs x). f_equal. unfold Rsqr. ring. Qed.

Lemma rotating_acts L N theta b : N < L -> (Rabs theta <= b)%R ->
  acts_like L N (limited_matrix L two [([Plus;Skip;Minus;Skip], RtoC theta); ([Minus;Skip;Plus;Skip], RtoC (- theta))]) (rotating theta) (b * INR (N + 1)).
Proof.
  intros HN Hb. assert (Hb0 : (0 <= b)%R) by (pose proof (Rabs_pos theta); lra). split; [|split; [|split]].
  - apply (blocks_limited L two); [lia|]. intros op Hop. repeat destruct Hop as [<-|Hop]; [..|destruct Hop]; (split; [cbn; lia|split; reflexivity]).
  - intros n u Hn Hu. rewrite sector_limited by auto. rewrite !Csum_cons, Csum_nil.
    rewrite contribution_01, contribution_10 by auto. unfold sector_gen, rotating. cbn [m00 m01 m10 m11]. destruct (n =? u), (n =? S u), (S n =? u); ring.
  - apply Rmult_le_pos; [exact Hb0|apply pos_INR].
  - intros u Hu. eapply Rle_trans; [now apply sector_columns|]. unfold rotating. cbn [m00 m01 m10 m11]. rewrite !Cmod_R, Rabs_R0, Rabs_Ropp. rewrite (Nat.add_1_r N).
    pose proof (pos_INR (S N)). nra.
Qed.
Lemma phasing_bound N x y b : (Rabs x <= b)%R -> (Rabs y <= b)%R -> forall u, u <= N ->
  (Rsum (seq 0 (S N)) (fun k => Cmod (sector_gen (phasing x y) N k u)) <= b * INR (N + 1))%R.
Proof.
  intros Hx Hy u Hu. assert (Hb0 : (0 <= b)%R) by (pose proof (Rabs_pos x); lra). eapply Rle_trans; [now apply sector_columns|]. unfold phasing. cbn [m00 m01 m10 m11].
  rewrite !Cmod_imag, !Cmod_0. replace (N + 1) with (u + (N - u) + 1) by lia. rewrite !plus_INR. cbn [INR].
  pose proof (pos_INR u). pose proof (pos_INR (N - u)). nra.
Qed.
Lemma splitting_acts L N x b : N < L -> (Rabs x <= b)%R ->
  acts_like L N (limited_matrix L two [([Plus;Minus;Skip;Skip], (0, - x)%R); ([Skip;Skip;Plus;Minus], (0, x)%R)]) (phasing (- x) x) (b * INR (N + 1)).
Proof.
  intros HN Hb. assert (Hb0 : (0 <= b)%R) by (pose proof (Rabs_pos x); lra). split; [|split; [|split]].
  - apply (blocks_limited L two); [lia|]. intros op Hop. repeat destruct Hop as [<-|Hop]; [..|destruct Hop]; (split; [cbn; lia|split; reflexivity]).
  - intros n u Hn Hu. rewrite sector_limited by auto. rewrite !Csum_cons, Csum_nil.
    rewrite contribution_00', contribution_11' by auto. unfold sector_gen, phasing. cbn [m00 m01 m10 m11]. rewrite !INC_S.
    destruct (n =? u), (n =? S u), (S n =? u); apply C_eq; cbn; ring.
  - apply Rmult_le_pos; [exact Hb0|apply pos_INR].
  - apply phasing_bound; [now rewrite Rabs_Ropp|exact Hb].
Qed.
Lemma common_acts L N x b : N < L -> (Rabs x <= b)%R ->
  acts_like L N (limited_matrix L two [([Minus;Plus;Skip;Skip], (0, x)%R); ([Skip;Skip;Minus;Plus], (0, x)%R)]) (phasing x x) (b * INR (N + 1)).
Proof.
  intros HN Hb. assert (Hb0 : (0 <= b)%R) by (pose proof (Rabs_pos x); lra). split; [|split; [|split]].
  - apply (blocks_limited L two); [lia|]. intros op Hop. repeat destruct Hop as [<-|Hop]; [..|destruct Hop]; (split; [cbn; lia|split; reflexivity]).
  - intros n u Hn Hu. rewrite sector_limited by auto. rewrite !Csum_cons, Csum_nil.
    rewrite contribution_00, contribution_11 by auto. unfold sector_gen, phasing. cbn [m00 m01 m10 m11].
    destruct (n =? u), (n =? S u), (S n =? u); ring.
  - apply Rmult_le_pos; [exact Hb0|apply pos_INR].
  - apply phasing_bound; exact Hb.
Qed.

(** The product of the four gates is the matrix of the wave plate node. *)
Lemma wave_plate_product theta phi :
  fold_right mat2_mul mat2_id [rotation (- theta); phases (- (phi / 2)) (phi / 2); rotation theta; phases (phi / 2) (phi / 2)] = generic_matrix theta phi.
Proof.
  cbn [fold_right]. rewrite mat2_mul_id_r. unfold generic_matrix, rotation, phases, mat2_mul, cis. cbn [m00 m01 m10 m11].
  rewrite cos_neg, sin_neg, cos_neg, sin_neg, Ropp_involutive.
  assert (Ec : cos phi = (cos (phi / 2) * cos (phi / 2) - sin (phi / 2) * sin (phi / 2))%R) by (replace phi with (2 * (phi / 2))%R at 1 by field; apply cos_2a).
  assert (Es : sin phi = (2 * sin (phi / 2) * cos (phi / 2))%R) by (replace phi with (2 * (phi / 2))%R at 1 by field; apply sin_2a).
  rewrite Ec, Es. pose proof (sc1 (phi / 2)) as Hs. set (c := cos (phi / 2)) in *. set (s := sin (phi / 2)) in *. clearbody c s.
  assert (Hc : (c * c = 1 - s * s)%R) by lra. f_equal; apply C_eq; cbn; ring [Hc].
Qed.

Lemma half_bound phi b : (Rabs phi / 2 <= b)%R -> (Rabs (phi / 2) <= b)%R.
Proof. intros H. unfold Rdiv. rewrite Rabs_mult, (Rabs_pos_eq (/ 2)) by lra. exact H. Qed.

Lemma wave_plate_bound L power theta phi b N T : N < L -> 1 <= power -> (Rabs theta <= b)%R -> (Rabs phi / 2 <= b)%R ->
  transition_matrix L power (wave_plate_hamiltonians theta phi) = Some T ->
  blocks (Dims L 2 true) T /\ forall n u, n <= N -> u <= N ->
  (Cmod (gam (generic_matrix theta phi) N n u - sector L N T n u)%C <= series_error N 4 power (b * INR (N + 1)))%R.
Proof.
  intros HN Hp Ht Hf ET. apply half_bound in Hf. assert (Hb : (0 <= b)%R) by (pose proof (Rabs_pos theta); lra).
  assert (Hx : (0 <= b * INR (N + 1))%R) by (apply Rmult_le_pos; [exact Hb|apply pos_INR]).
  rewrite <- wave_plate_product.
  replace [rotation (- theta); phases (- (phi / 2)) (phi / 2); rotation theta; phases (phi / 2) (phi / 2)]
    with (map (fun U : R -> mat2 => U 1%R) [fun t => rotation (t * - theta); fun t => phases (t * - (phi / 2)) (t * (phi / 2)); fun t => rotation (t * theta); fun t => phases (t * (phi / 2)) (t * (phi / 2))])
    by (cbn [map]; now rewrite !Rmult_1_l).
  apply (list_bound L power (wave_plate_hamiltonians theta phi) [rotating (- theta); phasing (- (phi / 2)) (phi / 2); rotating theta; phasing (phi / 2) (phi / 2)] _ N (b * INR (N + 1)) T HN Hp Hx); auto.
  - discriminate.
  - repeat constructor.
  - unfold wave_plate_hamiltonians. cbv zeta. constructor; [|constructor; [|constructor; [|constructor; [|constructor]]]]; cbn [h_operators].
    + replace (RtoC theta) with (RtoC (- - theta)) by (f_equal; ring). apply rotating_acts; [exact HN|now rewrite Rabs_Ropp].
    + replace (- phi / 2)%R with (- (phi / 2))%R by field. now apply splitting_acts.
    + now apply rotating_acts.
    + replace (- (- phi / 2))%R with (phi / 2)%R by field. now apply common_acts.
  - constructor; [|constructor; [|constructor; [|constructor; [|constructor]]]]; (split; [apply rotation_flow || apply phases_flow|intros t; apply rotation_unitary || apply phases_unitary]).
Qed.

(** C53: the transition matrix of the wave plate written with Hamiltonians (terms of the series up to
    [power] - 1) and the matrix of the wave plate node agree on every input with fewer than L photons. *)
Theorem C53_wave_plate : forall L power theta phi b T M n m u v, let K := Dims L 2 true in
  1 <= power -> (Rabs theta <= b)%R -> (Rabs phi / 2 <= b)%R -> n + m < L -> u < L -> v < L ->
  transition_matrix L power (wave_plate_hamiltonians theta phi) = Some T ->
  calls_matrix K [Wave_plate 0 1 theta phi] = Some M ->
  let N := n + m in
  let delta := ((b * INR (N + 1)) ^ power / INR (fact power))%R in
  (Cmod (T (index_of_values K [n; m]) (index_of_values K [u; v]) - M (index_of_values K [u; v]) (index_of_values K [n; m]))%C
   <= 4 * INR (N + 1) ^ 4 * delta * (1 + delta) ^ 4)%R.
Proof.
  intros L power theta phi b T M n m u v K Hp Ht Hf HN Hu Hv ET EM N delta.
  destruct (wave_plate_bound L power theta phi b N T HN Hp Ht Hf ET) as [HB H].
  assert (Hx : (0 <= b * INR (N + 1))%R) by (apply Rmult_le_pos; [pose proof (Rabs_pos theta); lra|apply pos_INR]).
  pose proof (sector_entry L N T _ _ n m HN eq_refl (series_error_pos N 4 power _ Hx) HB H u v Hu Hv) as B.
  destruct (C05_gate_acts_on_its_channels_partial K (generic_matrix theta phi) 0 1) as (M' & EM' & HM); [unfold K, N in *; cbn; lia|unfold K; cbn; lia|unfold K; cbn; lia|lia|lia|].
  rewrite (calls_matrix_single K (Wave_plate 0 1 theta phi) (generic_matrix theta phi, [0; 1]) eq_refl) in EM.
  pose proof (eq_trans (eq_sym EM') EM) as EMM. injection EMM as <-.
  assert (Vn : valid K [n; m]) by (split; [reflexivity|repeat constructor; unfold K, N in *; cbn; lia]).
  assert (Vu : valid K [u; v]) by (split; [reflexivity|repeat constructor; assumption]).
  rewrite (proj1 (HM [n; m] [u; v] Vn Vu)); [|intros [|[|c]] H1 H2; [contradiction|contradiction|now destruct c]].
  cbn [nth]. unfold series_error in B. cbv zeta in B. fold delta in B. rewrite (Nat.add_1_r N). replace 4%R with (INR 4) by (cbn; lra).
  exact B.
Qed.
Print Assumptions C53_wave_plate.

(** ... and with enough terms of the series the difference is as small as desired. *)
Theorem C53_wave_plate_limit : forall L theta phi M n m u v (e : R), let K := Dims L 2 true in
  n + m < L -> u < L -> v < L -> (0 < e)%R -> calls_matrix K [Wave_plate 0 1 theta phi] = Some M ->
  exists p0, forall power, p0 <= power -> exists T, transition_matrix L power (wave_plate_hamiltonians theta phi) = Some T /\
  (Cmod (T (index_of_values K [n; m]) (index_of_values K [u; v]) - M (index_of_values K [u; v]) (index_of_values K [n; m]))%C < e)%R.
Proof.
  intros L theta phi M n m u v e K HN Hu Hv He EM. set (b := Rmax (Rabs theta) (Rabs phi / 2)). set (N := n + m) in *.
  assert (Hd : (1 <= INR (N + 1) ^ 4)%R) by (apply pow_R1_Rle; rewrite Nat.add_1_r, S_INR; pose proof (pos_INR N); lra).
  assert (Hb : (0 <= b)%R) by (eapply Rle_trans; [apply Rabs_pos|apply Rmax_l]).
  set (d4 := (INR (N + 1) ^ 4)%R) in *. set (g := Rmin 1 (e / (65 * d4))).
  assert (Hg : (0 < g)%R) by (unfold g; apply Rmin_glb_lt; [lra|apply Rdiv_lt_0_compat; lra]).
  destruct (cv_speed_pow_fact (b * INR (N + 1)) g Hg) as (p0 & Hp0). exists (Nat.max 1 p0). intros power Hpw.
  assert (exists T, transition_matrix L power (wave_plate_hamiltonians theta phi) = Some T) as (T & ET) by (unfold transition_matrix; cbv zeta; cbn; eexists; reflexivity).
  exists T. split; [exact ET|].
  eapply Rle_lt_trans; [apply (C53_wave_plate L power theta phi b T M n m u v); auto; try lia; try apply Rmax_l; apply Rmax_r|]. cbv zeta. fold N. fold d4.
  assert (Hd0 : (0 <= (b * INR (N + 1)) ^ power / INR (fact power))%R).
  { apply Rmult_le_pos; [apply pow_le, Rmult_le_pos; [exact Hb|apply pos_INR]|left; apply Rinv_0_lt_compat, ExponentialProofs.fact_pos]. }
  specialize (Hp0 power ltac:(lia)). unfold R_dist in Hp0. rewrite Rminus_0_r, Rabs_pos_eq in Hp0 by exact Hd0.
  set (delta := ((b * INR (N + 1)) ^ power / INR (fact power))%R) in *. clearbody delta.
  assert (H1 : (delta < 1)%R) by (eapply Rlt_le_trans; [exact Hp0|apply Rmin_l]).
  assert (H2 : (delta < e / (65 * d4))%R) by (eapply Rlt_le_trans; [exact Hp0|apply Rmin_r]).
  apply (Rmult_lt_compat_l (65 * d4)) in H2; [|lra]. replace (65 * d4 * (e / (65 * d4)))%R with e in H2 by (field; lra).
  assert (H3 : ((1 + delta) ^ 4 <= 16)%R).
  { replace 16%R with ((1 + 1) ^ 4)%R by ring. apply pow_incr. lra. }
  assert (H4 : (4 * d4 * delta * (1 + delta) ^ 4 <= 4 * d4 * delta * 16)%R) by (apply Rmult_le_compat_l; [|exact H3]; apply Rmult_le_pos; [apply Rmult_le_pos|]; lra).
  assert (0 <= d4 * delta)%R by (apply Rmult_le_pos; lra). lra.
Qed.
Print Assumptions C53_wave_plate_limit.

(** ** Circuits *)
Lemma removed_bound eps T T' i o : small_removed eps T T' -> (Cmod (T' i o - T i o)%C <= sqrt eps + 1 / 20000)%R.
Proof.
  intros H. destruct (H i o) as [H1 H2]. pose proof (sqrt_pos eps) as Hs. destruct (round4_near (Cmod (T i o))) as (k & _ & Hk & Ek).
  destruct (Rlt_dec eps ((IZR k / 10000) * (IZR k / 10000))) as [Hu|Hu].
  - rewrite H1; [|exists k; auto]. replace (T i o - T i o)%C with (RtoC 0) by ring. rewrite Cmod_0. lra.
  - rewrite H2.
    + replace (RtoC 0 - T i o)%C with (- T i o)%C by ring. rewrite Cmod_opp.
      assert (Hr : (IZR k / 10000 <= sqrt eps)%R).
      { destruct (Rle_dec (IZR k / 10000) 0) as [|Hp]; [lra|]. rewrite <- (sqrt_square (IZR k / 10000)) by lra. apply sqrt_le_1_alt. lra. }
      revert Hk. unfold Rabs. destruct (Rcase_abs _); lra.
    + intros (l & Hl & El & Hlt). assert (l = k) as -> by (eapply nearest_unique; eauto). contradiction.
Qed.

Lemma plate_state D eps ncl theta phi b h v T M st st' : 
  h < dN D -> v < dN D -> h <> v -> (v = 0 -> h = 1) -> (Rabs theta <= b)%R -> (Rabs phi / 2 <= b)%R -> 1 <= dL D ->
  transition_matrix (dL D) 25 (wave_plate_hamiltonians theta phi) = Some T ->
  calls_matrix D [Wave_plate h v theta phi] = Some M ->
  wf_state D st -> (forall vs, valid D vs -> (Cmod (amp_of D st vs) <= 1)%R) ->
  apply_operator D (Dims (dL D) 2 true) ncl eps T [h; v] st = Some st' ->
  close_to_gate D h v M (plate_error eps b) st st'.
Proof.
  intros Hh Hv Hhv Hv0 Ht Hf HL ET EM W HA E. set (K := Dims (dL D) 2 true).
  assert (ND : NoDup [h; v]) by (constructor; [intros [|[]]; congruence|constructor; [intros []|constructor]]).
  assert (HF : Forall (fun c => c < dN D) [h; v]) by (repeat constructor; assumption).
  destruct (C41_state D K ncl eps T [h; v] st st' HL eq_refl ND eq_refl W E HF) as (T' & HT' & S1 & S2 & S3 & S4).
  split; [exact S1|]. split; [exact S2|]. split; [exact S3|]. intros to Vt HN. set (N := nth h to 0 + nth v to 0) in *.
  assert (H25 : 1 <= 25) by lia.
  destruct (wave_plate_bound (dL D) 25 theta phi b N T HN H25 Ht Hf ET) as [HB HG].
  assert (Hx : (0 <= b * INR (N + 1))%R) by (apply Rmult_le_pos; [pose proof (Rabs_pos theta); lra|apply pos_INR]).
  set (put := fun us : values => replace_values [h; v] us to).
  assert (Hlen : Forall (fun c => c < length to) [h; v]) by (rewrite (proj1 Vt); exact HF).
  assert (Hnp : forall a c, put [a; c] = set_nth (set_nth to h a) v c) by reflexivity.
  assert (Hput : forall a c, nth h (put [a; c]) 0 = a /\ nth v (put [a; c]) 0 = c).
  { intros a c. pose proof (selected_replace [h; v] ND [a; c] to eq_refl Hlen) as Es. unfold selected in Es. cbn [map] in Es. fold (put [a; c]) in Es. now injection Es. }
  assert (Vput : forall a c, a < dL D -> c < dL D -> valid D (put [a; c])).
  { intros a c Ha Hc. apply replace_values_valid; [exact Vt|]. repeat constructor; assumption. }
  rewrite (S4 to (fun us => if contained K us then amp_of D st (put us) else RtoC 0) Vt).
  2:{ split.
      - intros us Hus. destruct (contained K us) eqn:Ec; [|reflexivity]. apply contained_spec in Ec. contradiction.
      - intros vs Vs Hs. replace (contained K (selected [h; v] vs)) with true.
        2:{ symmetry. apply contained_spec. split; [reflexivity|]. apply Forall_cons; [now apply (ReshapeProofs.nth_valid D vs)|]. apply Forall_cons; [now apply (ReshapeProofs.nth_valid D vs)|apply Forall_nil]. }
        f_equal. apply replace_values_eq; [exact ND|reflexivity|exact Hlen|transitivity (dN D); [apply Vs|symmetry; apply Vt]|]. split; [reflexivity|]. intros c Hc. symmetry. now apply Hs. }
  unfold matrix_action. replace (contained K (selected [h; v] to)) with true.
  2:{ symmetry. apply contained_spec. split; [reflexivity|]. apply Forall_cons; [now apply (ReshapeProofs.nth_valid D to)|]. apply Forall_cons; [now apply (ReshapeProofs.nth_valid D to)|apply Forall_nil]. }
  change (selected [h; v] to) with [nth h to 0; nth v to 0]. change (index_of_values K [nth h to 0; nth v to 0]) with (at_pair (dL D) (nth h to 0) (nth v to 0)).
  set (j := at_pair (dL D) (nth h to 0) (nth v to 0)).
  destruct (C05_gate_acts_on_its_channels_partial D (generic_matrix theta phi) h v HL Hh Hv Hhv Hv0) as (M' & EM' & HM).
  rewrite (calls_matrix_single D (Wave_plate h v theta phi) (generic_matrix theta phi, [h; v]) eq_refl) in EM.
  pose proof (eq_trans (eq_sym EM') EM) as EMM. injection EMM as <-. clear EM EM'. change (mat2_tr (generic_matrix theta phi)) with (generic_matrix theta phi) in HM.
  assert (HTz : forall i o, i < size_of_basis K -> o < size_of_basis K -> list_sum (values_from_index K i) <> list_sum (values_from_index K o) -> T' i o = RtoC 0).
  { intros i o Hi Ho Hs. destruct (HT' i o) as [A1 A2]. pose proof (HB i o Hi Ho Hs) as Z. destruct (classic (used eps (T i o))) as [Hu|Hu]; [rewrite A1 by exact Hu; exact Z|now apply A2]. }
  assert (Ebp : forall a c, a < dL D -> c < dL D -> at_pair (dL D) a c < size_of_basis K) by (intros; now apply at_pair_bound).
  assert (Hnh : nth h to 0 < dL D) by lia. assert (Hnv : nth v to 0 < dL D) by lia.
  assert (Pv : forall a c, a < dL D -> c < dL D -> values_from_index K (at_pair (dL D) a c) = [a; c]) by (intros; now apply (pair_values (dL D) N HN)).
  (* the two sums over the distributions of the photons *)
  rewrite (Csum_image (seq 0 (size_of_basis K)) (seq 0 (S N)) (fun a => at_pair (dL D) a (N - a))).
  2: apply seq_NoDup. 2: apply seq_NoDup.
  2:{ intros x y Hxx Hyy Exy. apply in_seq in Hxx, Hyy. apply Nat.eqb_eq in Exy. rewrite (sector_eqb (dL D) N HN) in Exy by lia. now apply Nat.eqb_eq. }
  2:{ intros x Hxx. apply in_seq in Hxx. apply in_seq. pose proof (Ebp x (N - x) ltac:(lia) ltac:(lia)). lia. }
  2:{ intros i Hi Hno. apply in_seq in Hi. rewrite HTz; [ring|lia|apply Ebp; assumption|].
      unfold j. rewrite (Pv (nth h to 0)) by assumption. pose proof (values_from_index_valid K i HL) as [Vl Vf]. destruct (values_from_index K i) as [|a [|c [|]]] eqn:Ei; try discriminate Vl.
      inversion Vf as [|? ? Ha Vf']. inversion Vf' as [|? ? Hc _]. subst. cbn. intros Es. apply (Hno a); [apply in_seq; unfold N; lia|].
      rewrite <- (index_values_roundtrip K i) by (exact HL || apply Hi). rewrite Ei. unfold at_pair. do 3 f_equal. unfold N. lia. }
  rewrite (Csum_image (all_values D) (seq 0 (S N)) (fun a => put [a; N - a])).
  2: now apply all_values_NoDup. 2: apply seq_NoDup.
  2:{ intros x y _ _ Exy. rewrite <- (proj1 (Hput x (N - x))), Exy. apply Hput. }
  2:{ intros x Hxx. apply in_seq in Hxx. apply all_values_in; [exact HL|]. apply Vput; lia. }
  2:{ intros from Hfr Hno. apply all_values_in in Hfr; [|exact HL]. destruct (HM from to Hfr Vt) as [M1 M2].
      destruct (classic (same_elsewhere h v from to)) as [Hse|Hse]; [|rewrite M2 by exact Hse; ring]. rewrite M1 by exact Hse. rewrite gate_amp_zero; [ring|]. fold N. intros Es.
      apply (Hno (nth h from 0)); [apply in_seq; lia|]. replace (N - nth h from 0) with (nth v from 0) by lia. symmetry.
      apply replace_values_eq; [exact ND|reflexivity|exact Hlen|transitivity (dN D); [apply Hfr|symmetry; apply Vt]|]. split; [reflexivity|]. intros c Hc. symmetry. apply Hse; intros ->; apply Hc; [now left|right; now left]. }
  replace (Csum (seq 0 (S N)) _ - Csum (seq 0 (S N)) _)%C with
    (Csum (seq 0 (S N)) (fun a => amp_of D st (put [a; (N - a)%nat]) * (T' (at_pair (dL D) a (N - a)%nat) j - gate_amp (dL D) (generic_matrix theta phi) a (N - a)%nat (nth h to 0%nat) (nth v to 0%nat)))%C).
  2:{ match goal with |- Csum _ ?f = (Csum _ ?g - Csum _ ?k)%C => assert (Ed : forall a, In a (seq 0 (S N)) -> f a = (g a + RtoC (-1) * k a)%C) end.
      - intros a Ha. apply in_seq in Ha. cbv beta. rewrite (Pv a (N - a)) by lia.
        replace (contained K [a; N - a]) with true by (symmetry; apply contained_spec; split; [reflexivity|repeat constructor; cbn; lia]).
        destruct (Hput a (N - a)) as [P1 P2]. rewrite (proj1 (HM (put [a; N - a]) to (Vput a (N - a) ltac:(lia) ltac:(lia)) Vt)).
        + rewrite P1, P2. apply C_eq; cbn; ring.
        + intros c Hc1 Hc2. unfold put. apply replace_values_other. intros [|[|[]]]; congruence.
      - rewrite (Csum_ext _ _ _ Ed), Csum_plus, Csum_scal_l. apply C_eq; cbn; ring. }
  eapply Rle_trans; [apply Cmod_Csum|]. unfold plate_error.
  rewrite <- (seq_length (N + 1) 0) at 1. rewrite <- (Rsum_const (seq 0 (N + 1))). rewrite (Nat.add_1_r N) at 1. apply Rsum_le. intros a Ha. apply in_seq in Ha.
  rewrite Cmod_mult. pose proof (HA (put [a; N - a]) (Vput a (N - a) ltac:(lia) ltac:(lia))) as B1.
  pose proof (sector_entry (dL D) N T _ _ a (N - a) HN ltac:(lia) (series_error_pos N 4 25 _ Hx) HB HG (nth h to 0) (nth v to 0) Hnh Hnv) as B2.
  fold (at_pair (dL D) a (N - a)) in B2. fold (at_pair (dL D) (nth h to 0) (nth v to 0)) in B2. fold j in B2.
  pose proof (removed_bound eps T T' (at_pair (dL D) a (N - a)) j HT') as B3.
  set (g := gate_amp (dL D) (generic_matrix theta phi) a (N - a) (nth h to 0) (nth v to 0)) in *. set (i := at_pair (dL D) a (N - a)) in *.
  assert (B4 : (Cmod (T' i j - g)%C <= series_error N 4 25 (b * INR (N + 1)) + (sqrt eps + 1 / 20000))%R).
  { replace (T' i j - g)%C with ((T i j - g) + (T' i j - T i j))%C by ring. eapply Rle_trans; [apply Cmod_triangle|]. lra. }
  pose proof (Cmod_ge_0 (T' i j - g)%C). pose proof (Cmod_ge_0 (amp_of D st (put [a; N - a]))). nra.
Qed.

Lemma plate_exists D h v theta phi : 1 <= dL D -> h < dN D -> v < dN D -> h <> v -> (v = 0 -> h = 1) -> exists M, calls_matrix D [Wave_plate h v theta phi] = Some M.
Proof.
  intros HL Hh Hv Hhv Hv0. destruct (C05_gate_acts_on_its_channels_partial D (generic_matrix theta phi) h v HL Hh Hv Hhv Hv0) as (M & EM & _).
  exists M. rewrite (calls_matrix_single D (Wave_plate h v theta phi) (generic_matrix theta phi, [h; v]) eq_refl). exact EM.
Qed.

(** C53: in a circuit the wave plate written with Hamiltonians does, up to the error, what the wave
    plate node does. *)
Theorem C53_circuit : forall X rnd rnd' c k h v theta phi b M cs cs', let D := co_D cs in
  1 <= dL D -> h < dN D -> v < dN D -> h <> v -> (v = 0 -> h = 1) ->
  k < length (c_nodes c) -> node_at c k = wave_plate_from_hamiltonian rnd' h v theta phi ->
  (Rabs theta <= b)%R -> (Rabs phi / 2 <= b)%R ->
  calls_matrix D [Wave_plate h v theta phi] = Some M ->
  Forall (fun it => wf_state D (snd it) /\ forall vs, valid D vs -> (Cmod (amp_of D (snd it) vs) <= 1)%R) (co_items cs) ->
  evaluate_nodes X rnd c [k] cs = Ok cs' ->
  Forall2 (fun it it' => close_to_gate D h v M (plate_error (co_eps cs) b) (snd it) (snd it')) (co_items cs) (co_items cs').
Proof.
  intros X rnd rnd' c k h v theta phi b M cs cs' D HL Hh Hv Hhv Hv0 Hk En Ht Hf EM HW E. rewrite PropMeasure.evaluate_single in E by (auto; now rewrite En).
  unfold run_node in E. rewrite En in E. unfold wave_plate_from_hamiltonian, hamiltonian_operator_gate in E. fold D in E.
  destruct (transition_matrix (dL D) 25 (wave_plate_hamiltonians theta phi)) as [T|] eqn:ET; [|discriminate]. unfold apply_operator_collection in E. fold D in E.
  destruct (fold_left _ _ _) as [[out sd]|] eqn:Ec; [|discriminate]. cbn [option_map of_option fst] in E. injection E as <-. cbn [with_items co_items].
  apply operator_items_inv in Ec. destruct Ec as (sts & Em & H2). cbn [map app] in Em. subst sts. clear En Hk. revert out H2.
  induction HW as [|it l [W HA] HW IH]; intros [|[i' s'] out] H2; cbn [map] in H2; inversion H2 as [|x y l1 l2 Hxy Hl]; subst; [constructor|].
  constructor; [|now apply IH]. cbn [snd] in Hxy |- *. eapply plate_state; eauto.
Qed.
Print Assumptions C53_circuit.

Section Each.
Variables (f : state -> option state) (rnd : nat -> nat).
Definition each_step (acc : option (items * nat)) (it : ident * state) : option (items * nat) :=
  match acc, f (snd it) with
  | Some (out, sd), Some st => Some (add_state_random rnd sd st out)
  | _, _ => None
  end.
Lemma each_inv : forall its acc sd out sd', fold_left each_step its (Some (acc, sd)) = Some (out, sd') ->
  exists sts, map snd out = map snd acc ++ sts /\ Forall2 (fun it st => f (snd it) = Some st) its sts.
Proof.
  induction its as [|[i st] its IH]; intros acc sd out sd' E; cbn [fold_left] in E.
  - injection E as <- <-. exists []. rewrite app_nil_r. split; constructor.
  - unfold each_step at 2 in E. cbn [snd] in E. destruct (f st) as [ns|] eqn:Ec.
    2:{ exfalso. clear - E. induction its; cbn [fold_left] in E; [discriminate|auto]. }
    destruct (add_state_random rnd sd ns acc) as [acc2 sd2] eqn:Ea.
    apply IH in E. destruct E as (sts & E & HF). assert (Ea' : acc2 = fst (add_state_random rnd sd ns acc)) by now rewrite Ea.
    exists (ns :: sts). split; [|constructor; [exact Ec|exact HF]].
    rewrite E, Ea', add_state_random_app, map_app. cbn [map snd]. now rewrite <- app_assoc.
Qed.
Lemma each_some its : Forall (fun it : ident * state => exists st, f (snd it) = Some st) its -> forall acc, exists r, fold_left each_step its (Some acc) = Some r.
Proof.
  intros HF. induction HF as [|it l (st & H) HF IH]; intros [out sd]; [eexists; reflexivity|]. cbn [fold_left]. unfold each_step at 2. rewrite H. apply IH.
Qed.
End Each.

(** C53: with classical control every state gets the wave plate of its own classical values. *)
Theorem C53_classical_control : forall X rnd rnd' c k h v orientation shift b cs cs', let D := co_D cs in
  1 <= dL D -> h < dN D -> v < dN D -> h <> v -> (v = 0 -> h = 1) ->
  k < length (c_nodes c) -> node_at c k = wave_plate_classical_control rnd' h v orientation shift ->
  Forall (fun it => wf_state D (snd it) /\ (forall vs, valid D vs -> (Cmod (amp_of D (snd it) vs) <= 1)%R) /\
    (Rabs (nth orientation (s_classical (snd it)) 0) <= b)%R /\ (Rabs (nth shift (s_classical (snd it)) 0) / 2 <= b)%R) (co_items cs) ->
  evaluate_nodes X rnd c [k] cs = Ok cs' ->
  Forall2 (fun it it' => exists theta phi M,
      nth_error (s_classical (snd it)) orientation = Some theta /\ nth_error (s_classical (snd it)) shift = Some phi /\
      calls_matrix D [Wave_plate h v theta phi] = Some M /\
      close_to_gate D h v M (plate_error (co_eps cs) b) (snd it) (snd it')) (co_items cs) (co_items cs').
Proof.
  intros X rnd rnd' c k h v orientation shift b cs cs' D HL Hh Hv Hhv Hv0 Hk En HW E. rewrite PropMeasure.evaluate_single in E by (auto; now rewrite En).
  unfold run_node in E. rewrite En in E. unfold wave_plate_classical_control in E. fold D in E.
  destruct (fold_left _ _ _) as [[out sd]|] eqn:Ec; [|discriminate]. cbn [option_map of_option fst] in E. injection E as <-. cbn [with_items co_items].
  apply (each_inv (controlled_plate D (co_ncl cs) (co_eps cs) h v orientation shift) rnd') in Ec. destruct Ec as (sts & Em & H2). cbn [map app] in Em. subst sts. clear En Hk. revert out H2.
  induction HW as [|it l (W & HA & Hb1 & Hb2) HW IH]; intros [|[i' s'] out] H2; cbn [map] in H2; inversion H2 as [|x y l1 l2 Hxy Hl]; subst; [constructor|].
  constructor; [|now apply IH]. cbn [snd] in Hxy |- *. unfold controlled_plate in Hxy.
  destruct (nth_error (s_classical (snd it)) orientation) as [theta|] eqn:E1; [|discriminate]. destruct (nth_error (s_classical (snd it)) shift) as [phi|] eqn:E2; [|discriminate].
  destruct (transition_matrix (dL D) 25 (wave_plate_hamiltonians theta phi)) as [T|] eqn:ET; [|discriminate].
  destruct (plate_exists D h v theta phi HL Hh Hv Hhv Hv0) as (M & EM). exists theta, phi, M. split; [reflexivity|]. split; [reflexivity|]. split; [exact EM|].
  rewrite (nth_error_nth _ _ _ E1) in Hb1. rewrite (nth_error_nth _ _ _ E2) in Hb2.
  eapply plate_state; eauto.
Qed.
Print Assumptions C53_classical_control.

(** C53: it raises only if a classical channel does not exist. *)
Theorem C53_classical_control_does_not_raise : forall X rnd rnd' c k h v orientation shift cs, let D := co_D cs in
  1 <= dL D -> h < dN D -> v < dN D -> h <> v ->
  k < length (c_nodes c) -> node_at c k = wave_plate_classical_control rnd' h v orientation shift ->
  Forall (fun it => wf_state D (snd it) /\ check_state (co_eps cs) (co_ncl cs) (snd it) = true) (co_items cs) ->
  ((exists cs', evaluate_nodes X rnd c [k] cs = Ok cs') <->
   Forall (fun it => orientation < length (s_classical (snd it)) /\ shift < length (s_classical (snd it))) (co_items cs)).
Proof.
  intros X rnd rnd' c k h v orientation shift cs D HL Hh Hv Hhv Hk En HW. rewrite PropMeasure.evaluate_single by (auto; now rewrite En).
  unfold run_node. rewrite En. unfold wave_plate_classical_control. fold D.
  set (f := controlled_plate D (co_ncl cs) (co_eps cs) h v orientation shift).
  change (fun (acc : option (items * nat)) (it : ident * state) => match acc with Some (out, sd) => match f (snd it) with Some st => Some (add_state_random rnd' sd st out) | None => None end | None => None end) with (each_step f rnd').
  split.
  - intros (cs' & E). destruct (fold_left _ _ _) as [[out sd]|] eqn:Ec; [|discriminate]. apply each_inv in Ec. destruct Ec as (sts & _ & H2). clear - H2.
    induction H2 as [|it st l sts H H2 IH]; constructor; auto. unfold f, controlled_plate in H.
    destruct (nth_error (s_classical (snd it)) orientation) eqn:E1; [|discriminate]. destruct (nth_error (s_classical (snd it)) shift) eqn:E2; [|discriminate].
    split; apply nth_error_Some; congruence.
  - intros HC. destruct (each_some f rnd' (co_items cs)) with (acc := (@nil (ident * state), 0)) as ([out sd] & E).
    + apply Forall_forall. intros it Hit. rewrite Forall_forall in HW, HC. destruct (HW it Hit) as [W Hck]. destruct (HC it Hit) as [H1 H2]. unfold f, controlled_plate.
      destruct (nth_error (s_classical (snd it)) orientation) as [theta|] eqn:E1; [|apply nth_error_None in E1; lia].
      destruct (nth_error (s_classical (snd it)) shift) as [phi|] eqn:E2; [|apply nth_error_None in E2; lia].
      apply (apply_operator_ok D (Dims (dL D) 2 true)); auto.
      constructor; [intros [|[]]; congruence|constructor; [intros []|constructor]].
    + match goal with |- context [fold_left ?g ?l ?a] => replace (fold_left g l a) with (Some (out, sd)) by (symmetry; exact E) end. cbn [option_map of_option]. eexists. reflexivity.
Qed.
Print Assumptions C53_classical_control_does_not_raise.

(** ** Overfull pairs *)
Definition row_only (d r : nat) (M : mat) : Prop := forall o, o < d -> o <> r -> M r o = RtoC 0.
Lemma row_only_mul d r A B o : r < d -> row_only d r A -> mat_mul d A B r o = (A r r * B r o)%C.
Proof.
  intros Hr HA. unfold mat_mul. rewrite (Csum_single _ r); [reflexivity|apply seq_NoDup|apply in_seq; lia|]. intros k Hk Hne. apply in_seq in Hk. rewrite HA by lia. ring.
Qed.
Lemma row_only_pow d r M n : r < d -> row_only d r M -> row_only d r (mat_pow d M n) /\ mat_pow d M n r r = Cpow (M r r) n.
Proof.
  intros Hr HM. induction n as [|n [IH1 IH2]].
  - split; [|cbn [mat_pow]; now rewrite Nat.eqb_refl]. intros o Ho Hne. cbn [mat_pow]. destruct (Nat.eqb_spec r o); [congruence|reflexivity].
  - cbn [mat_pow]. split.
    + intros o Ho Hne. rewrite row_only_mul by auto. rewrite HM by auto. ring.
    + rewrite row_only_mul, IH2 by auto. cbn [Cpow]. ring.
Qed.
Lemma row_only_exponential d r p M : 1 <= p -> r < d -> row_only d r M ->
  row_only d r (exponential d p M) /\ exponential d p M r r = Csum (seq 0 p) (fun n => RtoC (/ INR (fact n)) * Cpow (M r r) n)%C.
Proof.
  intros Hp Hr HM. split.
  - intros o Ho Hne. rewrite exponential_sum by auto. apply Csum_zero. intros n _. rewrite (proj1 (row_only_pow d r M n Hr HM)) by auto. ring.
  - rewrite exponential_sum by auto. apply Csum_ext. intros n _. now rewrite (proj2 (row_only_pow d r M n Hr HM)).
Qed.
Lemma exponential_zero_row d r p M : 1 <= p -> r < d -> (forall o, o < d -> M r o = RtoC 0) -> row_only d r (exponential d p M) /\ exponential d p M r r = RtoC 1.
Proof.
  intros Hp Hr HM. destruct (row_only_exponential d r p M Hp Hr) as [H1 H2]; [intros o Ho _; now apply HM|]. split; [exact H1|]. rewrite H2, HM by exact Hr.
  destruct p as [|p]; [lia|]. cbn [seq]. rewrite Csum_cons, Csum_zero; [cbn [Cpow]; change (INR (fact 0)) with 1%R; rewrite Rinv_1; ring|].
  intros n Hn. apply in_seq in Hn. destruct n as [|n]; [lia|]. cbn [Cpow]. ring.
Qed.
Lemma exp_term_bound p : 1 <= p -> (Cmod (cis 1 - Csum (seq 0 p) (fun n => RtoC (/ INR (fact n)) * Cpow Ci n))%C <= / INR (fact p))%R.
Proof.
  intros Hp. set (H := fun _ _ : nat => Ci). destruct (row_only_exponential 1 0 p H Hp) as [_ E]; [lia|intros o H1 H2; lia|].
  change (H 0 0) with Ci in E. rewrite <- E. replace (/ INR (fact p))%R with (1 ^ p / INR (fact p))%R by (rewrite pow1; unfold Rdiv; ring).
  apply (taylor_bound 1 (fun t _ => cis t) H 1 0); try lia; try lra.
  - intros t u _. cbn [seq]. rewrite Csum_cons, Csum_nil. unfold cis, H, Ci. split; cbn [fst snd Cmult Cplus RtoC]; auto_derive; try exact I; ring.
  - intros u Hu. destruct u; [|lia]. cbn [Nat.eqb]. unfold cis. now rewrite cos_0, sin_0.
  - intros t u _. right. unfold cis, Cmod. cbn [fst snd]. replace (cos t ^ 2 + sin t ^ 2)%R with 1%R by (pose proof (sc1 t); lra). apply sqrt_1.
  - intros u _. cbn [seq]. rewrite Rsum_cons. unfold Rsum, H, Ci, Cmod. cbn [fst snd map fold_right]. replace (0 ^ 2 + 1 ^ 2)%R with 1%R by ring. rewrite sqrt_1. lra.
Qed.

(** C53 (the condition on the number of photons is needed): for a pair with L or more photons the
    matrix of the Hamiltonians is not that of the wave plate node. *)
Theorem C53_overfull_refuted : exists L theta phi T M, let K := Dims L 2 true in
  transition_matrix L 25 (wave_plate_hamiltonians theta phi) = Some T /\
  calls_matrix K [Wave_plate 0 1 theta phi] = Some M /\
  exists vs, valid K vs /\ (1 / 3 <= Cmod (T (index_of_values K vs) (index_of_values K vs) - M (index_of_values K vs) (index_of_values K vs))%C)%R.
Proof.
  set (K := Dims 2 2 true).
  destruct (C10_overfull_pairs_identity_partial K (generic_matrix 1 1) 0 1) as (M & EM & HM); try (cbn; lia).
  destruct (transition_matrix 2 25 (wave_plate_hamiltonians 1 1)) as [T|] eqn:ET; [|discriminate ET].
  exists 2, 1%R, 1%R, T, M. cbv zeta. fold K. split; [exact ET|]. split; [erewrite calls_matrix_single; [exact EM|reflexivity]|].
  exists [1;1]. assert (V : valid K [1;1]) by (split; [reflexivity|repeat constructor]). split; [exact V|].
  destruct (HM [1;1] [1;1] V V ltac:(cbn; lia)) as [-> _]. rewrite leqb_refl_true. change (index_of_values K [1;1]) with 3.
  unfold transition_matrix in ET. cbv zeta in ET. change (operator_channels (wave_plate_hamiltonians 1 1)) with two in ET.
  unfold two at 1 in ET. destruct (forallb _ _); [|discriminate]. injection ET as <-. change (size_of_basis (limited 2 two)) with 4.
  unfold wave_plate_hamiltonians. cbv zeta. cbn [map h_operators]. unfold combine_matrices. cbn [fold_left].
  match goal with |- context [mat_mul 4 (exponential 4 25 ?A) (mat_mul 4 (exponential 4 25 ?B) (mat_mul 4 (exponential 4 25 ?C) (mat_mul 4 (exponential 4 25 ?D) ?I)))] =>
    set (MA := A); set (MB := B); set (MC := C); set (MD := D) end.
  assert (Z : forall a b o, o < 4 -> limited_matrix 2 two [([Plus;Skip;Minus;Skip], a); ([Minus;Skip;Plus;Skip], b)] 3 o = RtoC 0).
  { intros a b o Ho. unfold limited_matrix. rewrite !Csum_cons, Csum_nil. cbn. ring. }
  assert (ZB : forall o, o < 4 -> MC 3 o = RtoC 0).
  { intros o Ho. unfold MC, limited_matrix. rewrite !Csum_cons, Csum_nil. destruct o as [|[|[|[|o]]]]; [| | | |lia]; cbn -[sqrt INR]; [ring|ring|ring|].
    rewrite <- !Cmult_assoc, !sqrt_INR_twice. apply C_eq; cbn; lra. }
  assert (ZA : row_only 4 3 MA /\ MA 3 3 = Ci).
  { split.
    - intros o Ho Hne. unfold MA, limited_matrix. rewrite !Csum_cons, Csum_nil. destruct o as [|[|[|[|o]]]]; [| | |lia|lia]; cbn -[sqrt INR]; ring.
    - unfold MA, limited_matrix. rewrite !Csum_cons, Csum_nil. cbn -[sqrt INR]. rewrite <- !Cmult_assoc, !sqrt_INR_twice. apply C_eq; cbn; lra. }
  destruct (exponential_zero_row 4 3 25 MD) as [RD ED]; [lia|lia|exact (Z _ _)|].
  destruct (exponential_zero_row 4 3 25 MC) as [RC EC]; [lia|lia|exact ZB|].
  destruct (exponential_zero_row 4 3 25 MB) as [RB EB]; [lia|lia|exact (Z _ _)|].
  destruct (row_only_exponential 4 3 25 MA) as [RA EA]; [lia|lia|apply ZA|]. rewrite (proj2 ZA) in EA.
  rewrite (row_only_mul 4 3) by (auto; lia). rewrite (row_only_mul 4 3) by (auto; lia). rewrite (row_only_mul 4 3) by (auto; lia). rewrite (row_only_mul 4 3) by (auto; lia).
  rewrite EB, EC, ED, EA, Nat.eqb_refl. pose proof (exp_term_bound 25 ltac:(lia)) as B. revert B.
  match goal with |- context [Csum ?l ?f] => generalize (Csum l f) end. intros z B.
  assert (F : (/ INR (fact 25) <= 1 / 6)%R).
  { assert (H6 : (6 <= INR (fact 25))%R) by (replace 6%R with (INR (fact 3)) by (cbn; lra); apply le_INR, fact_le; lia).
    unfold Rdiv. rewrite Rmult_1_l. apply Rinv_le_contravar; lra. }
  assert (HS : (1 / 2 <= sin 1)%R).
  { rewrite <- sin_PI6. pose proof PI2_1. pose proof PI_4. left. apply sin_increasing_1; lra. }
  assert (H1 : (sin 1 - snd z <= 1 / 6)%R).
  { eapply Rle_trans; [|exact (Rle_trans _ _ _ B F)]. eapply Rle_trans; [|apply Rmax_Cmod]. eapply Rle_trans; [|apply Rmax_r]. cbn [snd cis Cminus Cplus Copp]. apply Rle_abs. }
  eapply Rle_trans; [|apply Rmax_Cmod]. eapply Rle_trans; [|apply Rmax_r]. eapply Rle_trans; [|apply Rle_abs].
  cbn [snd fst Cminus Cplus Copp Cmult RtoC]. lra.
Qed.
Print Assumptions C53_overfull_refuted.

(** C53: the hypotheses are met by the photon |100> of a circuit with three channels, and by a photon
    whose classical channels hold the angles. *)
Example C53_case : forall X rnd rnd' theta phi,
  let D := Dims 2 3 true in
  let st := State [120] 1 [([1;0;0], (RtoC 1, 1%R))] [theta; phi] [] [] in
  let cs := Coll D 2 0 [([97], st)] in
  let c := Circuit D 2 0 false (fresh_keys D) [wave_plate_from_hamiltonian rnd' 0 2 theta phi; wave_plate_classical_control rnd' 0 2 0 1] in
  exists M, calls_matrix D [Wave_plate 0 2 theta phi] = Some M /\
  forall k, k < 2 -> exists cs' it', evaluate_nodes X rnd c [k] cs = Ok cs' /\ co_items cs' = [it'] /\
    close_to_gate D 0 2 M (plate_error 0 (Rabs theta + Rabs phi)) st (snd it').
Proof.
  intros X rnd rnd' theta phi D st cs c.
  destruct (plate_exists D 0 2 theta phi) as (M & EM); try (cbn; lia). exists M. split; [exact EM|].
  assert (W : wf_state D st).
  { split; cbn [s_comps st map fst]; [constructor; [intros []|constructor]|]. intros nm [<-|[]]. exists [1;0;0]. split; [|reflexivity]. split; [reflexivity|]. repeat constructor. }
  assert (HC : check_state 0 2 st = true).
  { unfold check_state, Rltb. cbn [s_cum s_comps st s_classical forallb snd length Nat.eqb]. repeat (destruct (Rlt_dec _ _); [lra|]). reflexivity. }
  assert (HA : forall vs, valid D vs -> (Cmod (amp_of D st vs) <= 1)%R).
  { intros vs Hvs. unfold amp_of, amplitude. cbn [s_comps st dget]. match goal with |- context [if ?b then _ else _] => destruct b end; cbn [fst]; [rewrite Cmod_1|rewrite Cmod_0]; lra. }
  assert (B1 : (Rabs theta <= Rabs theta + Rabs phi)%R) by (pose proof (Rabs_pos phi); lra).
  assert (B2 : (Rabs phi / 2 <= Rabs theta + Rabs phi)%R) by (pose proof (Rabs_pos phi); pose proof (Rabs_pos theta); lra).
  intros [|[|k]] Hk; [| |lia].
  - assert (ND : NoDup [0;2]) by (constructor; [intros [H|[]]; discriminate|constructor; [intros []|constructor]]).
    assert (HF : Forall (fun ch => ch < 3) [0;2]) by (repeat constructor).
    destruct (C41_does_not_raise X rnd rnd' c 0 [0;2] (wave_plate_hamiltonians theta phi) cs) as (cs' & E); try reflexivity; auto; try (intros Hx; exact (nil_cons (eq_sym Hx))); try (cbn; lia).
    + change (Forall (fun ch => ch < 2) [0;0;1;1]). repeat constructor.
    + apply Forall_cons; [|apply Forall_nil]. split; [exact W|exact HC].
    + assert (H : Forall2 (fun it it' => close_to_gate D 0 2 M (plate_error 0 (Rabs theta + Rabs phi)) (snd it) (snd it')) (co_items cs) (co_items cs')).
      { apply (C53_circuit X rnd rnd' c 0 0 2 theta phi (Rabs theta + Rabs phi)%R M cs cs'); auto; try (cbn; lia); try reflexivity. apply Forall_cons; [|apply Forall_nil]. split; [exact W|exact HA]. }
      inversion H as [|x it' l l' H1 Hl Ex El]; subst. inversion Hl; subst. exists cs', it'. split; [exact E|]. split; [now symmetry|exact H1].
  - destruct (proj2 (C53_classical_control_does_not_raise X rnd rnd' c 1 0 2 0 1 cs ltac:(cbn; lia) ltac:(cbn; lia) ltac:(cbn; lia) ltac:(lia) ltac:(cbn; lia) eq_refl
      ltac:(apply Forall_cons; [split; [exact W|exact HC]|apply Forall_nil]))) as (cs' & E).
    { apply Forall_cons; [cbn; lia|apply Forall_nil]. }
    pose proof (C53_classical_control X rnd rnd' c 1 0 2 0 1 (Rabs theta + Rabs phi)%R cs cs' ltac:(cbn; lia) ltac:(cbn; lia) ltac:(cbn; lia) ltac:(lia) ltac:(lia) ltac:(cbn; lia) eq_refl
      ltac:(apply Forall_cons; [split; [exact W|split; [exact HA|split; [exact B1|exact B2]]]|apply Forall_nil]) E) as H.
    inversion H as [|x it' l l' H1 Hl Ex El]; subst. inversion Hl; subst. destruct H1 as (th & ph & M' & E1 & E2 & EM' & H1). cbn in E1, E2. injection E1 as <-. injection E2 as <-.
    pose proof (eq_trans (eq_sym EM) EM') as EE. injection EE as <-.
    exists cs', it'. split; [exact E|]. split; [now symmetry|exact H1].
Qed.
