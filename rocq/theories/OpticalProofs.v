(** Lemmas about the built-in optical matrices. *)
From Coq Require Import Reals List Arith Lia Bool Permutation Lra.
From Coquelicot Require Import Complex.
From Verif Require Import Prelude NamesModel NamesSpec NamesProofs FockModel FockSpec BosonProofs FockProofs GateProofs OpticalModel.
Import ListNotations.

Lemma sc1 x : (sin x * sin x + cos x * cos x = 1)%R.
Proof. pose proof (sin2_cos2 x) as H. unfold Rsqr in H. lra. Qed.

Lemma generic_symmetric t p : mat2_symmetric (generic_matrix t p).
Proof. reflexivity. Qed.

Lemma unitary2_intro a b d :
  (Cconj a * a + Cconj b * b = RtoC 1)%C -> (Cconj b * b + Cconj d * d = RtoC 1)%C ->
  (a * Cconj b + b * Cconj d = RtoC 0)%C -> unitary2 (Mat2 a b b d).
Proof.
  intros H1 H2 H3.
  assert (H4 : (Cconj a * b + Cconj b * d = RtoC 0)%C).
  { rewrite <- (Cconj_RtoC 0), <- H3, Cconj_plus, !Cconj_mult, !Cconj_invol. reflexivity. }
  split; unfold mat2_mul, mat2_adj, mat2_id; cbn [m00 m01 m10 m11]; f_equal.
  - rewrite <- H1. ring.
  - rewrite <- H3. ring.
  - rewrite <- H4. ring.
  - rewrite <- H2. ring.
  - rewrite <- H1. ring.
  - rewrite <- H4. ring.
  - rewrite <- H3. ring.
  - rewrite <- H2. ring.
Qed.

Lemma generic_unitary t p : unitary2 (generic_matrix t p).
Proof.
  unfold generic_matrix. 
  pose proof (sc1 t) as Ht. pose proof (sc1 p) as Hp.
  set (s := sin t) in *. set (c := cos t) in *. set (sp := sin p) in *. set (cp := cos p) in *.
  clearbody s c sp cp.
  assert (Hsp : (sp * sp = 1 - cp * cp)%R) by lra.
  assert (Hs : (s * s = 1 - c * c)%R) by lra.
  assert (Hs2 : (s ^ 2 = 1 - c ^ 2)%R) by (simpl; lra).
  assert (Hsp2 : (sp ^ 2 = 1 - cp ^ 2)%R) by (simpl; lra).
  assert (Hs3 : (s ^ 3 = s * (1 - c ^ 2))%R) by (rewrite <- Hs2; ring).
  assert (Hs4 : (s ^ 4 = (1 - c ^ 2) * (1 - c ^ 2))%R) by (rewrite <- Hs2; ring).
  apply unitary2_intro; apply C_eq; simpl; ring_simplify;
    rewrite ?Hs4, ?Hs3, ?Hs2, ?Hsp2; ring.
Qed.

(** phi = pi: a reflection matrix. *)
Lemma generic_pi t :
  generic_matrix t PI = Mat2 (RtoC (cos (2 * t))) (RtoC (sin (2 * t))) (RtoC (sin (2 * t))) (RtoC (- cos (2 * t))).
Proof.
  unfold generic_matrix. rewrite cos_PI, sin_PI, cos_2a, sin_2a.
  f_equal; apply C_eq; simpl; ring.
Qed.

Lemma swap_matrix : generic_matrix (PI / 4) PI = Mat2 (RtoC 0) (RtoC 1) (RtoC 1) (RtoC 0).
Proof.
  rewrite generic_pi. replace (2 * (PI / 4))%R with (PI / 2)%R by lra. rewrite cos_PI2, sin_PI2.
  f_equal. now rewrite Ropp_0.
Qed.

Lemma mix_matrix :
  generic_matrix (PI / 8) PI
  = Mat2 (RtoC (/ sqrt 2)) (RtoC (/ sqrt 2)) (RtoC (/ sqrt 2)) (RtoC (- / sqrt 2)).
Proof.
  rewrite generic_pi. replace (2 * (PI / 8))%R with (PI / 4)%R by lra. rewrite cos_PI4, sin_PI4.
  f_equal; f_equal; unfold Rdiv; ring.
Qed.

Lemma phase_matrix p : generic_matrix 0 p = Mat2 (RtoC 1) (RtoC 0) (RtoC 0) (cos p, sin p).
Proof.
  unfold generic_matrix. rewrite cos_0, sin_0. f_equal; apply C_eq; simpl; ring.
Qed.

Lemma atan2_sincos r t :
  (0 <= r)%R -> (0 <= t)%R -> (r + t = 1)%R ->
  sin (atan2_pos (sqrt r) (sqrt t)) = sqrt r /\ cos (atan2_pos (sqrt r) (sqrt t)) = sqrt t.
Proof.
  intros Hr Ht E. unfold atan2_pos. destruct (Rlt_dec 0 (sqrt t)) as [H|H].
  - assert (Q : (1 + (sqrt r / sqrt t)² = / t)%R).
    { unfold Rsqr. assert (sqrt t * sqrt t = t)%R by now apply sqrt_sqrt.
      assert (sqrt r * sqrt r = r)%R by now apply sqrt_sqrt.
      replace (sqrt r / sqrt t * (sqrt r / sqrt t))%R with ((sqrt r * sqrt r) / (sqrt t * sqrt t))%R by (field; lra).
      rewrite H0, H1. assert (t <> 0)%R by (intros ->; rewrite sqrt_0 in H; lra).
      replace r with (1 - t)%R by lra. field; auto. }
    assert (t <> 0)%R by (intros ->; rewrite sqrt_0 in H; lra).
    rewrite sin_atan, cos_atan, Q, sqrt_inv. split; field; lra.
  - assert (T0 : t = 0%R).
    { destruct (Req_dec t 0); auto. exfalso. apply H. apply sqrt_lt_R0. lra. }
    subst t. replace r with 1%R by lra. rewrite sqrt_0, sqrt_1.
    destruct (Rlt_dec 0 1); [|lra]. rewrite sin_PI2, cos_PI2. auto.
Qed.

Lemma mix_generic_matrix a b r t g :
  mix_generic a b r t = Some g ->
  (0 <= r)%R /\ (0 <= t)%R /\ (r + t = 1)%R /\
  g = (Mat2 (RtoC (t - r)) (RtoC (2 * sqrt r * sqrt t)) (RtoC (2 * sqrt r * sqrt t)) (RtoC (- (t - r))), [a; b]).
Proof.
  unfold mix_generic. destruct (Req_EM_T (r + t) 1) as [E|]; [|discriminate].
  destruct (Rle_dec 0 r) as [Hr|]; [|discriminate]. destruct (Rle_dec 0 t) as [Ht|]; [|discriminate].
  intros G; injection G as <-. repeat split; auto. f_equal.
  destruct (atan2_sincos r t Hr Ht E) as [S Cc].
  rewrite generic_pi, cos_2a, sin_2a, S, Cc, !sqrt_sqrt by auto. reflexivity.
Qed.

(** ** Diagonal and anti-diagonal gates *)
Lemma boson_poly1_diag d m u : boson_poly1 (RtoC 0) d m u = if u =? 0 then Cpow d m else RtoC 0.
Proof.
  revert u; induction m as [|m IH]; intros u; cbn [boson_poly1 Cpow].
  - destruct (u =? 0); reflexivity.
  - rewrite IH. destruct u as [|u]; cbn [Nat.eqb]; [ring|ring].
Qed.
Lemma boson_poly_diag a d n m u :
  boson_poly a (RtoC 0) (RtoC 0) d n m u = if u =? n then (Cpow a n * Cpow d m)%C else RtoC 0.
Proof.
  revert u; induction n as [|n IH]; intros u; cbn [boson_poly Cpow].
  - rewrite boson_poly1_diag. destruct (u =? 0); [ring|ring].
  - rewrite IH. destruct u as [|u]; cbn [Nat.eqb]; [ring|]. rewrite IH.
    destruct (u =? n); ring.
Qed.

Lemma boson_poly1_anti c m u : boson_poly1 c (RtoC 0) m u = if u =? m then Cpow c m else RtoC 0.
Proof.
  revert u; induction m as [|m IH]; intros u; cbn [boson_poly1 Cpow].
  - destruct u; reflexivity.
  - rewrite IH. destruct u as [|u]; cbn [Nat.eqb]; [ring|]. rewrite IH. destruct (u =? m); ring.
Qed.
Lemma boson_poly_anti b c n m u :
  boson_poly (RtoC 0) b c (RtoC 0) n m u = if u =? m then (Cpow b n * Cpow c m)%C else RtoC 0.
Proof.
  revert u; induction n as [|n IH]; intros u; cbn [boson_poly Cpow].
  - rewrite boson_poly1_anti. destruct (u =? m); ring.
  - rewrite IH. destruct u as [|u]; destruct (_ =? m); ring.
Qed.

Lemma nrm_swap n m : nrm n m m n = 1%R.
Proof.
  unfold nrm. rewrite (Nat.mul_comm (fact m)). unfold Rdiv. rewrite Rinv_r; [apply sqrt_1|].
  pose proof (fact_pos_R n m). lra.
Qed.

Lemma gate_amp_diag L a d n m u v :
  n + m < L -> gate_amp L (Mat2 a (RtoC 0) (RtoC 0) d) n m u v
    = if (u =? n) && (v =? m) then (Cpow a n * Cpow d m)%C else RtoC 0.
Proof.
  intros HL. unfold gate_amp. cbn [m00 m01 m10 m11].
  replace (L <=? n + m) with false by (symmetry; apply Nat.leb_gt; lia).
  rewrite boson_poly_diag. destruct (u =? n) eqn:E1.
  - apply Nat.eqb_eq in E1; subst u. cbn [andb]. destruct (v =? m) eqn:E2.
    + apply Nat.eqb_eq in E2; subst v. rewrite Nat.eqb_refl. fold (nrm n m n m). rewrite nrm_refl. ring.
    + apply Nat.eqb_neq in E2. replace (n + v =? n + m) with false by (symmetry; apply Nat.eqb_neq; lia). reflexivity.
  - cbn [andb]. destruct (u + v =? n + m); ring.
Qed.

Lemma gate_amp_anti L b c n m u v :
  n + m < L -> gate_amp L (Mat2 (RtoC 0) c b (RtoC 0)) n m u v
    = if (u =? m) && (v =? n) then (Cpow b n * Cpow c m)%C else RtoC 0.
Proof.
  intros HL. unfold gate_amp. cbn [m00 m01 m10 m11].
  replace (L <=? n + m) with false by (symmetry; apply Nat.leb_gt; lia).
  rewrite boson_poly_anti. destruct (u =? m) eqn:E1.
  - apply Nat.eqb_eq in E1; subst u. cbn [andb]. destruct (v =? n) eqn:E2.
    + apply Nat.eqb_eq in E2; subst v. rewrite Nat.add_comm, Nat.eqb_refl. fold (nrm n m m n). rewrite nrm_swap. ring.
    + apply Nat.eqb_neq in E2. replace (m + v =? n + m) with false by (symmetry; apply Nat.eqb_neq; lia). reflexivity.
  - cbn [andb]. destruct (u + v =? n + m); ring.
Qed.

(** exp(i x) to the k. *)
Lemma cis_pow x k : Cpow (cos x, sin x) k = (cos (INR k * x), sin (INR k * x)).
Proof.
  induction k as [|k IH].
  - cbn [Cpow INR]. rewrite Rmult_0_l, cos_0, sin_0. reflexivity.
  - cbn [Cpow]. rewrite IH. rewrite S_INR. replace ((INR k + 1) * x)%R with (x + INR k * x)%R by ring.
    rewrite cos_plus, sin_plus. apply C_eq; simpl; ring.
Qed.
