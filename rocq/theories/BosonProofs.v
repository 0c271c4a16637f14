(** Algebra of the bosonic two-mode transition amplitudes. *)
From Coq Require Import Reals List Arith Lia Lra Bool.
From Coquelicot Require Import Complex.
From Verif Require Import Prelude NamesModel NamesSpec FockModel FockSpec.
Import ListNotations.

(** ** Binomials *)
Lemma comb_0_r n : comb n 0 = 1.
Proof. destruct n; reflexivity. Qed.
Lemma comb_gt n k : n < k -> comb n k = 0.
Proof.
  revert k; induction n as [|n IH]; intros [|k] H; try lia; [reflexivity|].
  cbn [comb]. rewrite !IH by lia. reflexivity.
Qed.
Lemma comb_diag n : comb n n = 1.
Proof. induction n; [reflexivity|]. cbn [comb]. rewrite IHn, comb_gt by lia. reflexivity. Qed.
Lemma comb_fact n k : k <= n -> comb n k * (fact k * fact (n - k)) = fact n.
Proof.
  revert k; induction n as [|n IH]; intros [|k] H; try lia; [reflexivity| |].
  - rewrite comb_0_r, Nat.sub_0_r. cbn [fact]. lia.
  - cbn [comb]. destruct (Nat.eq_dec k n) as [->|Hne].
    + rewrite (comb_gt n (S n)), comb_diag, Nat.sub_diag by lia. cbn [fact]. lia.
    + assert (H1 := IH k ltac:(lia)). assert (H2 := IH (S k) ltac:(lia)).
      replace (S n - S k) with (n - k) by lia.
      replace (n - k) with (S (n - S k)) in * by lia.
      cbn [fact] in *. nia.
Qed.

(** ** Binomial sums *)
Definition binsum (a b : C) (n : nat) (g : nat -> C) : C :=
  Csum (seq 0 (S n)) (fun j => INC (comb n j) * Cpow a j * Cpow b (n - j) * g j)%C.

Lemma binsum_0 a b g : binsum a b 0 g = g 0.
Proof.
  unfold binsum. cbn [seq]. rewrite Csum_cons, Csum_nil.
  cbn [comb Cpow Nat.sub]. rewrite INC_1. ring.
Qed.

Lemma binsum_S a b n g :
  binsum a b (S n) g = (a * binsum a b n (fun j => g (S j)) + b * binsum a b n g)%C.
Proof.
  unfold binsum.
  rewrite Csum_seq_S_l.
  rewrite <- !Csum_scal_l.
  rewrite (Csum_ext (seq 0 (S n))
     (fun i => INC (comb (S n) (S i)) * Cpow a (S i) * Cpow b (S n - S i) * g (S i))%C
     (fun i => a * (INC (comb n i) * Cpow a i * Cpow b (n - i) * g (S i))
        + INC (comb n (S i)) * Cpow a (S i) * Cpow b (n - i) * g (S i))%C).
  2:{ intros i _. cbn [comb]. rewrite INC_add. cbn [Nat.sub Cpow]. ring. }
  rewrite Csum_plus.
  rewrite (Csum_seq_S_l n (fun x => b * (INC (comb n x) * Cpow a x * Cpow b (n - x) * g x))%C).
  rewrite (Csum_seq_S n (fun i => INC (comb n (S i)) * Cpow a (S i) * Cpow b (n - i) * g (S i))%C).
  rewrite (comb_gt n (S n)) by lia. rewrite INC_0.
  rewrite (Csum_ext (seq 0 n)
     (fun i => INC (comb n (S i)) * Cpow a (S i) * Cpow b (n - i) * g (S i))%C
     (fun i => b * (INC (comb n (S i)) * Cpow a (S i) * Cpow b (n - S i) * g (S i)))%C).
  2:{ intros i Hi. apply in_seq in Hi. replace (n - i) with (S (n - S i)) by lia. cbn [Cpow]. ring. }
  rewrite !comb_0_r. rewrite !Nat.sub_0_r. cbn [Cpow]. ring.
Qed.

Lemma binsum_ext a b n g h : (forall j, j <= n -> g j = h j) -> binsum a b n g = binsum a b n h.
Proof.
  intros H. unfold binsum. apply Csum_ext. intros j Hj. apply in_seq in Hj. rewrite H by lia. reflexivity.
Qed.
Lemma binsum_zero a b n g : (forall j, j <= n -> g j = RtoC 0) -> binsum a b n g = RtoC 0.
Proof.
  intros H. unfold binsum. apply Csum_zero. intros j Hj. apply in_seq in Hj. rewrite H by lia. ring.
Qed.

Definition delta (u k : nat) : C := if k =? u then RtoC 1 else RtoC 0.

Lemma boson_poly1_binsum c d m u : boson_poly1 c d m u = binsum c d m (delta u).
Proof.
  revert u; induction m as [|m IH]; intros u.
  - rewrite binsum_0. unfold delta. simpl. rewrite Nat.eqb_sym. destruct u; reflexivity.
  - rewrite binsum_S. cbn [boson_poly1]. rewrite (IH u). f_equal.
    destruct u as [|u'].
    + rewrite binsum_zero; [ring|]. intros j _. reflexivity.
    + rewrite IH. f_equal.
Qed.

Lemma boson_poly_binsum a b c d n m u :
  boson_poly a b c d n m u =
  binsum a b n (fun j => binsum c d m (fun k => delta u (j + k))).
Proof.
  revert u; induction n as [|n IH]; intros u.
  - rewrite binsum_0. cbn [boson_poly Nat.add]. apply boson_poly1_binsum.
  - rewrite binsum_S. cbn [boson_poly]. rewrite (IH u). f_equal.
    destruct u as [|u'].
    + rewrite binsum_zero; [ring|]. intros j _. apply binsum_zero. intros k _. reflexivity.
    + rewrite IH. f_equal.
Qed.

(** Predecessor in the exponent. *)
Definition prev (f : nat -> C) (u : nat) : C := match u with O => RtoC 0 | S u' => f u' end.

Lemma boson_poly_S_l a b c d n m u :
  boson_poly a b c d (S n) m u
  = (a * prev (boson_poly a b c d n m) u + b * boson_poly a b c d n m u)%C.
Proof. cbn [boson_poly]. destruct u; cbn [prev]; ring. Qed.

Lemma boson_poly_S_r a b c d n m u :
  boson_poly a b c d n (S m) u
  = (c * prev (boson_poly a b c d n m) u + d * boson_poly a b c d n m u)%C.
Proof.
  revert u; induction n as [|n IH]; intros u.
  - cbn [boson_poly boson_poly1]. destruct u; cbn [prev boson_poly]; ring.
  - rewrite !boson_poly_S_l. rewrite (IH u).
    destruct u as [|u]; cbn [prev].
    + ring.
    + rewrite (IH u). rewrite (boson_poly_S_l _ _ _ _ n m u). ring.
Qed.

Lemma boson_poly_high a b c d n m u : n + m < u -> boson_poly a b c d n m u = RtoC 0.
Proof.
  intros H. rewrite boson_poly_binsum. apply binsum_zero. intros j Hj. apply binsum_zero.
  intros k Hk. unfold delta. replace (j + k =? u) with false; [reflexivity|].
  symmetry. apply Nat.eqb_neq. lia.
Qed.

Definition bp (A : mat2) := boson_poly (m00 A) (m10 A) (m01 A) (m11 A).

(** ** Composition *)
Lemma bp_high A n m u : n + m < u -> bp A n m u = RtoC 0.
Proof. apply boson_poly_high. Qed.
Lemma bp_S_l A n m u : bp A (S n) m u = (m00 A * prev (bp A n m) u + m10 A * bp A n m u)%C.
Proof. apply boson_poly_S_l. Qed.
Lemma bp_S_r A n m u : bp A n (S m) u = (m01 A * prev (bp A n m) u + m11 A * bp A n m u)%C.
Proof. apply boson_poly_S_r. Qed.

(** One more factor x in the first gate, expanded by the second gate. *)
Lemma compose_x (f : nat -> C) B N w (G : nat -> C) :
  (forall w, Csum (seq 0 (S N)) (fun u => f u * bp B u (N - u) w)%C = G w) ->
  Csum (seq 0 (S N)) (fun u => f u * bp B (S u) (S N - S u) w)%C
  = (m00 B * prev G w + m10 B * G w)%C.
Proof.
  intros H. rewrite <- (H w).
  rewrite (Csum_ext _ _ (fun u => m00 B * (f u * prev (bp B u (N - u)) w)
                           + m10 B * (f u * bp B u (N - u) w))%C).
  2:{ intros u _. cbn [Nat.sub]. rewrite bp_S_l. ring. }
  rewrite Csum_plus, !Csum_scal_l. f_equal. f_equal.
  destruct w as [|w]; cbn [prev]; [|apply H].
  apply Csum_zero. intros; ring.
Qed.
Lemma compose_y (f : nat -> C) B N w (G : nat -> C) :
  (forall w, Csum (seq 0 (S N)) (fun u => f u * bp B u (N - u) w)%C = G w) ->
  Csum (seq 0 (S N)) (fun u => f u * bp B u (S N - u) w)%C
  = (m01 B * prev G w + m11 B * G w)%C.
Proof.
  intros H. rewrite <- (H w).
  rewrite (Csum_ext _ _ (fun u => m01 B * (f u * prev (bp B u (N - u)) w)
                           + m11 B * (f u * bp B u (N - u) w))%C).
  2:{ intros u Hu. apply in_seq in Hu. replace (S N - u) with (S (N - u)) by lia.
      rewrite bp_S_r. ring. }
  rewrite Csum_plus, !Csum_scal_l. f_equal. f_equal.
  destruct w as [|w]; cbn [prev]; [|apply H].
  apply Csum_zero. intros; ring.
Qed.
Lemma compose_step (f g : nat -> C) B N w (G : nat -> C) x y :
  (forall w, Csum (seq 0 (S N)) (fun u => f u * bp B u (N - u) w)%C = G w) ->
  (forall u, g u = x * prev f u + y * f u)%C -> f (S N) = RtoC 0 ->
  Csum (seq 0 (S (S N))) (fun u => g u * bp B u (S N - u) w)%C
  = (x * (m00 B * prev G w + m10 B * G w) + y * (m01 B * prev G w + m11 B * G w))%C.
Proof.
  intros H E Hhigh.
  rewrite (Csum_ext _ _ (fun u => x * (prev f u * bp B u (S N - u) w)
                            + y * (f u * bp B u (S N - u) w))%C)
    by (intros u _; rewrite E; ring).
  rewrite Csum_plus, !Csum_scal_l.
  rewrite (Csum_seq_S_l (S N)). cbn [prev].
  rewrite (Csum_seq_S (S N) (fun u => f u * bp B u (S N - u) w)%C). rewrite Hhigh.
  rewrite (compose_x f B N w G H), (compose_y f B N w G H). ring.
Qed.

Lemma bp_compose A B n m w :
  Csum (seq 0 (S (n + m))) (fun u => bp A n m u * bp B u (n + m - u) w)%C
  = bp (mat2_mul B A) n m w.
Proof.
  revert m w; induction n as [|n IHn].
  - induction m as [|m IHm]; intros w.
    + cbn [seq Nat.add]. rewrite Csum_cons, Csum_nil. unfold bp. cbn. destruct w; ring.
    + cbn [Nat.add] in *.
      rewrite (compose_step (bp A 0 m) (bp A 0 (S m)) B m w (bp (mat2_mul B A) 0 m) (m01 A) (m11 A)).
      * rewrite bp_S_r.
        change (m01 (mat2_mul B A)) with (m00 B * m01 A + m01 B * m11 A)%C.
        change (m11 (mat2_mul B A)) with (m10 B * m01 A + m11 B * m11 A)%C. ring.
      * exact IHm.
      * intros u. apply bp_S_r.
      * apply bp_high. lia.
  - intros m w. cbn [Nat.add].
    rewrite (compose_step (bp A n m) (bp A (S n) m) B (n + m) w (bp (mat2_mul B A) n m) (m00 A) (m10 A)).
    + rewrite bp_S_l.
      change (m00 (mat2_mul B A)) with (m00 B * m00 A + m01 B * m10 A)%C.
      change (m10 (mat2_mul B A)) with (m10 B * m00 A + m11 B * m10 A)%C. ring.
    + exact (IHn m).
    + intros u. apply bp_S_l.
    + apply bp_high. lia.
Qed.

(** ** Identity *)
Lemma bp_id n m u : bp mat2_id n m u = if u =? n then RtoC 1 else RtoC 0.
Proof.
  unfold bp, mat2_id. cbn [m00 m01 m10 m11].
  revert u; induction n as [|n IH]; intros u.
  - revert u; induction m as [|m IHm]; intros u; cbn [boson_poly boson_poly1] in *.
    + destruct u; reflexivity.
    + rewrite IHm. destruct u as [|u]; cbn; ring.
  - rewrite boson_poly_S_l, IH. destruct u as [|u]; cbn [prev].
    + cbn. ring.
    + rewrite IH. cbn [Nat.eqb]. destruct (u =? n); destruct (S u =? n); ring.
Qed.

(** ** Conjugation and transposition *)
Lemma boson_poly_conj a b c d n m u :
  Cconj (boson_poly a b c d n m u)
  = boson_poly (Cconj a) (Cconj b) (Cconj c) (Cconj d) n m u.
Proof.
  revert u; induction n as [|n IH]; intros u.
  - revert u; induction m as [|m IHm]; intros u; cbn [boson_poly boson_poly1] in *.
    + destruct (u =? 0); apply Cconj_RtoC.
    + rewrite Cconj_plus, Cconj_mult, IHm. destruct u; [now rewrite Cconj_RtoC|].
      now rewrite Cconj_mult, IHm.
  - rewrite !boson_poly_S_l, Cconj_plus, !Cconj_mult, IH.
    destruct u; cbn [prev]; [now rewrite Cconj_RtoC|]. now rewrite IH.
Qed.

(** The single-sum form. *)
Lemma boson_poly_single a b c d n m u :
  boson_poly a b c d n m u =
  Csum (seq 0 (S (n + m))) (fun j =>
    if (j <=? n) && (j <=? u) && (u - j <=? m)
    then INC (comb n j * comb m (u - j)) * (Cpow a j * Cpow b (n - j) * Cpow c (u - j) * Cpow d (m - (u - j)))
    else RtoC 0)%C.
Proof.
  rewrite boson_poly_binsum. unfold binsum at 1.
  rewrite (Csum_seq_extend (S n) (S (n + m))); [|lia|].
  2:{ intros i Hi. replace (i <=? n) with false; [reflexivity|]. symmetry. apply Nat.leb_gt. lia. }
  apply Csum_ext. intros j Hj. apply in_seq in Hj.
  replace (j <=? n) with true by (symmetry; apply Nat.leb_le; lia). cbn [andb].
  destruct ((j <=? u) && (u - j <=? m)) eqn:E.
  - apply andb_true_iff in E. rewrite !Nat.leb_le in E.
    unfold binsum. rewrite (Csum_single _ (u - j)).
    + unfold delta. replace (j + (u - j)) with u by lia. rewrite Nat.eqb_refl, INC_mult. ring.
    + apply seq_NoDup.
    + apply in_seq. lia.
    + intros k Hk Hne. unfold delta. replace (j + k =? u) with false; [ring|].
      symmetry. apply Nat.eqb_neq. lia.
  - rewrite binsum_zero; [ring|]. intros k Hk. unfold delta.
    replace (j + k =? u) with false; [reflexivity|]. symmetry. apply Nat.eqb_neq. intros <-.
    replace (j <=? j + k) with true in E by (symmetry; apply Nat.leb_le; lia).
    replace (j + k - j <=? m) with true in E; [discriminate|]. symmetry. apply Nat.leb_le. lia.
Qed.

Lemma comb_transpose n m u v j :
  n + m = u + v -> j <= n -> j <= u -> u - j <= m ->
  comb n j * comb m (u - j) * (fact u * fact v) = comb u j * comb v (n - j) * (fact n * fact m).
Proof.
  intros HN H1 H2 H3.
  pose proof (comb_fact n j H1) as E1.
  pose proof (comb_fact m (u - j) H3) as E2.
  pose proof (comb_fact u j H2) as E3.
  pose proof (comb_fact v (n - j) ltac:(lia)) as E4.
  replace (v - (n - j)) with (m - (u - j)) in E4 by lia.
  rewrite <- E1, <- E2, <- E3, <- E4. ring.
Qed.

Lemma boson_poly_transpose a b c d n m u v :
  n + m = u + v ->
  (boson_poly a b c d n m u * INC (fact u * fact v)
   = boson_poly a c b d u v n * INC (fact n * fact m))%C.
Proof.
  intros HN. rewrite !boson_poly_single. rewrite <- !Csum_scal_r. rewrite HN.
  apply Csum_ext. intros j Hj. apply in_seq in Hj.
  destruct (j <=? n) eqn:E1; destruct (j <=? u) eqn:E2; cbn [andb]; try ring.
  apply Nat.leb_le in E1, E2.
  replace (n - j <=? v) with (u - j <=? m).
  2:{ destruct (u - j <=? m) eqn:E3; symmetry;
      [apply Nat.leb_le in E3; apply Nat.leb_le|apply Nat.leb_gt in E3; apply Nat.leb_gt]; lia. }
  destruct (u - j <=? m) eqn:E3; [|ring]. apply Nat.leb_le in E3.
  pose proof (comb_transpose n m u v j HN E1 E2 E3) as Hc.
  replace (v - (n - j)) with (m - (u - j)) by lia.
  transitivity (INC (comb n j * comb m (u - j) * (fact u * fact v))
     * (Cpow a j * Cpow b (n - j) * Cpow c (u - j) * Cpow d (m - (u - j))))%C.
  { rewrite (INC_mult _ (fact u * fact v)). ring. }
  rewrite Hc, (INC_mult _ (fact n * fact m)). ring.
Qed.

(** ** Normalised amplitudes *)
Definition nrm (n m u v : nat) : R := sqrt (INR (fact u * fact v) / INR (fact n * fact m)).

Lemma fact_pos_R n m : (0 < INR (fact n * fact m))%R.
Proof. apply lt_0_INR. pose proof (lt_O_fact n). pose proof (lt_O_fact m). nia. Qed.

Lemma nrm_sqrt n m u v : nrm n m u v = (sqrt (INR (fact u * fact v)) / sqrt (INR (fact n * fact m)))%R.
Proof.
  unfold nrm. apply sqrt_div; [|apply fact_pos_R].
  pose proof (fact_pos_R u v). lra.
Qed.
Lemma nrm_trans n m u v p q : (nrm n m u v * nrm u v p q = nrm n m p q)%R.
Proof.
  rewrite !nrm_sqrt.
  pose proof (sqrt_lt_R0 _ (fact_pos_R u v)). pose proof (sqrt_lt_R0 _ (fact_pos_R n m)).
  field. lra.
Qed.
Lemma nrm_refl n m : nrm n m n m = 1%R.
Proof. rewrite nrm_sqrt. pose proof (sqrt_lt_R0 _ (fact_pos_R n m)). field. lra. Qed.
Lemma nrm_flip n m u v :
  (INR (fact u * fact v) * nrm u v n m = INR (fact n * fact m) * nrm n m u v)%R.
Proof.
  rewrite !nrm_sqrt.
  pose proof (sqrt_lt_R0 _ (fact_pos_R u v)). pose proof (sqrt_lt_R0 _ (fact_pos_R n m)).
  rewrite <- (sqrt_sqrt (INR (fact u * fact v))) at 1 by (pose proof (fact_pos_R u v); lra).
  rewrite <- (sqrt_sqrt (INR (fact n * fact m))) at 2 by (pose proof (fact_pos_R n m); lra).
  field. lra.
Qed.

(** Amplitude in the sector of N = n+m photons, rows and columns labelled by the first
    photon number. *)
Definition gam (A : mat2) (N n u : nat) : C := (bp A n (N - n) u * RtoC (nrm n (N - n) u (N - u)))%C.

Lemma gam_compose A B N n w :
  n <= N -> Csum (seq 0 (S N)) (fun u => gam A N n u * gam B N u w)%C = gam (mat2_mul B A) N n w.
Proof.
  intros Hn. unfold gam.
  rewrite <- bp_compose. replace (n + (N - n)) with N by lia.
  rewrite <- Csum_scal_r. apply Csum_ext. intros u Hu.
  rewrite <- (nrm_trans n (N - n) u (N - u) w (N - w)), RtoC_mult. ring.
Qed.

Lemma gam_adj A N n u :
  n <= N -> u <= N -> gam (mat2_adj A) N u n = Cconj (gam A N n u).
Proof.
  intros Hn Hu. unfold gam. rewrite Cconj_mult, Cconj_RtoC.
  unfold bp, mat2_adj; cbn [m00 m01 m10 m11]. rewrite boson_poly_conj.
  pose proof (boson_poly_transpose (Cconj (m00 A)) (Cconj (m10 A)) (Cconj (m01 A)) (Cconj (m11 A))
                n (N - n) u (N - u) ltac:(lia)) as E.
  set (X := boson_poly _ _ _ _ n (N - n) u) in *.
  set (Y := boson_poly _ _ _ _ u (N - u) n) in *.
  pose proof (nrm_flip n (N - n) u (N - u)) as F.
  unfold INC in E.
  set (fu := INR (fact u * fact (N - u))) in *. set (fn := INR (fact n * fact (N - n))) in *.
  assert (Hfn : fn <> 0%R) by (unfold fn; pose proof (fact_pos_R n (N - n)); lra).
  assert (Hfu : fu <> 0%R) by (unfold fu; pose proof (fact_pos_R u (N - u)); lra).
  assert (HC : RtoC fn <> RtoC 0) by (intros HC; injection HC; auto).
  (* Y * fn * nrm(u->n) = X * fu * nrm(u->n) = X * fn * nrm(n->u) *)
  assert (G : (RtoC fn * (Y * RtoC (nrm u (N - u) n (N - n))) = RtoC fn * (X * RtoC (nrm n (N - n) u (N - u))))%C).
  { transitivity (X * RtoC (fu * nrm u (N - u) n (N - n)))%C.
    - rewrite RtoC_mult. replace (RtoC fn * (Y * RtoC (nrm u (N - u) n (N - n))))%C with (Y * RtoC fn * RtoC (nrm u (N - u) n (N - n)))%C by ring.
      rewrite <- E. ring.
    - rewrite F, RtoC_mult. ring. }
  transitivity (/ RtoC fn * (RtoC fn * (Y * RtoC (nrm u (N - u) n (N - n)))))%C.
  - field. exact HC.
  - rewrite G. field. exact HC.
Qed.

Lemma gam_id N n u : n <= N -> u <= N -> gam mat2_id N n u = if u =? n then RtoC 1 else RtoC 0.
Proof.
  intros Hn Hu. unfold gam. rewrite bp_id. destruct (u =? n) eqn:E; [|ring].
  apply Nat.eqb_eq in E; subst. rewrite nrm_refl. ring.
Qed.

(** Rows and columns of a unitary matrix stay orthonormal in every photon-number sector. *)
Lemma gam_rows A N n n' :
  unitary2 A -> n <= N -> n' <= N ->
  Csum (seq 0 (S N)) (fun u => gam A N n u * Cconj (gam A N n' u))%C
  = if n =? n' then RtoC 1 else RtoC 0.
Proof.
  intros [_ H2] Hn Hn'.
  rewrite (Csum_ext _ _ (fun u => gam A N n u * gam (mat2_adj A) N u n')%C).
  2:{ intros u Hu. apply in_seq in Hu. rewrite gam_adj by lia. reflexivity. }
  rewrite gam_compose by auto. rewrite H2, gam_id by auto. now rewrite Nat.eqb_sym.
Qed.
Lemma gam_cols A N u u' :
  unitary2 A -> u <= N -> u' <= N ->
  Csum (seq 0 (S N)) (fun n => Cconj (gam A N n u) * gam A N n u')%C
  = if u =? u' then RtoC 1 else RtoC 0.
Proof.
  intros [H1 _] Hu Hu'.
  rewrite (Csum_ext _ _ (fun n => gam (mat2_adj A) N u n * gam A N n u')%C).
  2:{ intros n Hn. apply in_seq in Hn. rewrite gam_adj by lia. reflexivity. }
  rewrite gam_compose by auto. rewrite H1, gam_id by auto. now rewrite Nat.eqb_sym.
Qed.

Lemma gate_amp_gam L A n m u v :
  n + m < L -> u + v = n + m -> gate_amp L A n m u v = gam A (n + m) n u.
Proof.
  intros HL HN. unfold gate_amp, gam, bp, nrm.
  replace (L <=? n + m) with false by (symmetry; apply Nat.leb_gt; lia).
  rewrite HN, Nat.eqb_refl. replace (n + m - n) with m by lia. replace (n + m - u) with v by lia.
  reflexivity.
Qed.
