(** Truncated exponential series of quadratic Hamiltonians against the bosonic amplitudes of the
    one-photon matrix they generate. *)
From Coq Require Import Reals List Arith Lia Lra Bool.
From Coquelicot Require Import Coquelicot.
From Verif Require Import Prelude NamesModel NamesSpec NamesProofs FockModel FockSpec BosonProofs FockProofs GateProofs OpticalModel StateModel CollectionModel EvalModel OperatorModel OperatorSpec PropOperator ExponentialSpec.
Import ListNotations.

(** ** Derivatives *)
Lemma cderiv_const c t : cderiv (fun _ => c) t (RtoC 0).
Proof. split; apply @is_derive_const. Qed.
Lemma cderiv_plus f g t a b : cderiv f t a -> cderiv g t b -> cderiv (fun x => f x + g x)%C t (a + b)%C.
Proof. intros [H1 H2] [H3 H4]. split; cbn; now apply @is_derive_plus. Qed.
Lemma rmult (f g : R -> R) t (a b : R) : is_derive f t a -> is_derive g t b -> is_derive (fun x => f x * g x)%R t (a * g t + f t * b)%R.
Proof. intros H1 H2. exact (is_derive_mult f g t a b H1 H2 Rmult_comm). Qed.
Lemma cderiv_mult f g t a b : cderiv f t a -> cderiv g t b -> cderiv (fun x => f x * g x)%C t (a * g t + f t * b)%C.
Proof.
  intros [H1 H2] [H3 H4]. split; cbn [fst snd Cmult Cplus].
  - replace (fst a * fst (g t) - snd a * snd (g t) + (fst (f t) * fst b - snd (f t) * snd b))%R
      with ((fst a * fst (g t) + fst (f t) * fst b) - (snd a * snd (g t) + snd (f t) * snd b))%R by ring.
    apply @is_derive_minus; apply rmult; assumption.
  - replace (fst a * snd (g t) + snd a * fst (g t) + (fst (f t) * snd b + snd (f t) * fst b))%R
      with ((fst a * snd (g t) + fst (f t) * snd b) + (snd a * fst (g t) + snd (f t) * fst b))%R by ring.
    apply @is_derive_plus; apply rmult; assumption.
Qed.
Lemma cderiv_scal f t a c : cderiv f t a -> cderiv (fun x => c * f x)%C t (c * a)%C.
Proof. intros H. replace (c * a)%C with (RtoC 0 * f t + c * a)%C by ring. apply (cderiv_mult (fun _ => c) f); [apply cderiv_const|exact H]. Qed.
Lemma cderiv_scal_r f t a c : cderiv f t a -> cderiv (fun x => f x * c)%C t (a * c)%C.
Proof. intros H. replace (a * c)%C with (a * c + f t * RtoC 0)%C by ring. apply (cderiv_mult f (fun _ => c)); [exact H|apply cderiv_const]. Qed.
Lemma cderiv_sum {A} (l : list A) (f : A -> R -> C) (g : A -> C) t : (forall x, In x l -> cderiv (f x) t (g x)) ->
  cderiv (fun s => Csum l (fun x => f x s)) t (Csum l g).
Proof.
  intros H. induction l as [|x l IH]; [exact (cderiv_const (RtoC 0) t)|]. apply (cderiv_plus (f x) (fun s => Csum l (fun x => f x s))); [apply H; now left|]. apply IH. intros; apply H; now right.
Qed.
Lemma cderiv_ext f g t a : (forall x, f x = g x) -> cderiv f t a -> cderiv g t a.
Proof. intros E [H1 H2]. split; [eapply is_derive_ext; [|exact H1]|eapply is_derive_ext; [|exact H2]]; intros; cbn; now rewrite E. Qed.
Lemma cderiv_eq f t a b : a = b -> cderiv f t a -> cderiv f t b.
Proof. now intros ->. Qed.

(** ** The bosonic polynomials of a flow *)
(** The generator on the coefficients of homogeneous polynomials of degree [N]. *)
Definition generator (G : mat2) (N : nat) (c : nat -> C) (u : nat) : C :=
  ((m00 G * INC u + m11 G * (INC N - INC u)) * c u + m10 G * INC (S u) * c (S u) + m01 G * (INC N - INC u + RtoC 1) * prev c u)%C.

Lemma INC_S k : INC (S k) = (INC k + RtoC 1)%C.
Proof. now rewrite <- Nat.add_1_r, INC_add, INC_1. Qed.
Lemma generator_leibniz G N q a b u :
  generator G (S N) (fun u => a * prev q u + b * q u)%C u
  = ((m00 G * a + m01 G * b) * prev q u + (m10 G * a + m11 G * b) * q u + a * prev (generator G N q) u + b * generator G N q u)%C.
Proof.
  unfold generator. destruct u as [|[|u]]; cbn [prev]; rewrite ?INC_S, ?INC_0; ring.
Qed.

Lemma prev_ext f g u : (forall u, f u = g u) -> prev f u = prev g u.
Proof. intros E. destruct u; [reflexivity|apply E]. Qed.
Lemma generator_ext G N f g u : (forall u, f u = g u) -> generator G N f u = generator G N g u.
Proof. intros E. unfold generator. now rewrite (prev_ext f g u E), !E. Qed.
Lemma cderiv_prev (f : R -> nat -> C) (g : nat -> C) t u : (forall u, cderiv (fun x => f x u) t (g u)) -> cderiv (fun x => prev (f x) u) t (prev g u).
Proof. intros H. destruct u; [exact (cderiv_const (RtoC 0) t)|apply H]. Qed.

Lemma flow_step G N (a b : R -> C) (q : R -> nat -> C) t : cderiv a t (m00 G * a t + m01 G * b t)%C -> cderiv b t (m10 G * a t + m11 G * b t)%C ->
  (forall u, cderiv (fun x => q x u) t (generator G N (q t) u)) ->
  forall u, cderiv (fun x => a x * prev (q x) u + b x * q x u)%C t (generator G (S N) (fun u => a t * prev (q t) u + b t * q t u)%C u).
Proof.
  intros Ha Hb Hq u. rewrite generator_leibniz. eapply cderiv_eq.
  2:{ apply cderiv_plus; apply cderiv_mult; [exact Ha|apply (cderiv_prev q); exact Hq|exact Hb|apply Hq]. }
  cbv beta. ring.
Qed.

Lemma bp_flow G U : flow G U -> forall n m u t, cderiv (fun x => bp (U x) n m u) t (generator G (n + m) (bp (U t) n m) u).
Proof.
  intros [_ HU] n. induction n as [|n IHn].
  - intros m. induction m as [|m IHm]; intros u t.
    + eapply cderiv_eq; [|exact (cderiv_const (if u =? 0 then RtoC 1 else RtoC 0) t)]. unfold generator. change (bp (U t) 0 0) with (fun u : nat => if u =? 0 then RtoC 1 else RtoC 0).
      cbn [Nat.add]. destruct u as [|[|u]]; cbn [prev Nat.eqb]; rewrite ?INC_0, ?INC_1; ring.
    + destruct (HU t) as (_ & H01 & _ & H11). eapply cderiv_ext; [intros x; symmetry; apply bp_S_r|]. cbn [Nat.add].
      rewrite (generator_ext G (S m) _ _ u (bp_S_r (U t) 0 m)).
      apply (flow_step G m (fun x => m01 (U x)) (fun x => m11 (U x)) (fun x => bp (U x) 0 m) t); [exact H01|exact H11|].
      intros u'. apply (IHm u' t).
  - intros m u t. destruct (HU t) as (H00 & _ & H10 & _). eapply cderiv_ext; [intros x; symmetry; apply bp_S_l|].
    rewrite (generator_ext G (S n + m) _ _ u (bp_S_l (U t) n m)). cbn [Nat.add].
    apply (flow_step G (n + m) (fun x => m00 (U x)) (fun x => m10 (U x)) (fun x => bp (U x) n m) t); [exact H00|exact H10|].
    intros u'. apply (IHn m u' t).
Qed.

(** The Hamiltonian on the states with [N] photons in the two channels; the index is the number
    of photons in the first one. *)
Definition sector_gen (G : mat2) (N k u : nat) : C :=
  ((if k =? u then m00 G * INC u + m11 G * INC (N - u) else RtoC 0) +
   (if k =? S u then m10 G * RtoC (sqrt (INR (S u) * INR (N - u))) else RtoC 0) +
   (if S k =? u then m01 G * RtoC (sqrt (INR u * INR (N - k))) else RtoC 0))%C.

Lemma Csum_pick N x f : Csum (seq 0 (S N)) (fun k => if k =? x then f k else RtoC 0) = if x <=? N then f x else RtoC 0.
Proof.
  destruct (Nat.leb_spec x N).
  - rewrite (Csum_single _ x); [now rewrite Nat.eqb_refl|apply seq_NoDup|apply in_seq; lia|]. intros y _ Hy. destruct (Nat.eqb_spec y x); [contradiction|reflexivity].
  - apply Csum_zero. intros k Hk. apply in_seq in Hk. destruct (Nat.eqb_spec k x); [lia|reflexivity].
Qed.

Lemma INR_fact_S n : INR (fact (S n)) = (INR (S n) * INR (fact n))%R.
Proof. change (fact (S n)) with (S n * fact n)%nat. apply mult_INR. Qed.
Lemma fact_pos n : (0 < INR (fact n))%R.
Proof. apply lt_0_INR, lt_O_fact. Qed.
Lemma ratio_sqrt x y : (0 < x)%R -> (0 <= y)%R -> (x * sqrt (y / x) = sqrt (x * y))%R.
Proof.
  intros Hx Hy. rewrite <- (sqrt_square x) at 1 by lra. rewrite <- sqrt_mult; [|nra|]; [f_equal; field; lra|]. apply Rmult_le_pos; [lra|]. left. now apply Rinv_0_lt_compat.
Qed.
Lemma nrm_down N u : S u <= N -> (INR (S u) * nrm (S u) (N - S u) u (N - u) = sqrt (INR (S u) * INR (N - u)))%R.
Proof.
  intros H. rewrite <- ratio_sqrt; [|apply lt_0_INR; lia|apply pos_INR]. f_equal. unfold nrm. f_equal. rewrite !mult_INR.
  replace (N - u) with (S (N - S u)) by lia. rewrite !INR_fact_S. pose proof (fact_pos u). pose proof (fact_pos (N - S u)).
  assert (INR (S u) <> 0%R) by (apply not_0_INR; lia). field. lra.
Qed.
Lemma nrm_up N k : S k <= N -> (INR (N - k) * nrm k (N - k) (S k) (N - S k) = sqrt (INR (S k) * INR (N - k)))%R.
Proof.
  intros H. rewrite (Rmult_comm (INR (S k))), <- ratio_sqrt; [|apply lt_0_INR; lia|apply pos_INR]. f_equal. unfold nrm. f_equal. rewrite !mult_INR.
  replace (N - k) with (S (N - S k)) by lia. rewrite !INR_fact_S. pose proof (fact_pos k). pose proof (fact_pos (N - S k)).
  assert (INR (S (N - S k)) <> 0%R) by (apply not_0_INR; lia). field. lra.
Qed.
Lemma INC_sub N u : u <= N -> INC (N - u) = (INC N - INC u)%C.
Proof. intros H. replace N with ((N - u) + u) at 2 by lia. rewrite INC_add. ring. Qed.

Lemma gam_flow G U N n u t : flow G U -> n <= N -> u <= N ->
  cderiv (fun x => gam (U x) N n u) t (Csum (seq 0 (S N)) (fun k => gam (U t) N n k * sector_gen G N k u)%C).
Proof.
  intros F Hn Hu. eapply cderiv_eq; [|apply (cderiv_scal_r (fun x => bp (U x) n (N - n) u)), (bp_flow G U F)].
  replace (n + (N - n)) with N by lia. unfold generator.
  transitivity (Csum (seq 0 (S N)) (fun k => (if k =? u then gam (U t) N n k * (m00 G * INC u + m11 G * INC (N - u)) else RtoC 0) +
    (if k =? S u then gam (U t) N n k * (m10 G * RtoC (sqrt (INR (S u) * INR (N - u)))) else RtoC 0) +
    (if S k =? u then gam (U t) N n k * (m01 G * RtoC (sqrt (INR u * INR (N - k)))) else RtoC 0)))%C.
  2:{ apply Csum_ext. intros k _. unfold sector_gen. destruct (k =? u), (k =? S u), (S k =? u); ring. }
  rewrite !Csum_plus, !Csum_pick. replace (u <=? N) with true by (symmetry; now apply Nat.leb_le).
  rewrite !Cmult_plus_distr_r. f_equal; [f_equal|].
  - rewrite (INC_sub N u Hu). unfold gam. ring.
  - destruct (Nat.leb_spec (S u) N) as [H|H].
    + unfold gam. rewrite <- (nrm_trans n (N - n) (S u) (N - S u) u (N - u)), <- (nrm_down N u H), !RtoC_mult. unfold INC. ring.
    + rewrite bp_high by lia. ring.
  - destruct u as [|u]; cbn [prev].
    + rewrite Csum_zero; [ring|]. intros k _. reflexivity.
    + rewrite (Csum_ext _ _ (fun k => if k =? u then gam (U t) N n k * (m01 G * RtoC (sqrt (INR (S u) * INR (N - k)))) else RtoC 0)%C) by reflexivity.
      rewrite Csum_pick. replace (u <=? N) with true by (symmetry; apply Nat.leb_le; lia).
      unfold gam. rewrite <- (nrm_trans n (N - n) u (N - u) (S u) (N - S u)), <- (nrm_up N u Hu), !RtoC_mult.
      replace (INC N - INC (S u) + RtoC 1)%C with (INC (N - u)) by (rewrite INC_sub by lia; rewrite INC_S; ring). unfold INC. ring.
Qed.

(** ** Taylor's formula *)
Lemma Cmod_Csum {A} (l : list A) f : (Cmod (Csum l f) <= Rsum l (fun x => Cmod (f x)))%R.
Proof.
  induction l as [|x l IH]; [rewrite Csum_nil, Cmod_0; apply Rle_refl|]. rewrite Csum_cons, Rsum_cons. eapply Rle_trans; [apply Cmod_triangle|]. lra.
Qed.
Lemma Rsum_le {A} (l : list A) f g : (forall x, In x l -> (f x <= g x)%R) -> (Rsum l f <= Rsum l g)%R.
Proof. induction l as [|x l IH]; intros H; [apply Rle_refl|]. rewrite !Rsum_cons. apply Rplus_le_compat; [apply H; now left|apply IH; intros; apply H; now right]. Qed.
Lemma mat_mul_assoc d A B M i j : mat_mul d A (mat_mul d B M) i j = mat_mul d (mat_mul d A B) M i j.
Proof.
  unfold mat_mul. rewrite (Csum_ext _ _ (fun k => Csum (seq 0 d) (fun l => A i k * B k l * M l j)%C)).
  2:{ intros k _. rewrite <- Csum_scal_l. apply Csum_ext. intros; ring. }
  rewrite Csum_swap. apply Csum_ext. intros k _. rewrite <- Csum_scal_r. apply Csum_ext. intros; ring.
Qed.
Lemma mat_mul_id_l d M i j : i < d -> mat_mul d (fun i j => if i =? j then RtoC 1 else RtoC 0) M i j = M i j.
Proof. intros H. exact (Csum_delta d i (fun k => M k j) H). Qed.
Lemma mat_mul_id_r d M i j : j < d -> mat_mul d M (fun i j => if i =? j then RtoC 1 else RtoC 0) i j = M i j.
Proof.
  intros H. unfold mat_mul. rewrite (Csum_single _ j); [rewrite Nat.eqb_refl; ring|apply seq_NoDup|apply in_seq; lia|].
  intros k _ Hk. destruct (Nat.eqb_spec k j); [contradiction|ring].
Qed.
Lemma pow_comm d H q : forall i u, i < d -> u < d -> mat_mul d H (mat_pow d H q) i u = mat_pow d H (S q) i u.
Proof.
  induction q as [|q IH]; intros i u Hi Hu.
  - cbn [mat_pow]. rewrite mat_mul_id_l by exact Hi. exact (mat_mul_id_r d H i u Hu).
  - cbn [mat_pow]. rewrite mat_mul_assoc. apply mat_mul_ext2; [exact IH|exact Hi|exact Hu].
Qed.
Lemma pow_columns d H h q : (forall u, u < d -> (Rsum (seq 0 d) (fun k => Cmod (H k u)) <= h)%R) -> (0 <= h)%R ->
  forall u, u < d -> (Rsum (seq 0 d) (fun k => Cmod (mat_pow d H q k u)) <= h ^ q)%R.
Proof.
  intros HH Hh. induction q as [|q IH]; intros u Hu.
  - cbn [mat_pow pow]. rewrite (Rsum_single _ u); [rewrite Nat.eqb_refl, Cmod_1; lra|apply seq_NoDup|apply in_seq; lia|].
    intros k _ Hk. destruct (Nat.eqb_spec k u); [contradiction|apply Cmod_0].
  - cbn [mat_pow pow]. unfold mat_mul. eapply Rle_trans; [apply Rsum_le; intros k _; apply Cmod_Csum|].
    rewrite Rsum_swap. apply Rle_trans with (Rsum (seq 0 d) (fun j => h ^ q * Cmod (H j u))%R).
    + apply Rsum_le. intros j Hj. apply in_seq in Hj.
      rewrite (Rsum_ext _ _ (fun k => Cmod (H j u) * Cmod (mat_pow d H q k j))%R) by (intros; rewrite Cmod_mult; ring).
      rewrite Rsum_scal_l, Rmult_comm. apply Rmult_le_compat_r; [apply Cmod_ge_0|]. apply IH. lia.
    + rewrite Rsum_scal_l, Rmult_comm. apply Rmult_le_compat_r; [now apply pow_le|]. now apply HH.
Qed.
Lemma sum_f_Rsum g p : sum_f_R0 g p = Rsum (seq 0 (S p)) g.
Proof.
  induction p as [|p IH]; [cbn; ring|]. rewrite seq_S, Rsum_app, <- IH. cbn. ring.
Qed.
Lemma fst_Csum {A} (w : C) (l : list A) f : fst (w * Csum l f)%C = Rsum l (fun x => fst (w * f x)%C).
Proof.
  induction l as [|x l IH]; [rewrite Csum_nil; cbn; ring|]. rewrite Csum_cons, Rsum_cons, <- IH. cbn. ring.
Qed.
Lemma fst_Cmod z : (fst z <= Cmod z)%R.
Proof. eapply Rle_trans; [apply Rle_abs|]. eapply Rle_trans; [apply Rmax_l|apply Rmax_Cmod]. Qed.

Lemma Cmod_conj z : Cmod (Cconj z) = Cmod z.
Proof. unfold Cmod, Cconj. cbn [fst snd]. f_equal. ring. Qed.

Section Taylor.
Variables (d : nat) (e : R -> nat -> C) (H : mat) (h : R) (n : nat).
Hypothesis Hn : n < d.
Hypothesis He : forall t u, u < d -> cderiv (fun x => e x u) t (Csum (seq 0 d) (fun k => e t k * H k u)%C).
Hypothesis H0 : forall u, u < d -> e 0%R u = if n =? u then RtoC 1 else RtoC 0.
Hypothesis H1 : forall t u, u < d -> (Cmod (e t u) <= 1)%R.
Hypothesis Hh : (0 <= h)%R.
Hypothesis HH : forall u, u < d -> (Rsum (seq 0 d) (fun k => Cmod (H k u)) <= h)%R.

Let V (q : nat) (t : R) (u : nat) : C := Csum (seq 0 d) (fun j => e t j * mat_pow d H q j u)%C.

Lemma V_deriv q t u : u < d -> cderiv (fun x => V q x u) t (V (S q) t u).
Proof.
  intros Hu. unfold V. eapply cderiv_eq.
  2:{ apply (cderiv_sum (seq 0 d) (fun j x => e x j * mat_pow d H q j u)%C (fun j => Csum (seq 0 d) (fun k => e t k * H k j) * mat_pow d H q j u)%C).
      intros j Hj. apply in_seq in Hj. apply (cderiv_scal_r (fun x => e x j)). apply He. lia. }
  rewrite (Csum_ext _ _ (fun j => Csum (seq 0 d) (fun k => e t k * (H k j * mat_pow d H q j u))%C)).
  2:{ intros j _. rewrite <- Csum_scal_r. apply Csum_ext. intros; ring. }
  rewrite Csum_swap. apply Csum_ext. intros k Hk. apply in_seq in Hk. rewrite Csum_scal_l. f_equal. apply (pow_comm d H q k u); lia.
Qed.
Lemma V_0 q u : u < d -> V q 0%R u = mat_pow d H q n u.
Proof.
  intros Hu. unfold V. rewrite (Csum_ext _ _ (fun j => (if n =? j then RtoC 1 else RtoC 0) * mat_pow d H q j u)%C).
  2:{ intros j Hj. apply in_seq in Hj. rewrite H0 by lia. reflexivity. }
  exact (Csum_delta d n (fun k => mat_pow d H q k u) Hn).
Qed.
Lemma V_bound q t u : u < d -> (Cmod (V q t u) <= h ^ q)%R.
Proof.
  intros Hu. unfold V. eapply Rle_trans; [apply Cmod_Csum|]. eapply Rle_trans; [|apply (pow_columns d H h q HH Hh u Hu)].
  apply Rsum_le. intros j Hj. apply in_seq in Hj. rewrite Cmod_mult. rewrite <- (Rmult_1_l (Cmod (mat_pow d H q j u))) at 2.
  apply Rmult_le_compat_r; [apply Cmod_ge_0|]. apply H1. lia.
Qed.
Lemma V_start t u : u < d -> V 0 t u = e t u.
Proof. intros Hu. apply (mat_mul_id_r d (fun _ j => e t j) 0 u Hu). Qed.

Lemma re_deriv w q t u : u < d -> is_derive (fun x => fst (w * V q x u)%C) t (fst (w * V (S q) t u)%C).
Proof. intros Hu. apply (cderiv_scal (fun x => V q x u) t (V (S q) t u) w). now apply V_deriv. Qed.
Lemma re_Derive_n w u q : u < d -> forall t, Derive_n (fun x => fst (w * V 0 x u)%C) q t = fst (w * V q t u)%C.
Proof.
  intros Hu. induction q as [|q IH]; intros t; [reflexivity|]. cbn [Derive_n]. rewrite (Derive_ext _ _ t IH). apply is_derive_unique. now apply re_deriv.
Qed.
Lemma re_ex_derive_n w u q : u < d -> forall t, ex_derive_n (fun x => fst (w * V 0 x u)%C) q t.
Proof.
  intros Hu t. destruct q as [|q]; [exact I|]. cbn [ex_derive_n]. exists (fst (w * V (S q) t u)%C).
  eapply is_derive_ext; [intros x; symmetry; apply re_Derive_n, Hu|]. now apply re_deriv.
Qed.

Lemma taylor_bound p u : u < d -> 1 <= p -> (Cmod (e 1%R u - exponential d p H n u)%C <= h ^ p / INR (fact p))%R.
Proof.
  intros Hu Hp. set (z := (e 1%R u - exponential d p H n u)%C). set (w := Cconj z).
  destruct (Taylor_Lagrange (fun x => fst (w * V 0 x u)%C) (p - 1) 0 1) as (zeta & _ & E); [lra|intros; now apply re_ex_derive_n|].
  rewrite (re_Derive_n w u _ Hu) in E. rewrite V_start in E by exact Hu.
  rewrite sum_f_Rsum in E. replace (S (p - 1)) with p in E by lia.
  rewrite (Rsum_ext _ _ (fun m => fst (w * (RtoC (/ INR (fact m)) * mat_pow d H m n u))%C)) in E.
  2:{ intros m _. rewrite (re_Derive_n w u _ Hu), V_0 by exact Hu. rewrite Rminus_0_r, pow1. cbn [fst snd Cmult RtoC]. unfold Rdiv. ring. }
  rewrite <- fst_Csum, <- exponential_sum in E by exact Hp.
  assert (Ez : fst (w * z)%C = (Cmod z * Cmod z)%R).
  { unfold w. rewrite Cconj_mult_norm2. cbn [fst RtoC]. unfold Cnorm2, Cmod. rewrite sqrt_sqrt; [ring|]. nra. }
  assert (Ed : fst (w * z)%C = (1 / INR (fact p) * fst (w * V p zeta u)%C)%R).
  { unfold z at 1. replace (w * (e 1%R u - exponential d p H n u))%C with (w * e 1%R u - w * exponential d p H n u)%C by ring.
    cbn [fst Cminus Cplus Copp]. change (fst (w * e 1%R u)%C - fst (w * exponential d p H n u)%C = 1 / INR (fact p) * fst (w * V p zeta u)%C)%R.
    rewrite E. rewrite Rminus_0_r, pow1. ring. }
  pose proof (Cmod_ge_0 z) as Hz. pose proof (fact_pos p) as Hf. pose proof (pow_le h p Hh) as Hhp.
  assert (Hb : (fst (w * V p zeta u)%C <= Cmod z * h ^ p)%R).
  { eapply Rle_trans; [apply fst_Cmod|]. rewrite Cmod_mult. unfold w at 1. rewrite Cmod_conj. apply Rmult_le_compat_l; [exact Hz|]. now apply V_bound. }
  rewrite Ez in Ed. destruct (Req_dec (Cmod z) 0) as [Z|Z].
  - rewrite Z. apply Rmult_le_pos; [exact Hhp|]. left. now apply Rinv_0_lt_compat.
  - apply Rmult_le_reg_l with (Cmod z); [lra|]. rewrite Ed. unfold Rdiv. rewrite Rmult_1_l, <- Rmult_assoc, Rmult_comm.
    apply Rmult_le_compat_r; [left; now apply Rinv_0_lt_compat|exact Hb].
Qed.
End Taylor.

Lemma mat2_mul_assoc A B M : mat2_mul A (mat2_mul B M) = mat2_mul (mat2_mul A B) M.
Proof. unfold mat2_mul. cbn [m00 m01 m10 m11]. f_equal; ring. Qed.
Lemma mat2_adj_mul A B : mat2_adj (mat2_mul A B) = mat2_mul (mat2_adj B) (mat2_adj A).
Proof. unfold mat2_mul, mat2_adj. cbn [m00 m01 m10 m11]. rewrite !Cconj_plus, !Cconj_mult. f_equal; ring. Qed.
Lemma mat2_mul_id_l A : mat2_mul mat2_id A = A.
Proof. destruct A as [a b c d]. unfold mat2_mul, mat2_id. cbn [m00 m01 m10 m11]. f_equal; ring. Qed.
Lemma mat2_mul_id_r A : mat2_mul A mat2_id = A.
Proof. destruct A as [a b c d]. unfold mat2_mul, mat2_id. cbn [m00 m01 m10 m11]. f_equal; ring. Qed.
Lemma unitary2_mul A B : unitary2 A -> unitary2 B -> unitary2 (mat2_mul A B).
Proof.
  intros [A1 A2] [B1 B2]. split; rewrite mat2_adj_mul.
  - rewrite mat2_mul_assoc, <- (mat2_mul_assoc A B), B1, mat2_mul_id_r. exact A1.
  - rewrite mat2_mul_assoc, <- (mat2_mul_assoc (mat2_adj B)), A2, mat2_mul_id_r. exact B2.
Qed.
Lemma unitary2_id : unitary2 mat2_id.
Proof.
  assert (E : mat2_adj mat2_id = mat2_id). { unfold mat2_adj, mat2_id. cbn [m00 m01 m10 m11]. now rewrite !Cconj_RtoC. }
  split; rewrite E; apply mat2_mul_id_l.
Qed.

(** ** Matrices that keep the number of photons, restricted to [N] photons *)
Section Sector.
Variables (L N : nat).
Hypothesis HNL : N < L.
Let K := Dims L 2 true.

Definition at_pair (a b : nat) : nat := index_of_values K [a; b].
Definition sector (M : mat) : mat := fun n u => M (at_pair n (N - n)) (at_pair u (N - u)).

Lemma at_pair_value a b : at_pair a b = b * L + a.
Proof. unfold at_pair, index_of_values, K. cbn [dL index_from]. cbn [Nat.pow]. lia. Qed.
Lemma pair_valid a b : a < L -> b < L -> valid K [a; b].
Proof. intros Ha Hb. split; [reflexivity|]. repeat constructor; assumption. Qed.
Lemma at_pair_bound a b : a < L -> b < L -> at_pair a b < size_of_basis K.
Proof. intros. now apply index_of_values_bound, pair_valid. Qed.
Lemma pair_values a b : a < L -> b < L -> values_from_index K (at_pair a b) = [a; b].
Proof. intros Ha Hb. apply values_index_roundtrip; [cbn; lia|]. now apply pair_valid. Qed.
Lemma sector_bound n : n <= N -> at_pair n (N - n) < size_of_basis K.
Proof. intros. apply at_pair_bound; lia. Qed.

Lemma sector_mul A B n w : blocks K A -> n <= N -> sector (mat_mul (size_of_basis K) A B) n w = mat_mul (S N) (sector A) (sector B) n w.
Proof.
  intros HA Hn. unfold sector, mat_mul at 1. change (size_of_basis K) with (L ^ 2). replace (L ^ 2) with (L * L) by (cbn; lia). rewrite Csum_seq_prod.
  rewrite (Csum_ext _ _ (fun v => Csum (seq 0 L) (fun u => if u + v =? N then A (at_pair n (N - n)) (at_pair u v) * B (at_pair u v) (at_pair w (N - w)) else RtoC 0)%C)).
  - rewrite (Csum_antidiag L N (fun u v => if u + v =? N then A (at_pair n (N - n)) (at_pair u v) * B (at_pair u v) (at_pair w (N - w)) else RtoC 0)%C HNL).
    2:{ intros u v H. destruct (Nat.eqb_spec (u + v) N); [contradiction|reflexivity]. }
    apply Csum_ext. intros u Hu. apply in_seq in Hu. replace (u + (N - u) =? N) with true by (symmetry; apply Nat.eqb_eq; lia). reflexivity.
  - intros v Hv. apply in_seq in Hv. apply Csum_ext. intros u Hu. apply in_seq in Hu. rewrite <- at_pair_value. destruct (Nat.eqb_spec (u + v) N) as [|H]; [reflexivity|].
    rewrite HA; [ring|apply sector_bound, Hn|apply at_pair_bound; lia|]. rewrite !pair_values by lia. cbn. lia.
Qed.
Lemma at_pair_eqb a b c d : a < L -> c < L -> (at_pair a b =? at_pair c d) = (a =? c) && (b =? d).
Proof.
  intros Ha Hc. rewrite !at_pair_value. apply eq_true_iff_eq. rewrite andb_true_iff, !Nat.eqb_eq. split; [|intros [-> ->]; reflexivity].
  apply two_digit_inj; assumption.
Qed.
Lemma sector_eqb n u : n <= N -> u <= N -> (at_pair n (N - n) =? at_pair u (N - u)) = (n =? u).
Proof.
  intros Hn Hu. rewrite at_pair_eqb by lia. destruct (Nat.eqb_spec n u) as [->|H]; [now rewrite Nat.eqb_refl|reflexivity].
Qed.
Lemma sector_pow H q : blocks K H -> forall n u, n <= N -> u <= N -> sector (mat_pow (size_of_basis K) H q) n u = mat_pow (S N) (sector H) q n u.
Proof.
  intros HB. induction q as [|q IH]; intros n u Hn Hu.
  - cbn [mat_pow]. unfold sector. now rewrite sector_eqb.
  - cbn [mat_pow]. rewrite sector_mul; [|now apply blocks_pow|exact Hn]. apply mat_mul_ext2; [|lia|lia]. intros i j Hi Hj. apply IH; lia.
Qed.
Lemma sector_exponential H p n u : 1 <= p -> blocks K H -> n <= N -> u <= N ->
  sector (exponential (size_of_basis K) p H) n u = exponential (S N) p (sector H) n u.
Proof.
  intros Hp HB Hn Hu. unfold sector at 1. rewrite !exponential_sum by exact Hp. apply Csum_ext. intros q _. f_equal. now apply sector_pow.
Qed.

Lemma exponential_ext d p M M' : 1 <= p -> (forall i j, i < d -> j < d -> M i j = M' i j) -> forall i j, i < d -> j < d -> exponential d p M i j = exponential d p M' i j.
Proof.
  intros Hp E i j Hi Hj. rewrite !exponential_sum by exact Hp. apply Csum_ext. intros q _. f_equal. revert i j Hi Hj.
  induction q as [|q IH]; intros i j Hi Hj; [reflexivity|]. cbn [mat_pow]. apply GateProofs.mat_mul_ext; auto.
Qed.

Lemma gam_bound A n u : unitary2 A -> n <= N -> u <= N -> (Cmod (gam A N n u) <= 1)%R.
Proof.
  intros HU Hn Hu. pose proof (gam_rows A N n n HU Hn Hn) as E. rewrite Nat.eqb_refl in E.
  rewrite (Csum_ext _ _ (fun k => RtoC (Cnorm2 (gam A N n k)))) in E by (intros; rewrite Cmult_comm; apply Cconj_mult_norm2).
  rewrite Csum_RtoC in E. apply RtoC_inj in E.
  assert (Hle : (Cnorm2 (gam A N n u) <= 1)%R).
  { rewrite <- E. apply (MeasureProofs.Rsum_le_term (seq 0 (S N)) (fun k => Cnorm2 (gam A N n k)) u); [|apply in_seq; lia]. intros; apply Cnorm2_nonneg. }
  unfold Cmod. unfold Cnorm2 in Hle. rewrite <- sqrt_1. apply sqrt_le_1_alt. nra.
Qed.

(** A Hamiltonian that acts like [G] on [N] photons. *)
Definition acts_like (H : mat) (G : mat2) (h : R) : Prop :=
  blocks K H /\ (forall n u, n <= N -> u <= N -> sector H n u = sector_gen G N n u) /\
  (0 <= h)%R /\ (forall u, u <= N -> (Rsum (seq 0 (S N)) (fun k => Cmod (sector_gen G N k u)) <= h)%R).

Lemma exponential_bound H G U h p n u : acts_like H G h -> flow G U -> (forall t, unitary2 (U t)) -> 1 <= p -> n <= N -> u <= N ->
  (Cmod (gam (U 1%R) N n u - sector (exponential (size_of_basis K) p H) n u)%C <= h ^ p / INR (fact p))%R.
Proof.
  intros (HB & HS & Hh & HC) F HU Hp Hn Hu. rewrite sector_exponential by auto.
  rewrite (exponential_ext (S N) p (sector H) (sector_gen G N)); [|exact Hp|intros; apply HS; lia|lia|lia].
  apply (taylor_bound (S N) (fun t u => gam (U t) N n u) (sector_gen G N) h n); try lia; auto.
  - intros t k Hk. apply gam_flow; auto; lia.
  - intros k Hk. rewrite (proj1 F), gam_id by lia. rewrite (Nat.eqb_sym n k). reflexivity.
  - intros t k Hk. apply gam_bound; auto; lia.
  - intros k Hk. apply HC. lia.
Qed.

(** The transition matrix of a list. *)
Lemma Cmod_minus a b : (Cmod a <= Cmod b + Cmod (b - a)%C)%R.
Proof. replace a with (b + - (b - a))%C at 1 by ring. eapply Rle_trans; [apply Cmod_triangle|]. rewrite Cmod_opp. apply Rle_refl. Qed.
Lemma Rsum_const {A} (l : list A) c : Rsum l (fun _ => c) = (INR (length l) * c)%R.
Proof. induction l as [|x l IH]; [cbn; ring|]. rewrite Rsum_cons, IH. cbn [length]. rewrite S_INR. ring. Qed.

Lemma product_bound (E F X Y : mat) x y : (0 <= x)%R -> (0 <= y)%R ->
  (forall i j, i <= N -> j <= N -> (Cmod (E i j) <= 1)%R) -> (forall i j, i <= N -> j <= N -> (Cmod (F i j) <= 1)%R) ->
  (forall i j, i <= N -> j <= N -> (Cmod (E i j - X i j)%C <= x)%R) -> (forall i j, i <= N -> j <= N -> (Cmod (F i j - Y i j)%C <= y)%R) ->
  forall i j, i <= N -> j <= N -> (Cmod (mat_mul (S N) E F i j - mat_mul (S N) X Y i j)%C <= INR (S N) * (x + y * (1 + x)))%R.
Proof.
  intros Hx Hy HE HF HX HY i j Hi Hj. unfold mat_mul.
  replace (Csum (seq 0 (S N)) (fun k => E i k * F k j)%C - Csum (seq 0 (S N)) (fun k => X i k * Y k j)%C)%C
    with (Csum (seq 0 (S N)) (fun k => (E i k - X i k) * F k j + X i k * (F k j - Y k j))%C).
  2:{ generalize (seq 0 (S N)). intros l. induction l as [|k l IH]; [rewrite !Csum_nil; ring|]. rewrite !Csum_cons, IH. ring. }
  eapply Rle_trans; [apply Cmod_Csum|]. rewrite <- (seq_length (S N) 0) at 2. rewrite <- Rsum_const. apply Rsum_le. intros k Hk. apply in_seq in Hk.
  eapply Rle_trans; [apply Cmod_triangle|]. rewrite !Cmod_mult.
  assert (Hk' : k <= N) by lia. pose proof (HE i k Hi Hk'). pose proof (HF k j Hk' Hj). pose proof (HX i k Hi Hk'). pose proof (HY k j Hk' Hj).
  pose proof (Cmod_minus (X i k) (E i k)). pose proof (Cmod_ge_0 (E i k - X i k)%C). pose proof (Cmod_ge_0 (F k j - Y k j)%C). pose proof (Cmod_ge_0 (F k j)). pose proof (Cmod_ge_0 (X i k)).
  apply Rplus_le_compat.
  - rewrite <- (Rmult_1_r x). apply Rmult_le_compat; lra.
  - rewrite (Rmult_comm y). apply Rmult_le_compat; lra.
Qed.

Lemma combine_bound p delta : 1 <= p -> (0 <= delta)%R -> forall (l : list mat) (Us : list mat2),
  Forall2 (fun M U => blocks K M /\ unitary2 U /\ forall n u, n <= N -> u <= N -> (Cmod (gam U N n u - sector M n u)%C <= delta)%R) l Us ->
  forall T U0 err, blocks K T -> unitary2 U0 -> (0 <= err)%R -> (forall n u, n <= N -> u <= N -> (Cmod (gam U0 N n u - sector T n u)%C <= err)%R) ->
  forall n u, n <= N -> u <= N ->
  (Cmod (gam (fold_left (fun V U => mat2_mul V U) Us U0) N n u - sector (fold_left (fun T M => mat_mul (size_of_basis K) M T) l T) n u)%C
   <= INR (S N) ^ length l * (1 + delta) ^ length l * (err + INR (length l) * delta))%R.
Proof.
  intros Hp Hd l Us HF. induction HF as [|M U l Us (HM & HU & HMU) HF IH]; intros T U0 err HT HU0 He Herr n u Hn Hu.
  - cbn [fold_left length pow INR]. rewrite Rmult_0_l, Rplus_0_r, !Rmult_1_l. now apply Herr.
  - cbn [fold_left]. eapply Rle_trans; [apply (IH _ _ (INR (S N) * (delta + err * (1 + delta)))%R)|].
    + now apply blocks_mul.
    + now apply unitary2_mul.
    + apply Rmult_le_pos; [apply pos_INR|nra].
    + intros n' u' Hn' Hu'. rewrite sector_mul by auto. rewrite <- (gam_compose U U0 N n' u' Hn').
      apply (product_bound (gam U N) (gam U0 N) (sector M) (sector T)); auto; intros; now apply gam_bound.
    + exact Hn.
    + exact Hu.
    + cbn [length pow]. set (k := length l). set (d := INR (S N)). assert (Hd1 : (1 <= d)%R) by (unfold d; rewrite S_INR; pose proof (pos_INR N); lra).
      assert (0 <= d ^ k)%R by (apply pow_le; lra). assert (0 <= (1 + delta) ^ k)%R by (apply pow_le; lra). rewrite S_INR.
      replace (d * d ^ k * ((1 + delta) * (1 + delta) ^ k) * (err + (INR k + 1) * delta))%R with (d ^ k * (1 + delta) ^ k * (d * ((1 + delta) * (err + (INR k + 1) * delta))))%R by ring.
      apply Rmult_le_compat_l; [now apply Rmult_le_pos|]. pose proof (pos_INR k). assert (0 <= INR k * delta)%R by now apply Rmult_le_pos.
      assert (INR k * delta <= d * (INR k * delta))%R by nra. 
      assert (d * (INR k * delta) <= d * (1 + delta) * (INR k * delta))%R by nra. nra.
Qed.
End Sector.

(** ** The Hamiltonians *)
Lemma blocks_limited L chs ops : 1 <= L ->
  (forall op, In op ops -> length (fst op) <= length chs /\ number_change (fst op) = 0%Z /\ word_ok (number_of_channels chs) (combine chs (fst op)) = true) ->
  blocks (limited L chs) (limited_matrix L chs ops).
Proof.
  intros HL HN i o Hi Ho Hs. set (K := limited L chs) in *. assert (HLK : 1 <= dL K) by exact HL. unfold limited_matrix. cbv zeta. fold K. apply Csum_zero. intros op Hop.
  destruct (HN op Hop) as (Hl & Hz & Hw).
  destruct (run_word _ _ _) as [[vs b]|] eqn:Er; [|reflexivity]. destruct (forallb (fun v => v <? L) vs) eqn:Ev; [|reflexivity]. cbn [andb].
  destruct (Nat.eqb_spec (index_of_values K vs) o) as [Eo|]; [|reflexivity]. exfalso. apply Hs.
  pose proof (values_from_index_valid K i HLK) as [Li _].
  assert (Hlv : length vs = dN K) by (rewrite <- Li; eapply run_word_length; eauto).
  assert (Vv : valid K vs).
  { split; [exact Hlv|]. apply Forall_forall. rewrite forallb_forall in Ev. intros v Hv. apply Nat.ltb_lt. now apply Ev. }
  eapply (run_word_total (number_of_channels chs)) in Er; eauto. rewrite <- Eo, values_index_roundtrip by auto. lia.
Qed.

Definition two : list nat := [0;0;1;1].
Definition contribution (L N n u : nat) (op : list command * C) : C :=
  match run_word (combine two (fst op)) [n; N - n] (snd op) with
  | None => RtoC 0
  | Some (vs, coef) => if forallb (fun v => v <? L) vs && (index_of_values (Dims L 2 true) vs =? at_pair L u (N - u)) then coef else RtoC 0
  end.
Lemma sector_limited L N ops n u : N < L -> n <= N -> sector L N (limited_matrix L two ops) n u = Csum ops (contribution L N n u).
Proof.
  intros HN Hn. unfold sector, limited_matrix. cbv zeta. change (limited L two) with (Dims L 2 true). rewrite (pair_values L N HN n (N - n)) by lia. reflexivity.
Qed.
Lemma contribution_to L N n u a b z op : N < L -> u <= N -> run_word (combine two (fst op)) [n; N - n] (snd op) = Some ([a; b], z) -> a + b = N ->
  contribution L N n u op = if a =? u then z else RtoC 0.
Proof.
  intros HN Hu E Hab. unfold contribution. rewrite E. cbn [forallb]. replace (a <? L) with true by (symmetry; apply Nat.ltb_lt; lia).
  replace (b <? L) with true by (symmetry; apply Nat.ltb_lt; lia). cbn [andb]. fold (at_pair L a b). replace b with (N - a) by lia. rewrite (sector_eqb L N HN) by lia. reflexivity.
Qed.
Lemma sqrt_INR_twice n : (RtoC (sqrt (INR n)) * RtoC (sqrt (INR n)))%C = INC n.
Proof. rewrite <- RtoC_mult, sqrt_sqrt by apply pos_INR. reflexivity. Qed.

(** a0* a0 *)
Lemma contribution_00 L N n u c : N < L -> n <= N -> u <= N -> contribution L N n u ([Minus;Plus;Skip;Skip], c) = if n =? u then (c * INC u)%C else RtoC 0.
Proof.
  intros HN Hn Hu. destruct n as [|n].
  - unfold contribution. cbn. destruct u; [cbn; rewrite INC_0; ring|reflexivity].
  - rewrite (contribution_to L N (S n) u (S n) (N - S n) (c * RtoC (sqrt (INR (S n))) * RtoC (sqrt (INR (n + 1))))%C _ HN Hu).
    + destruct (Nat.eqb_spec (S n) u) as [<-|]; [|reflexivity]. rewrite Nat.add_1_r, <- Cmult_assoc, sqrt_INR_twice. reflexivity.
    + cbn [fst snd two combine run_word nth set_nth Nat.eqb]. rewrite Nat.sub_succ, Nat.sub_0_r. cbn [nth set_nth]. now rewrite !Nat.add_1_r.
    + lia.
Qed.
(** a1* a1 *)
Lemma contribution_11 L N n u c : N < L -> n <= N -> u <= N -> contribution L N n u ([Skip;Skip;Minus;Plus], c) = if n =? u then (c * INC (N - u))%C else RtoC 0.
Proof.
  intros HN Hn Hu. destruct (N - n) as [|m] eqn:Em.
  - unfold contribution. rewrite Em. cbn. destruct (Nat.eqb_spec n u) as [<-|]; [rewrite Em, INC_0; ring|reflexivity].
  - rewrite (contribution_to L N n u n (N - n) (c * RtoC (sqrt (INR (S m))) * RtoC (sqrt (INR (m + 1))))%C _ HN Hu).
    + destruct (Nat.eqb_spec n u) as [<-|]; [|reflexivity]. rewrite Em, Nat.add_1_r, <- Cmult_assoc, sqrt_INR_twice. reflexivity.
    + rewrite Em. cbn [fst snd two combine run_word nth set_nth Nat.eqb]. rewrite Nat.sub_succ, Nat.sub_0_r. cbn [nth set_nth]. now rewrite !Nat.add_1_r.
    + lia.
Qed.
(** a1* a0 *)
Lemma contribution_10 L N n u c : N < L -> n <= N -> u <= N ->
  contribution L N n u ([Minus;Skip;Plus;Skip], c) = if n =? S u then (c * RtoC (sqrt (INR (S u) * INR (N - u))))%C else RtoC 0.
Proof.
  intros HN Hn Hu. destruct n as [|n]; [reflexivity|].
  rewrite (contribution_to L N (S n) u n (N - n) (c * RtoC (sqrt (INR (S n))) * RtoC (sqrt (INR (N - n))))%C _ HN Hu).
  - cbn [Nat.eqb]. destruct (Nat.eqb_spec n u) as [<-|]; [|reflexivity]. rewrite sqrt_mult by apply pos_INR. rewrite RtoC_mult. ring.
  - cbn [fst snd two combine run_word nth set_nth Nat.eqb]. rewrite Nat.sub_succ, Nat.sub_0_r. cbn [nth set_nth]. replace (N - S n + 1) with (N - n) by lia. reflexivity.
  - lia.
Qed.
(** a0* a1 *)
Lemma contribution_01 L N n u c : N < L -> n <= N -> u <= N ->
  contribution L N n u ([Plus;Skip;Minus;Skip], c) = if S n =? u then (c * RtoC (sqrt (INR u * INR (N - n))))%C else RtoC 0.
Proof.
  intros HN Hn Hu. destruct (Nat.eq_dec n N) as [->|Hne].
  - destruct (Nat.eqb_spec (S N) u); [lia|]. unfold contribution. rewrite Nat.sub_diag. reflexivity.
  - rewrite (contribution_to L N n u (S n) (N - S n) (c * RtoC (sqrt (INR (S n))) * RtoC (sqrt (INR (N - n))))%C _ HN Hu).
    + destruct (Nat.eqb_spec (S n) u) as [<-|]; [|reflexivity]. rewrite sqrt_mult by apply pos_INR. rewrite RtoC_mult. ring.
    + cbn [fst snd two combine run_word nth set_nth]. destruct (Nat.eqb_spec (N - n) 0); [lia|]. rewrite Nat.add_1_r. replace (N - n - 1) with (N - S n) by lia. reflexivity.
    + lia.
Qed.
(** a0 a0* and a1 a1* *)
Lemma contribution_00' L N n u c : N < L -> n <= N -> u <= N -> contribution L N n u ([Plus;Minus;Skip;Skip], c) = if n =? u then (c * INC (S u))%C else RtoC 0.
Proof.
  intros HN Hn Hu. rewrite (contribution_to L N n u n (N - n) (c * RtoC (sqrt (INR (S n))) * RtoC (sqrt (INR (S n))))%C _ HN Hu).
  - destruct (Nat.eqb_spec n u) as [<-|]; [|reflexivity]. now rewrite <- Cmult_assoc, sqrt_INR_twice.
  - cbn [fst snd two combine run_word nth set_nth]. rewrite Nat.add_1_r. cbn [Nat.eqb]. now rewrite Nat.sub_succ, Nat.sub_0_r.
  - lia.
Qed.
Lemma contribution_11' L N n u c : N < L -> n <= N -> u <= N -> contribution L N n u ([Skip;Skip;Plus;Minus], c) = if n =? u then (c * INC (S (N - u)))%C else RtoC 0.
Proof.
  intros HN Hn Hu. rewrite (contribution_to L N n u n (N - n) (c * RtoC (sqrt (INR (S (N - n)))) * RtoC (sqrt (INR (S (N - n)))))%C _ HN Hu).
  - destruct (Nat.eqb_spec n u) as [<-|]; [|reflexivity]. now rewrite <- Cmult_assoc, sqrt_INR_twice.
  - cbn [fst snd two combine run_word nth set_nth]. rewrite Nat.add_1_r. cbn [Nat.eqb]. now rewrite Nat.sub_succ, Nat.sub_0_r.
  - lia.
Qed.

(** Column sums. *)
Lemma Rsum_pick N x (f : nat -> R) : (forall k, 0 <= f k)%R -> (Rsum (seq 0 (S N)) (fun k => if k =? x then f k else 0) <= f x)%R.
Proof.
  intros Hf. destruct (Nat.leb_spec x N).
  - rewrite (Rsum_single _ x); [rewrite Nat.eqb_refl; apply Rle_refl|apply seq_NoDup|apply in_seq; lia|]. intros y _ Hy. destruct (Nat.eqb_spec y x); [contradiction|reflexivity].
  - rewrite Rsum_zero; [apply Hf|]. intros k Hk. apply in_seq in Hk. destruct (Nat.eqb_spec k x); [lia|reflexivity].
Qed.
Lemma sqrt_mean x y : (0 <= x)%R -> (0 <= y)%R -> (sqrt (x * y) <= (x + y) / 2)%R.
Proof. intros. rewrite <- (sqrt_square ((x + y) / 2)) by lra. apply sqrt_le_1_alt. pose proof (Rle_0_sqr (x - y)) as H1. unfold Rsqr in H1. lra. Qed.
Lemma sector_columns G N u : u <= N ->
  (Rsum (seq 0 (S N)) (fun k => Cmod (sector_gen G N k u)) <= Cmod (m00 G) * INR u + Cmod (m11 G) * INR (N - u) + (Cmod (m10 G) + Cmod (m01 G)) * (INR (S N) / 2))%R.
Proof.
  intros Hu.
  apply Rle_trans with (Rsum (seq 0 (S N)) (fun k => (if k =? u then Cmod (m00 G) * INR u + Cmod (m11 G) * INR (N - u) else 0) +
    (if k =? S u then Cmod (m10 G) * (INR (S N) / 2) else 0) + (if k =? u - 1 then Cmod (m01 G) * (INR (S N) / 2) else 0)))%R.
  - apply Rsum_le. intros k Hk. apply in_seq in Hk. unfold sector_gen. eapply Rle_trans; [apply Cmod_triangle|]. apply Rplus_le_compat; [eapply Rle_trans; [apply Cmod_triangle|]; apply Rplus_le_compat|].
    + destruct (k =? u); [|rewrite Cmod_0; apply Rle_refl]. eapply Rle_trans; [apply Cmod_triangle|]. rewrite !Cmod_mult. unfold INC. rewrite !Cmod_R, !Rabs_pos_eq by apply pos_INR. apply Rle_refl.
    + destruct (k =? S u); [|rewrite Cmod_0; apply Rle_refl]. rewrite Cmod_mult, Cmod_R, Rabs_pos_eq by apply sqrt_pos. apply Rmult_le_compat_l; [apply Cmod_ge_0|].
      eapply Rle_trans; [apply sqrt_mean; apply pos_INR|]. rewrite <- plus_INR. replace (S u + (N - u)) with (S N) by lia. apply Rle_refl.
    + assert (Hp : (0 <= Cmod (m01 G) * (INR (S N) / 2))%R) by (apply Rmult_le_pos; [apply Cmod_ge_0|pose proof (pos_INR (S N)); lra]).
      destruct (Nat.eqb_spec (S k) u) as [<-|]; [|rewrite Cmod_0; destruct (k =? u - 1); lra]. replace (k =? S k - 1) with true by (symmetry; apply Nat.eqb_eq; lia).
      rewrite Cmod_mult, Cmod_R, Rabs_pos_eq by apply sqrt_pos. apply Rmult_le_compat_l; [apply Cmod_ge_0|].
      eapply Rle_trans; [apply sqrt_mean; apply pos_INR|]. rewrite <- plus_INR. replace (S k + (N - k)) with (S N) by lia. apply Rle_refl.
  - rewrite !Rsum_plus. pose proof (pos_INR (S N)). pose proof (pos_INR u). pose proof (pos_INR (N - u)). pose proof (Cmod_ge_0 (m00 G)). pose proof (Cmod_ge_0 (m11 G)). pose proof (Cmod_ge_0 (m10 G)). pose proof (Cmod_ge_0 (m01 G)).
    assert (P1 := Rsum_pick N u (fun _ => Cmod (m00 G) * INR u + Cmod (m11 G) * INR (N - u))%R). cbv beta in P1. specialize (P1 ltac:(intros; nra)).
    assert (P2 := Rsum_pick N (S u) (fun _ => Cmod (m10 G) * (INR (S N) / 2))%R). cbv beta in P2. specialize (P2 ltac:(intros; nra)).
    assert (P3 := Rsum_pick N (u - 1) (fun _ => Cmod (m01 G) * (INR (S N) / 2))%R). cbv beta in P3. specialize (P3 ltac:(intros; nra)).
    lra.
Qed.
