(** C41: the truncated exponential series converge to the exponentials. *)
From Coq Require Import Reals List Arith Lia Lra Bool.
From Coquelicot Require Import Coquelicot.
From Verif Require Import Prelude NamesModel NamesSpec NamesProofs FockModel FockSpec BosonProofs FockProofs StateModel StateSpec StateProofs CollectionModel EvalModel OperatorModel OperatorSpec PropOperator ExponentialSpec ExponentialProofs.
Import ListNotations.
Open Scope nat_scope.

(** [phi] solves the differential equation phi' = H phi and starts with [psi]. *)
Definition evolves (K : dims) (chs : list nat) (h : hamiltonian) (psi : wave) (phi : R -> wave) : Prop :=
  (forall vs, phi 0%R vs = psi vs) /\
  forall t vs, cderiv (fun x => phi x vs) t (hamiltonian_action K chs (h_operators h) (phi t) vs).
(** [chi] is reached from [psi] when every Hamiltonian of the list acts for one unit of time. *)
Fixpoint evolved (K : dims) (chs : list nat) (hs : list hamiltonian) (psi chi : wave) : Prop :=
  match hs with
  | [] => forall vs, chi vs = psi vs
  | h :: r => exists phi, evolves K chs h psi phi /\ evolved K chs r (phi 1%R) chi
  end.

(** ** Limits of complex sequences *)
Definition clim (f : nat -> C) (z : C) : Prop :=
  is_lim_seq (fun n => fst (f n)) (fst z) /\ is_lim_seq (fun n => snd (f n)) (snd z).
Lemma clim_const z : clim (fun _ => z) z.
Proof. split; apply is_lim_seq_const. Qed.
Lemma clim_plus f g y z : clim f y -> clim g z -> clim (fun n => f n + g n)%C (y + z)%C.
Proof. intros [A B] [A' B']. split; cbn; now apply is_lim_seq_plus'. Qed.
Lemma clim_mult f g y z : clim f y -> clim g z -> clim (fun n => f n * g n)%C (y * z)%C.
Proof.
  intros [A B] [A' B']. split; cbn.
  - apply is_lim_seq_minus'; now apply is_lim_seq_mult'.
  - apply is_lim_seq_plus'; now apply is_lim_seq_mult'.
Qed.
Lemma clim_sum {A} (l : list A) (f : A -> nat -> C) g : (forall x, In x l -> clim (f x) (g x)) -> clim (fun n => Csum l (fun x => f x n)) (Csum l g).
Proof.
  induction l as [|x l IH]; intros H.
  - apply clim_const.
  - rewrite Csum_cons. split.
    + eapply is_lim_seq_ext; [intros n; now rewrite Csum_cons|]. apply clim_plus; [apply H; now left|apply IH; intros; apply H; now right].
    + eapply is_lim_seq_ext; [intros n; now rewrite Csum_cons|]. apply clim_plus; [apply H; now left|apply IH; intros; apply H; now right].
Qed.
Lemma clim_ext f g z : (forall n, f (S n) = g (S n)) -> clim f z -> clim g z.
Proof.
  intros E [A B]. split; apply is_lim_seq_incr_1.
  - apply is_lim_seq_ext with (fun n => fst (f (S n))); [intros n; now rewrite E|]. now apply is_lim_seq_incr_1 in A.
  - apply is_lim_seq_ext with (fun n => snd (f (S n))); [intros n; now rewrite E|]. now apply is_lim_seq_incr_1 in B.
Qed.
Lemma clim_near f z : clim f z -> forall delta, (0 < delta)%R -> exists P, forall p, P <= p -> (Cmod (f p - z)%C < delta)%R.
Proof.
  intros [A B] delta Hd. apply is_lim_seq_spec in A. apply is_lim_seq_spec in B.
  destruct (A (mkposreal (delta / 2) ltac:(lra))) as [P HP]. destruct (B (mkposreal (delta / 2) ltac:(lra))) as [Q HQ]. cbn in HP, HQ.
  exists (P + Q). intros p Hp. specialize (HP p ltac:(lia)). specialize (HQ p ltac:(lia)).
  eapply Rle_lt_trans; [|apply Rlt_le_trans with (delta / 2 + delta / 2)%R; [apply Rplus_lt_compat; [exact HP|exact HQ]|lra]].
  replace (f p - z)%C with ((RtoC (fst (f p) - fst z)) + (0, snd (f p) - snd z)%R)%C by (apply C_eq; cbn; ring).
  eapply Rle_trans; [apply Cmod_triangle|]. rewrite Cmod_R. apply Rplus_le_compat_l.
  unfold Cmod. cbn. replace (0 * (0 * 1) + (snd (f p) - snd z) * ((snd (f p) - snd z) * 1))%R with (Rsqr (snd (f p) - snd z)) by (unfold Rsqr; ring).
  rewrite sqrt_Rsqr_abs. lra.
Qed.

(** ** Entire power series with complex coefficients *)
Definition entire (c : nat -> C) : Prop := exists B h : R, (0 <= B)%R /\ (0 <= h)%R /\ forall n, (Cmod (c n) <= B * (h ^ n / INR (fact n)))%R.
Definition CP (c : nat -> C) (t : R) : C := (PSeries (fun n => fst (c n)) t, PSeries (fun n => snd (c n)) t).
Lemma bounded_radius (a : nat -> R) B h : (0 <= B)%R -> (0 <= h)%R -> (forall n, Rabs (a n) <= B * (h ^ n / INR (fact n)))%R -> CV_radius a = p_infty.
Proof.
  intros HB Hh H. destruct (CV_radius_bounded a) as [U _].
  assert (G : forall r : R, (0 <= r)%R -> Rbar_le r (CV_radius a)).
  { intros r Hr. apply U. exists (B * exp (h * r))%R. intros n. rewrite Rabs_mult, <- RPow_abs, (Rabs_pos_eq r) by exact Hr.
    apply Rle_trans with (B * (h ^ n / INR (fact n)) * r ^ n)%R.
    - apply Rmult_le_compat_r; [now apply pow_le|apply H].
    - assert (E : (B * (h ^ n / INR (fact n)) * r ^ n = B * ((h * r) ^ n / INR (fact n)))%R) by (rewrite Rpow_mult_distr; field; apply INR_fact_neq_0).
      rewrite E. apply Rmult_le_compat_l; [exact HB|].
      eapply Rle_trans; [|apply (exp_ge_taylor (h * r) n); now apply Rmult_le_pos].
      destruct n as [|n]; [cbn; lra|]. cbn [sum_f_R0].
      assert (0 <= sum_f_R0 (fun k => (h * r) ^ k / INR (fact k)) n)%R; [|lra].
      apply cond_pos_sum. intros k. apply Rdiv_le_0_compat; [apply pow_le; now apply Rmult_le_pos|apply fact_pos]. }
  destruct (CV_radius a) as [r| |] eqn:E; [|reflexivity|].
  - specialize (G (Rabs r + 1)%R ltac:(pose proof (Rabs_pos r); lra)). cbn in G. pose proof (Rle_abs r). lra.
  - specialize (G 0%R (Rle_refl 0)). contradiction.
Qed.
Lemma fst_Cmod' z : (Rabs (fst z) <= Cmod z)%R.
Proof. pose proof (Rmax_Cmod z). pose proof (Rmax_l (Rabs (fst z)) (Rabs (snd z))). lra. Qed.
Lemma snd_Cmod' z : (Rabs (snd z) <= Cmod z)%R.
Proof. pose proof (Rmax_Cmod z). pose proof (Rmax_r (Rabs (fst z)) (Rabs (snd z))). lra. Qed.
Lemma entire_radius c : entire c -> CV_radius (fun n => fst (c n)) = p_infty /\ CV_radius (fun n => snd (c n)) = p_infty.
Proof.
  intros (B & h & HB & Hh & H). split; apply (bounded_radius _ B h); auto; intros n; eapply Rle_trans; try apply (H n); [apply fst_Cmod'|apply snd_Cmod'].
Qed.
Lemma radius_ex (a : nat -> R) t : CV_radius a = p_infty -> ex_pseries a t.
Proof. intros H. apply CV_radius_inside. now rewrite H. Qed.
Lemma CP_derive c t : entire c -> cderiv (CP c) t (CP (fun n => RtoC (INR (S n)) * c (S n))%C t).
Proof.
  intros H. destruct (entire_radius c H) as [A B]. split; cbn [CP fst snd].
  - replace (PSeries (fun n => fst (RtoC (INR (S n)) * c (S n))%C) t) with (PSeries (PS_derive (fun n => fst (c n))) t).
    + apply is_derive_PSeries. now rewrite A.
    + apply PSeries_ext. intros n. unfold PS_derive, Cmult, RtoC. cbn [fst snd]. ring.
  - replace (PSeries (fun n => snd (RtoC (INR (S n)) * c (S n))%C) t) with (PSeries (PS_derive (fun n => snd (c n))) t).
    + apply is_derive_PSeries. now rewrite B.
    + apply PSeries_ext. intros n. unfold PS_derive, Cmult, RtoC. cbn [fst snd]. ring.
Qed.
Lemma CP_scal c z t : entire c -> CP (fun n => c n * z)%C t = (CP c t * z)%C.
Proof.
  intros H. destruct (entire_radius c H) as [A B].
  assert (E : forall (a : nat -> R) k, ex_pseries a t -> ex_pseries (PS_scal_r k a) t).
  { intros a k He. apply ex_pseries_ext with (PS_scal k a); [intros n; unfold PS_scal, PS_scal_r; apply Rmult_comm|].
    apply (ex_pseries_scal (K := R_AbsRing) (V := R_NormedModule)); [apply Rmult_comm|exact He]. }
  apply C_eq; cbn [CP fst snd Cmult].
  - rewrite <- !PSeries_scal_r. rewrite <- PSeries_minus by (apply E; now apply radius_ex). apply PSeries_ext. intros n. reflexivity.
  - rewrite <- !PSeries_scal_r. rewrite <- PSeries_plus by (apply E; now apply radius_ex). apply PSeries_ext. intros n. reflexivity.
Qed.
Lemma CP_plus b c t : entire b -> entire c -> CP (fun n => b n + c n)%C t = (CP b t + CP c t)%C.
Proof.
  intros H H'. destruct (entire_radius b H) as [A B], (entire_radius c H') as [A' B'].
  apply C_eq; cbn [CP fst snd Cplus]; rewrite <- PSeries_plus by (now apply radius_ex); apply PSeries_ext; intros n; reflexivity.
Qed.
Lemma entire_scal c z : entire c -> entire (fun n => c n * z)%C.
Proof.
  intros (B & h & HB & Hh & H). exists (B * Cmod z)%R, h. split; [apply Rmult_le_pos; [exact HB|apply Cmod_ge_0]|]. split; [exact Hh|].
  intros n. rewrite Cmod_mult. pose proof (Cmod_ge_0 z). specialize (H n). apply Rmult_le_compat_r with (r := Cmod z) in H; [|assumption]. lra.
Qed.
Lemma entire_zero : entire (fun _ => RtoC 0).
Proof. exists 0%R, 0%R. split; [lra|]. split; [lra|]. intros n. rewrite Cmod_0. lra. Qed.
Lemma entire_plus b c : entire b -> entire c -> entire (fun n => b n + c n)%C.
Proof.
  intros (B & h & HB & Hh & H) (B' & h' & HB' & Hh' & H'). exists (B + B')%R, (Rmax h h').
  pose proof (Rmax_l h h'). pose proof (Rmax_r h h'). split; [lra|]. split; [lra|]. intros n. eapply Rle_trans; [apply Cmod_triangle|].
  specialize (H n). specialize (H' n).
  assert (G : forall x, (0 <= x <= Rmax h h' -> x ^ n / INR (fact n) <= Rmax h h' ^ n / INR (fact n))%R).
  { intros x Hx. apply Rmult_le_compat_r; [apply Rlt_le, Rinv_0_lt_compat, fact_pos|]. now apply pow_incr. }
  pose proof (G h ltac:(lra)) as G1. pose proof (G h' ltac:(lra)) as G2. rewrite Rmult_plus_distr_r.
  apply Rplus_le_compat; (eapply Rle_trans; [eassumption|now apply Rmult_le_compat_l]).
Qed.
Lemma entire_sum {A} (l : list A) (c : A -> nat -> C) : (forall x, In x l -> entire (c x)) -> entire (fun n => Csum l (fun x => c x n)).
Proof.
  induction l as [|x l IH]; intros H.
  - apply entire_zero.
  - destruct (entire_plus (c x) (fun n => Csum l (fun y => c y n))) as (B & h & HB & Hh & G); [apply H; now left|apply IH; intros; apply H; now right|].
    exists B, h. split; [exact HB|]. split; [exact Hh|]. intros n. rewrite Csum_cons. apply G.
Qed.
Lemma CP_ext b c t : (forall n, b n = c n) -> CP b t = CP c t.
Proof. intros H. apply C_eq; cbn [CP fst snd]; apply PSeries_ext; intros n; now rewrite H. Qed.
Lemma CP_sum {A} (l : list A) (c : A -> nat -> C) t : (forall x, In x l -> entire (c x)) ->
  CP (fun n => Csum l (fun x => c x n)) t = Csum l (fun x => CP (c x) t).
Proof.
  induction l as [|x l IH]; intros H.
  - rewrite Csum_nil. apply C_eq; cbn [CP fst snd].
    + rewrite (PSeries_ext _ (fun _ => 0%R)) by reflexivity. apply PSeries_const_0.
    + rewrite (PSeries_ext _ (fun _ => 0%R)) by reflexivity. apply PSeries_const_0.
  - rewrite Csum_cons, <- IH by (intros; apply H; now right).
    rewrite <- (CP_plus (c x) (fun n => Csum l (fun y => c y n))); [apply CP_ext; intros n; exact (Csum_cons x l (fun y => c y n))|apply H; now left|apply entire_sum; intros; apply H; now right].
Qed.
Lemma CP_start c : CP c 0%R = c 0.
Proof. apply C_eq; cbn [CP fst snd]; apply PSeries_0. Qed.
Lemma part_limit (a : nat -> R) : CV_radius a = p_infty -> is_lim_seq (fun p => Rsum (seq 0 p) a) (PSeries a 1%R).
Proof.
  intros H. pose proof (PSeries_correct a 1%R (radius_ex a 1%R H)) as E. apply is_pseries_R in E.
  apply is_lim_seq_incr_1. eapply is_lim_seq_ext; [|exact E]. intros n. cbv beta. rewrite sum_n_Reals, sum_f_Rsum.
  apply Rsum_ext. intros k _. cbv beta. rewrite pow1. apply Rmult_1_r.
Qed.
Lemma fst_sum {A} (l : list A) (f : A -> C) : fst (Csum l f) = Rsum l (fun x => fst (f x)).
Proof. induction l as [|x l IH]; [reflexivity|]. rewrite Csum_cons, Rsum_cons, <- IH. reflexivity. Qed.
Lemma snd_sum {A} (l : list A) (f : A -> C) : snd (Csum l f) = Rsum l (fun x => snd (f x)).
Proof. induction l as [|x l IH]; [reflexivity|]. rewrite Csum_cons, Rsum_cons, <- IH. reflexivity. Qed.
Lemma CP_limit c : entire c -> clim (fun p => Csum (seq 0 p) c) (CP c 1%R).
Proof.
  intros H. destruct (entire_radius c H) as [A B]. split; cbn [CP fst snd].
  - eapply is_lim_seq_ext; [intros n; symmetry; apply fst_sum|]. now apply part_limit.
  - eapply is_lim_seq_ext; [intros n; symmetry; apply snd_sum|]. now apply part_limit.
Qed.

(** ** Exponentials of matrices *)
Lemma Rsum_member {A} (l : list A) f x : (forall y, 0 <= f y)%R -> In x l -> (f x <= Rsum l f)%R.
Proof.
  intros H. induction l as [|y l IH]; [intros []|]. intros [E|Hi]; rewrite Rsum_cons; [subst|].
  - assert (0 <= Rsum l f)%R by (clear IH; induction l as [|z l IH]; [cbn; lra|rewrite Rsum_cons; specialize (H z); lra]). lra.
  - specialize (IH Hi). specialize (H y). lra.
Qed.
Definition coefficient (d : nat) (H : mat) (i u n : nat) : C := (RtoC (/ INR (fact n)) * mat_pow d H n i u)%C.
Lemma coefficient_entire d H i u : i < d -> u < d -> entire (coefficient d H i u).
Proof.
  intros Hi Hu. set (h := Rsum (seq 0 d) (fun u => Rsum (seq 0 d) (fun k => Cmod (H k u)))).
  assert (P : forall l (f : nat -> R), (forall y, 0 <= f y)%R -> (0 <= Rsum l f)%R).
  { intros l f Hf. induction l as [|z l IH]; [cbn; lra|rewrite Rsum_cons; specialize (Hf z); lra]. }
  assert (Hh : (0 <= h)%R) by (apply P; intros; apply P; intros; apply Cmod_ge_0).
  exists 1%R, h. split; [lra|]. split; [exact Hh|]. intros n. unfold coefficient. rewrite Cmod_mult, Cmod_R.
  rewrite Rabs_pos_eq by (apply Rlt_le, Rinv_0_lt_compat, fact_pos). rewrite Rmult_1_l. unfold Rdiv. rewrite Rmult_comm.
  apply Rmult_le_compat_r; [apply Rlt_le, Rinv_0_lt_compat, fact_pos|].
  eapply Rle_trans; [|apply (pow_columns d H h n); [|exact Hh|exact Hu]].
  - apply (Rsum_member (seq 0 d) (fun k => Cmod (mat_pow d H n k u))); [intros; apply Cmod_ge_0|apply in_seq; lia].
  - intros w Hw. apply (Rsum_member (seq 0 d) (fun u => Rsum (seq 0 d) (fun k => Cmod (H k u)))); [intros; apply P; intros; apply Cmod_ge_0|apply in_seq; lia].
Qed.
Definition family (d : nat) (H : mat) (t : R) : mat := fun i u => CP (coefficient d H i u) t.
Lemma family_start d H i u : family d H 0%R i u = if i =? u then RtoC 1 else RtoC 0.
Proof. unfold family. rewrite CP_start. unfold coefficient. cbn [fact INR mat_pow]. rewrite Rinv_1. apply Cmult_1_l. Qed.
Lemma family_derive d H t i u : i < d -> u < d -> cderiv (fun x => family d H x i u) t (mat_mul d (family d H t) H i u).
Proof.
  intros Hi Hu. eapply cderiv_eq; [|apply CP_derive; now apply coefficient_entire].
  unfold mat_mul, family. symmetry.
  rewrite (CP_ext _ (fun n => Csum (seq 0 d) (fun k => coefficient d H i k n * H k u)%C)).
  - rewrite CP_sum.
    + apply Csum_ext. intros k Hk. apply in_seq in Hk. symmetry. apply CP_scal. apply coefficient_entire; lia.
    + intros k Hk. apply in_seq in Hk. apply entire_scal, coefficient_entire; lia.
  - intros n. unfold coefficient. cbn [mat_pow]. unfold mat_mul.
    rewrite (Csum_ext _ (fun k => RtoC (/ INR (fact n)) * mat_pow d H n i k * H k u)%C (fun k => RtoC (/ INR (fact n)) * (mat_pow d H n i k * H k u))%C) by (intros; ring).
    rewrite Csum_scal_l, Cmult_assoc. f_equal. rewrite <- RtoC_mult. f_equal. rewrite INR_fact_S. field. split; [apply INR_fact_neq_0|apply not_0_INR; lia].
Qed.
Lemma family_limit d H i u : i < d -> u < d -> clim (fun p => exponential d p H i u) (family d H 1%R i u).
Proof.
  intros Hi Hu. apply clim_ext with (fun p => Csum (seq 0 p) (coefficient d H i u)).
  - intros n. rewrite exponential_sum by lia. reflexivity.
  - apply CP_limit. now apply coefficient_entire.
Qed.

(** ** The theorem *)
Lemma evolution L chs h psi : let K := limited L chs in 1 <= L ->
  forallb (fun op => word_ok (number_of_channels chs) (combine chs (fst op))) (h_operators h) = true -> supported K psi ->
  exists phi, evolves K chs h psi phi /\ supported K (phi 1%R) /\
    forall psi' : nat -> wave, (forall p, supported K (psi' p)) -> (forall vs, clim (fun p => psi' p vs) (psi vs)) ->
      forall vs, clim (fun p => series_action K chs p (h_operators h) (psi' p) vs) (phi 1%R vs).
Proof.
  intros K HL Hok HS. set (H := limited_matrix L chs (h_operators h)). set (d := size_of_basis K).
  assert (HM : forall T phi, supported K (matrix_action K T phi)).
  { intros T phi vs Hv. unfold matrix_action. destruct (contained K vs) eqn:E; [|reflexivity]. apply contained_spec in E. contradiction. }
  assert (HLK : 1 <= dL K) by exact HL.
  exists (fun t => matrix_action K (family d H t) psi). split; [split|split].
  - intros vs. etransitivity; [|exact (matrix_action_id K psi vs HLK HS)].
    apply matrix_action_ext; auto. intros i j _ _. apply family_start.
  - intros t vs. unfold K. eapply cderiv_eq; [symmetry; apply (hamiltonian_matrix L chs (h_operators h)); [exact HL|exact Hok|apply HM]|].
    fold K. fold H. rewrite <- matrix_action_mul by exact HLK. fold d. unfold matrix_action.
    destruct (contained K vs) eqn:E.
    + apply contained_spec in E. pose proof (index_of_values_bound K vs E).
      apply cderiv_sum. intros i Hi. apply in_seq in Hi. apply cderiv_scal. apply family_derive; unfold d in *; lia.
    + apply cderiv_const.
  - apply HM.
  - intros psi' HS' HC vs.
    apply clim_ext with (fun p => matrix_action K (exponential d p H) (psi' p) vs).
    { intros n. apply (series_matrix L chs (S n) (h_operators h)); auto. lia. }
    unfold matrix_action. destruct (contained K vs) eqn:E.
    + apply contained_spec in E. pose proof (index_of_values_bound K vs E).
      apply (clim_sum (seq 0 (size_of_basis K)) (fun i p => psi' p (values_from_index K i) * exponential d p H i (index_of_values K vs))%C).
      intros i Hi. apply in_seq in Hi. apply clim_mult; [apply HC|]. apply family_limit; unfold d in *; lia.
    + apply clim_const.
Qed.

Lemma evolution_list L chs : let K := limited L chs in 1 <= L -> forall l psi,
  (forall h, In h l -> forallb (fun op => word_ok (number_of_channels chs) (combine chs (fst op))) (h_operators h) = true) -> supported K psi ->
  exists chi, evolved K chs l psi chi /\
    forall psi' : nat -> wave, (forall p, supported K (psi' p)) -> (forall vs, clim (fun p => psi' p vs) (psi vs)) ->
      forall vs, clim (fun p => in_order K chs p l (psi' p) vs) (chi vs).
Proof.
  intros K HL. induction l as [|h l IH]; intros psi Hok HS.
  - exists psi. split; [intros vs; reflexivity|]. intros psi' _ HC vs. apply HC.
  - destruct (evolution L chs h psi HL (Hok h (or_introl eq_refl)) HS) as (phi & E1 & S1 & C1).
    destruct (IH (phi 1%R)) as (chi & E2 & C2); [intros h' Hh'; apply Hok; now right|exact S1|].
    exists chi. split; [exists phi; split; [exact E1|exact E2]|]. intros psi' HS' HC vs.
    apply clim_ext with (fun p => in_order K chs p l (match p with O => psi' O | _ => series_action K chs p (h_operators h) (psi' p) end) vs); [reflexivity|].
    apply (C2 (fun p => match p with O => psi' O | _ => series_action K chs p (h_operators h) (psi' p) end)).
    + intros [|p]; [apply HS'|]. apply (series_matrix L chs (S p) (h_operators h) (psi' (S p))); auto; [lia|apply Hok; now left].
    + intros us. apply clim_ext with (fun p => series_action K chs p (h_operators h) (psi' p) us); [reflexivity|]. now apply C1.
Qed.

(** C41: when the number of terms grows, the operator converges to the exponentials of the
    Hamiltonians, applied one after the other with the last one first: the limit is what the
    differential equations psi' = H psi give after one unit of time each. *)
Theorem C41_converges : forall L hs psi, let K := limited L (operator_channels hs) in
  1 <= L -> (exists T, transition_matrix L 1 hs = Some T) -> (forall vs, ~ valid K vs -> psi vs = RtoC 0) ->
  exists chi, evolved K (operator_channels hs) (rev hs) psi chi /\
    forall vs delta, (0 < delta)%R -> exists P, forall power T, P <= power -> transition_matrix L power hs = Some T ->
      (Cmod (matrix_action K T psi vs - chi vs)%C < delta)%R.
Proof.
  intros L hs psi K HL [T1 E1] HS.
  assert (Hok : forall h, In h (rev hs) -> forallb (fun op => word_ok (number_of_channels (operator_channels hs)) (combine (operator_channels hs) (fst op))) (h_operators h) = true).
  { intros h Hh. apply in_rev in Hh. unfold transition_matrix in E1. cbv zeta in E1.
    destruct (operator_channels hs); [discriminate|]. destruct (forallb _ hs) eqn:Ef; [|discriminate].
    rewrite forallb_forall in Ef. now apply Ef. }
  destruct (evolution_list L (operator_channels hs) HL (rev hs) psi Hok HS) as (chi & E & HC).
  exists chi. split; [exact E|]. intros vs delta Hd.
  destruct (clim_near _ _ (HC (fun _ => psi) (fun _ => HS) (fun us => clim_const (psi us)) vs) delta Hd) as [P HP].
  exists (S P). intros power T Hp ET. unfold K. rewrite (C41_transition L power hs T psi HL ltac:(lia) ET HS). apply HP. lia.
Qed.
Print Assumptions C41_converges.

(** The hypotheses are met by the displacement a* - a and the number operator, which do not commute,
    on photon numbers below 3. *)
Example C41_converges_case : exists T, transition_matrix 3 1
  [Ham [([Plus], RtoC 1); ([Minus], RtoC (-1))] [0; 0]; Ham [([Minus; Plus], (0, 1)%R)] [0; 0]] = Some T.
Proof. eexists. reflexivity. Qed.
