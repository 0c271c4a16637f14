(** The overlap of Gaussian pulses of one width is a positive kernel, so interference is a non-negative
    real number for any number of different delays. *)
From Coq Require Import Reals Lra Arith Lia.
From Coquelicot Require Import Rbar Hierarchy Lim_seq Series PSeries ElemFct Complex.
From Coq Require Import List Permutation.
From Verif Require Import Prelude NamesModel NamesSpec NamesProofs FockModel FockSpec BosonProofs FockProofs GateProofs PropFock StateModel StateSpec StateProofs
  CollectionModel EvalModel MeasureSpec MeasureProofs PropProducts ColumnModel ColumnSpec ColumnProofs TemporalSpec InterferenceSpec ArrangementProofs InterferenceProofs MeasuredProofs ExperimentSpec ExperimentProofs PermanentProofs PropPermanent SentProofs ConservationProofs.
Import ListNotations.

Section Blend.
Definition blurred (kap : R * R -> R * R -> R) (b b' : branch) (s t : list nat) : R :=
  Rprod (combine s t) (fun x => kap (ph_timing (nth_photon b (fst x))) (ph_timing (nth_photon b' (snd x)))).
Definition blend (kap : R * R -> R * R -> R) (bs : list branch) (f : values) : C :=
  Csum (fitting bs f) (fun b => Csum (fitting bs f) (fun b' =>
    Csum (orders (NamesSpec.photons f)) (fun s => Csum (orders (NamesSpec.photons f)) (fun t =>
      (path b (channels_of f) s * Cconj (path b' (channels_of f) t) * RtoC (blurred kap b b' s t))%C)))).
Lemma blend_modes K (e : R * R -> nat -> R) bs f :
  blend (fun a b => Rsum (seq 0 K) (fun m => e a m * e b m)%R) bs f = RtoC (Rsum (tuples K (NamesSpec.photons f)) (fun ms => Cnorm2 (mode_amplitude e bs f ms))).
Proof.
  rewrite <- Csum_RtoC.
  transitivity (Csum (tuples K (NamesSpec.photons f)) (fun ms => mode_amplitude e bs f ms * Cconj (mode_amplitude e bs f ms))%C).
  2:{ apply Csum_ext. intros ms _. now rewrite Cmult_comm, Cconj_mult_norm2. }
  unfold mode_amplitude. transitivity (Csum (tuples K (NamesSpec.photons f)) (fun ms => Csum (fitting bs f) (fun b => Csum (fitting bs f) (fun b' =>
    Csum (orders (NamesSpec.photons f)) (fun s => Csum (orders (NamesSpec.photons f)) (fun t =>
      (path b (channels_of f) s * RtoC (Rprod (combine s ms) (fun x => e (ph_timing (nth_photon b (fst x))) (snd x))) *
       Cconj (path b' (channels_of f) t * RtoC (Rprod (combine t ms) (fun x => e (ph_timing (nth_photon b' (fst x))) (snd x)))))%C)))))).
  2:{ apply Csum_ext. intros ms _. rewrite Csum_conj, Csum_prod2. apply Csum_ext. intros b _. apply Csum_ext. intros b' _. rewrite Csum_conj, Csum_prod2. reflexivity. }
  unfold blend. etransitivity; [|symmetry; apply Csum_swap]. apply Csum_ext. intros b Hb. etransitivity; [|symmetry; apply Csum_swap]. apply Csum_ext. intros b' Hb'. etransitivity; [|symmetry; apply Csum_swap]. apply Csum_ext. intros s Hs. etransitivity; [|symmetry; apply Csum_swap]. apply Csum_ext. intros t Ht.
  assert (HI : blurred (fun a b => Rsum (seq 0 K) (fun m => e a m * e b m)%R) b b' s t = Rsum (tuples K (NamesSpec.photons f)) (fun ms => Rprod (combine s ms) (fun x => e (ph_timing (nth_photon b (fst x))) (snd x)) * Rprod (combine t ms) (fun x => e (ph_timing (nth_photon b' (fst x))) (snd x)))%R).
  { rewrite <- (orders_length _ _ Hs). rewrite <- (Rprod_sums (fun j => e (ph_timing (nth_photon b j))) (fun j => e (ph_timing (nth_photon b' j)))) by (now rewrite (orders_length _ _ Hs), (orders_length _ _ Ht)). reflexivity. }
  rewrite HI, <- Csum_RtoC, <- Csum_scal_l. apply Csum_ext. intros ms _. rewrite RtoC_mult, Cconj_mult, Cconj_RtoC. ring.
Qed.
Lemma Csum_re {A} (l : list A) f : Re (Csum l f) = Rsum l (fun x => Re (f x)).
Proof. induction l as [|x l IH]; [reflexivity|]. rewrite Csum_cons, Rsum_cons, <- IH. reflexivity. Qed.
Lemma Csum_im {A} (l : list A) f : Im (Csum l f) = Rsum l (fun x => Im (f x)).
Proof. induction l as [|x l IH]; [reflexivity|]. rewrite Csum_cons, Rsum_cons, <- IH. reflexivity. Qed.
Lemma lim_Rsum {A} (l : list A) (u : A -> nat -> R) (v : A -> R) : (forall x, is_lim_seq (u x) (v x)) -> is_lim_seq (fun n => Rsum l (fun x => u x n)) (Rsum l v).
Proof. intro H. induction l as [|x l IH]; [apply is_lim_seq_const|]. apply (is_lim_seq_ext (fun n => u x n + Rsum l (fun y => u y n))%R); [intro; now rewrite Rsum_cons|]. rewrite Rsum_cons. now apply is_lim_seq_plus'. Qed.
Lemma lim_Rprod {A} (l : list A) (u : A -> nat -> R) (v : A -> R) : (forall x, is_lim_seq (u x) (v x)) -> is_lim_seq (fun n => Rprod l (fun x => u x n)) (Rprod l v).
Proof. intro H. induction l as [|x l IH]; [apply is_lim_seq_const|]. unfold Rprod in *. cbn [fold_right]. now apply is_lim_seq_mult'. Qed.
Lemma blend_limit (kn : nat -> R * R -> R * R -> R) (kap : R * R -> R * R -> R) bs f : (forall a b, is_lim_seq (fun n => kn n a b) (kap a b)) ->
  is_lim_seq (fun n => Re (blend (kn n) bs f)) (Re (blend kap bs f)) /\ is_lim_seq (fun n => Im (blend (kn n) bs f)) (Im (blend kap bs f)).
Proof.
  intro H. assert (HB : forall b b' s t, is_lim_seq (fun n => blurred (kn n) b b' s t) (blurred kap b b' s t)) by (intros; apply (lim_Rprod _ (fun x n => kn n (ph_timing (nth_photon b (fst x))) (ph_timing (nth_photon b' (snd x))))); intro; apply H).
  unfold blend. split.
  - rewrite Csum_re. apply (is_lim_seq_ext (fun n => Rsum (fitting bs f) (fun b => Re (Csum (fitting bs f) (fun b' => Csum (orders (NamesSpec.photons f)) (fun s => Csum (orders (NamesSpec.photons f)) (fun t =>
      (path b (channels_of f) s * Cconj (path b' (channels_of f) t) * RtoC (blurred (kn n) b b' s t))%C))))))); [intro; now rewrite Csum_re|].
    apply (lim_Rsum _ (fun b n => Re _)). intro b. rewrite Csum_re. eapply is_lim_seq_ext; [intro; symmetry; apply Csum_re|]. apply (lim_Rsum _ (fun b' n => Re _)). intro b'. rewrite Csum_re. eapply is_lim_seq_ext; [intro; symmetry; apply Csum_re|]. apply (lim_Rsum _ (fun s n => Re _)). intro s. rewrite Csum_re. eapply is_lim_seq_ext; [intro; symmetry; apply Csum_re|]. apply (lim_Rsum _ (fun t n => Re _)). intro t.
    set (z := (path b (channels_of f) s * Cconj (path b' (channels_of f) t))%C). assert (E : forall r, Re (z * RtoC r)%C = (Re z * r)%R) by (intro r; destruct z; cbn; ring). rewrite E. apply (is_lim_seq_ext (fun n => Re z * blurred (kn n) b b' s t)%R); [intro; now rewrite E|]. apply is_lim_seq_mult'; [apply is_lim_seq_const|apply HB].
  - rewrite Csum_im. eapply is_lim_seq_ext; [intro; symmetry; apply Csum_im|].
    apply (lim_Rsum _ (fun b n => Im _)). intro b. rewrite Csum_im. eapply is_lim_seq_ext; [intro; symmetry; apply Csum_im|]. apply (lim_Rsum _ (fun b' n => Im _)). intro b'. rewrite Csum_im. eapply is_lim_seq_ext; [intro; symmetry; apply Csum_im|]. apply (lim_Rsum _ (fun s n => Im _)). intro s. rewrite Csum_im. eapply is_lim_seq_ext; [intro; symmetry; apply Csum_im|]. apply (lim_Rsum _ (fun t n => Im _)). intro t.
    set (z := (path b (channels_of f) s * Cconj (path b' (channels_of f) t))%C). assert (E : forall r, Im (z * RtoC r)%C = (Im z * r)%R) by (intro r; destruct z; cbn; ring). rewrite E. apply (is_lim_seq_ext (fun n => Im z * blurred (kn n) b b' s t)%R); [intro; now rewrite E|]. apply is_lim_seq_mult'; [apply is_lim_seq_const|apply HB].
Qed.
End Blend.

(** ** The Gaussian kernel as a limit of finitely many modes *)
Definition pulse_mode (lam : R) (a : R * R) (m : nat) : R := (exp (- (lam * fst a ^ 2)) * sqrt ((2 * lam) ^ m / INR (fact m)) * fst a ^ m)%R.
Lemma pulse_modes lam a b : (0 <= lam)%R -> is_lim_seq (fun K => Rsum (seq 0 K) (fun m => pulse_mode lam a m * pulse_mode lam b m)%R) (exp (- (lam * (fst a - fst b) ^ 2))).
Proof.
  intro Hl. set (x := (2 * lam * (fst a * fst b))%R). set (k := (exp (- (lam * fst a ^ 2)) * exp (- (lam * fst b ^ 2)))%R).
  assert (E : forall K, Rsum (seq 0 K) (fun m => pulse_mode lam a m * pulse_mode lam b m)%R = (k * Rsum (seq 0 K) (fun m => / INR (fact m) * x ^ m))%R).
  { intro K. rewrite <- Rsum_scal_l. apply Rsum_ext. intros m _. unfold pulse_mode, k, x. pose proof (INR_fact_lt_0 m) as Hf.
    assert (Hs : (sqrt ((2 * lam) ^ m / INR (fact m)) * sqrt ((2 * lam) ^ m / INR (fact m)) = (2 * lam) ^ m / INR (fact m))%R) by (apply sqrt_sqrt; apply Rmult_le_pos; [apply pow_le; lra|apply Rlt_le, Rinv_0_lt_compat; exact Hf]).
    set (q := sqrt _) in *. rewrite !Rpow_mult_distr. unfold Rdiv in Hs. set (p := (2 ^ m * lam ^ m)%R). rewrite Rpow_mult_distr in Hs. fold p in Hs. transitivity (exp (- (lam * fst a ^ 2)) * exp (- (lam * fst b ^ 2)) * (q * q) * (fst a ^ m * fst b ^ m))%R; [ring|]. rewrite Hs. ring. }
  apply (is_lim_seq_ext (fun K => k * Rsum (seq 0 K) (fun m => / INR (fact m) * x ^ m))%R); [intro; now rewrite E|].
  replace (exp (- (lam * (fst a - fst b) ^ 2))) with (k * exp x)%R by (unfold k, x; rewrite <- !exp_plus; f_equal; ring).
  apply is_lim_seq_mult'; [apply is_lim_seq_const|]. apply is_lim_seq_incr_1.
  assert (HS : is_series (fun m => / INR (fact m) * x ^ m)%R (exp x)) by (apply is_pseries_R; apply is_exp_Reals).
  apply (is_lim_seq_ext (sum_n (fun m => / INR (fact m) * x ^ m)%R)); [|exact HS].
  intro K. induction K as [|K IH]; [rewrite sum_O; unfold Rsum; cbn; ring|]. rewrite sum_Sn, IH. rewrite (seq_S (S K) 0), Rsum_app. unfold Rsum at 3. cbn [map fold_right]. unfold plus. cbn. ring.
Qed.
Lemma blend_positive w bs f : w <> 0%R -> (forall b p, In b bs -> In p (br_photons b) -> snd (ph_timing p) = w) ->
  exists r, (0 <= r)%R /\ interference bs f = RtoC r.
Proof.
  intros Hw Hb. set (lam := (ln 2 / (w ^ 2 + w ^ 2))%R).
  assert (Hl : (0 <= lam)%R) by (unfold lam; apply Rmult_le_pos; [rewrite <- ln_1; apply Rlt_le, ln_increasing; lra|apply Rlt_le, Rinv_0_lt_compat; nra]).
  set (kap := fun a b : R * R => exp (- (lam * (fst a - fst b) ^ 2))).
  assert (E : interference bs f = blend kap bs f).
  { unfold interference, blend. apply Csum_ext. intros b Hb1. apply Csum_ext. intros b' Hb2. apply Csum_ext. intros s Hs. apply Csum_ext. intros t Ht. f_equal. f_equal. unfold indistinct, blurred. apply Rprod_ext. intros [i j] Hx. cbn [fst snd].
    unfold fitting in Hb1, Hb2. apply filter_In in Hb1. apply filter_In in Hb2. destruct Hb1 as [Hb1 L1], Hb2 as [Hb2 L2]. apply Nat.eqb_eq in L1. apply Nat.eqb_eq in L2.
    assert (W1 : snd (ph_timing (nth_photon b i)) = w) by (apply (Hb b); [exact Hb1|]; unfold nth_photon; apply nth_In; rewrite L1; apply (orders_bound _ s); [exact Hs|exact (in_combine_l _ _ _ _ Hx)]).
    assert (W2 : snd (ph_timing (nth_photon b' j)) = w) by (apply (Hb b'); [exact Hb2|]; unfold nth_photon; apply nth_In; rewrite L2; apply (orders_bound _ t); [exact Ht|exact (in_combine_r _ _ _ _ Hx)]).
    unfold pulse_overlap, kap. rewrite W1, W2. f_equal. unfold lam, Rdiv. ring. }
  destruct (blend_limit (fun K a b => Rsum (seq 0 K) (fun m => pulse_mode lam a m * pulse_mode lam b m)%R) kap bs f (fun a b => pulse_modes lam a b Hl)) as [LR LI].
  exists (Re (blend kap bs f)). split.
  - assert (Hle : Rbar_le (Finite 0) (Finite (Re (blend kap bs f)))); [|exact Hle].
    apply (is_lim_seq_le (fun _ => 0%R) (fun K => Re (blend (fun a b => Rsum (seq 0 K) (fun m => pulse_mode lam a m * pulse_mode lam b m)%R) bs f))); [|apply is_lim_seq_const|exact LR].
    intro K. rewrite blend_modes. cbn [Re RtoC fst]. apply Rsum_nonneg. intros; apply Cnorm2_nonneg.
  - rewrite E. assert (Hi : Finite (Im (blend kap bs f)) = Finite 0).
    { rewrite <- (is_lim_seq_unique _ _ LI). apply is_lim_seq_unique. apply (is_lim_seq_ext (fun _ => 0%R)); [intro; now rewrite blend_modes|apply is_lim_seq_const]. }
    apply C_eq; [reflexivity|]. cbn [RtoC Im snd]. injection Hi. intro X. exact X.
Qed.
