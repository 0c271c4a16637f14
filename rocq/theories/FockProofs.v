(** From the loops of the code to the specified amplitudes: two-channel matrix,
    scaling, re-ordering, unitarity. *)
From Coq Require Import Reals List Arith Lia Lra Bool Permutation.
From Coquelicot Require Import Complex.
From Verif Require Import Prelude NamesModel NamesSpec NamesProofs FockModel FockSpec BosonProofs.
Import ListNotations.

(** ** Index arithmetic *)
Lemma two_digit_inj L a b c d : a < L -> c < L -> b * L + a = d * L + c -> a = c /\ b = d.
Proof.
  intros Ha Hc E.
  assert (H : (a + b * L) mod L = (c + d * L) mod L) by (f_equal; lia).
  rewrite !Nat.mod_add, !Nat.mod_small in H by lia. subst c. split; auto. nia.
Qed.
Lemma two_digit_mod L a b : a < L -> (b * L + a) mod L = a.
Proof. intros H. rewrite Nat.add_comm, Nat.mod_add by lia. now apply Nat.mod_small. Qed.
Lemma two_digit_div L a b : a < L -> (b * L + a) / L = b.
Proof. intros H. rewrite Nat.div_add_l by lia. rewrite Nat.div_small by auto. lia. Qed.

(** ** The loop, many photons: the identity *)
Lemma bs_step_high L A n m row j k :
  n < L -> m < L -> L <= n + m -> j <= n -> k <= m ->
  let t := m * L + n in
  (forall x, x <> t -> row x = RtoC 0) ->
  (forall x, x <> t -> bs_step L A n m row (j, k) x = RtoC 0) /\
  (row t = RtoC 1 \/ (j = n /\ k = 0) -> bs_step L A n m row (j, k) t = RtoC 1).
Proof.
  intros Hn Hm HL Hj Hk t Hrow. unfold bs_step.
  destruct ((j + k <? L) && (n - j + (m - k) <? L)) eqn:E.
  - apply andb_true_iff in E. rewrite !Nat.ltb_lt in E. destruct E as [Eu Ev].
    replace (L <=? n + m) with true by (symmetry; apply Nat.leb_le; lia). cbn [orb].
    split.
    + intros x Hx. unfold upd at 1. destruct (x =? _) eqn:Ex.
      * apply Nat.eqb_eq in Ex.
        destruct (n =? j + k) eqn:E1; destruct (m =? n - j + (m - k)) eqn:E2; cbn [andb]; auto.
        apply Nat.eqb_eq in E1, E2. exfalso. apply Hx. unfold t. rewrite Ex. rewrite <- E1, <- E2. reflexivity.
      * unfold upd. rewrite Ex. now apply Hrow.
    + intros Ht. unfold upd at 1. destruct (t =? _) eqn:Ex.
      * apply Nat.eqb_eq in Ex. unfold t in Ex. apply two_digit_inj in Ex; [|lia|lia].
        destruct Ex as [E1 E2]. rewrite <- E1, <- E2, !Nat.eqb_refl. reflexivity.
      * unfold upd. rewrite Ex. destruct Ht as [Ht|[-> ->]]; auto.
        exfalso. apply Nat.eqb_neq in Ex. apply Ex. unfold t. f_equal; [f_equal|]; lia.
  - split; auto. intros [Ht|[-> ->]]; auto.
    exfalso. apply andb_false_iff in E. rewrite !Nat.ltb_ge in E. lia.
Qed.

Lemma jk_pairs_bound n m j k : In (j, k) (jk_pairs n m) -> j <= n /\ k <= m.
Proof.
  intros H. apply in_flat_map in H. destruct H as (j' & Hj & H).
  apply in_map_iff in H. destruct H as (k' & [= -> ->] & Hk).
  apply in_seq in Hj, Hk. lia.
Qed.
Lemma jk_pairs_in n m j k : j <= n -> k <= m -> In (j, k) (jk_pairs n m).
Proof.
  intros Hj Hk. apply in_flat_map. exists j. split; [apply in_seq; lia|].
  apply in_map. apply in_seq. lia.
Qed.

Lemma bs_fold_high L A n m ps row :
  n < L -> m < L -> L <= n + m -> (forall j k, In (j, k) ps -> j <= n /\ k <= m) ->
  let t := m * L + n in
  (forall x, x <> t -> row x = RtoC 0) ->
  (forall x, x <> t -> fold_left (bs_step L A n m) ps row x = RtoC 0) /\
  (row t = RtoC 1 \/ In (n, 0) ps -> fold_left (bs_step L A n m) ps row t = RtoC 1).
Proof.
  intros Hn Hm HL Hps t. revert row. induction ps as [|[j k] ps IH]; intros row Hrow.
  - simpl. split; auto. intros [H|[]]; auto.
  - cbn [fold_left].
    destruct (Hps j k (or_introl eq_refl)) as [Hj Hk].
    destruct (bs_step_high L A n m row j k Hn Hm HL Hj Hk Hrow) as [S1 S2]. fold t in S1, S2.
    destruct (IH ltac:(intros; apply Hps; now right) _ S1) as [I1 I2].
    split; auto. intros H. apply I2.
    destruct H as [H|[H|H]].
    + left. apply S2. now left.
    + injection H as -> ->. left. apply S2. now right.
    + now right.
Qed.

(** ** The loop, few photons: sums *)
Lemma bs_fold_low L A n m ps row x :
  n + m < L -> (forall j k, In (j, k) ps -> j <= n /\ k <= m) ->
  fold_left (bs_step L A n m) ps row x
  = (row x + Csum ps (fun jk => if x =? (n - fst jk + (m - snd jk)) * L + (fst jk + snd jk)
                                then bs_coeff A n m (fst jk) (snd jk) else RtoC 0))%C.
Proof.
  intros HL. revert row. induction ps as [|[j k] ps IH]; intros row Hps.
  - simpl. ring.
  - cbn [fold_left]. rewrite IH by (intros; apply Hps; now right). rewrite Csum_cons. cbn [fst snd].
    destruct (Hps j k (or_introl eq_refl)) as [Hj Hk].
    unfold bs_step.
    replace (j + k <? L) with true by (symmetry; apply Nat.ltb_lt; lia).
    replace (n - j + (m - k) <? L) with true by (symmetry; apply Nat.ltb_lt; lia). cbn [andb].
    replace (L <=? n + m) with false by (symmetry; apply Nat.leb_gt; lia).
    replace (L <=? j + k + (n - j + (m - k))) with false by (symmetry; apply Nat.leb_gt; lia). cbn [orb].
    unfold upd. destruct (x =? _) eqn:Ex; [|ring].
    apply Nat.eqb_eq in Ex. subst x. ring.
Qed.

Lemma fock2_amp L A n m u v :
  n < L -> m < L -> u < L -> v < L ->
  fock2 L A (m * L + n) (v * L + u) = gate_amp L A n m u v.
Proof.
  intros Hn Hm Hu Hv. unfold fock2.
  rewrite two_digit_mod by auto. replace (m * L + n - n) with (m * L) by lia.
  rewrite Nat.div_mul by lia.
  unfold gate_amp. destruct (L <=? n + m) eqn:E.
  - apply Nat.leb_le in E.
    destruct (bs_fold_high L A n m (jk_pairs n m) (fun _ => RtoC 0) Hn Hm E (jk_pairs_bound n m) ltac:(reflexivity)) as [H1 H2].
    destruct (n =? u) eqn:E1; destruct (m =? v) eqn:E2; cbn [andb].
    + apply Nat.eqb_eq in E1, E2. subst. apply H2. right. apply jk_pairs_in; lia.
    + apply H1. apply Nat.eqb_neq in E2. intros H. apply two_digit_inj in H; lia.
    + apply H1. apply Nat.eqb_neq in E1. intros H. apply two_digit_inj in H; lia.
    + apply H1. apply Nat.eqb_neq in E1. intros H. apply two_digit_inj in H; lia.
  - apply Nat.leb_gt in E. rewrite bs_fold_low by (auto; apply jk_pairs_bound).
    unfold jk_pairs. rewrite Csum_flat_map.
    destruct (u + v =? n + m) eqn:EN.
    + apply Nat.eqb_eq in EN. rewrite boson_poly_binsum. unfold binsum at 1.
      rewrite <- Csum_scal_r. rewrite Cplus_0_l. apply Csum_ext. intros j Hj. apply in_seq in Hj.
      rewrite Csum_map. cbn [fst snd]. unfold binsum. rewrite <- Csum_scal_l, <- Csum_scal_r.
      apply Csum_ext. intros k Hk. apply in_seq in Hk. unfold delta, bs_coeff.
      destruct (j + k =? u) eqn:Ejk.
      * apply Nat.eqb_eq in Ejk. subst u.
        replace (n - j + (m - k)) with v by lia. rewrite Nat.eqb_refl. ring.
      * replace (v * L + u =? _) with false; [ring|]. symmetry. apply Nat.eqb_neq. intros H.
        apply Nat.eqb_neq in Ejk. apply two_digit_inj in H; lia.
    + apply Nat.eqb_neq in EN. rewrite Csum_zero; [ring|].
      intros j Hj. apply in_seq in Hj. rewrite Csum_map. apply Csum_zero. intros k Hk. apply in_seq in Hk.
      cbn [fst snd]. replace (v * L + u =? _) with false; [reflexivity|].
      symmetry. apply Nat.eqb_neq. intros H. apply two_digit_inj in H; lia.
Qed.

(** ** Double sums *)
Lemma Csum_seq_prod p q f :
  Csum (seq 0 (p * q)) f = Csum (seq 0 q) (fun b => Csum (seq 0 p) (fun a => f (b * p + a))).
Proof.
  induction q as [|q IH].
  - rewrite Nat.mul_0_r. reflexivity.
  - rewrite Csum_seq_S, <- IH. rewrite Nat.mul_succ_r, seq_app, Csum_app. f_equal.
    rewrite Nat.add_0_l. replace (p * q) with (q * p + 0) by lia.
    generalize 0 as s. clear. revert q f. induction p as [|p IH]; intros q f s; [reflexivity|].
    cbn [seq]. rewrite !Csum_cons. f_equal. 
    assert (G : forall n s, Csum (seq (q * S p + s) n) f = Csum (seq s n) (fun a => f (q * S p + a))).
    { clear. intros n; induction n as [|n IH]; intros s; [reflexivity|].
      cbn [seq]. rewrite !Csum_cons. f_equal. rewrite <- Nat.add_succ_r. apply IH. }
    rewrite <- Nat.add_succ_r. apply G.
Qed.

(** ** Two-channel unitarity *)
Lemma gate_amp_zero L A n m u v : u + v <> n + m -> gate_amp L A n m u v = RtoC 0.
Proof.
  intros H. unfold gate_amp. destruct (L <=? n + m).
  - destruct (n =? u) eqn:E1; destruct (m =? v) eqn:E2; cbn [andb]; auto.
    apply Nat.eqb_eq in E1, E2. lia.
  - replace (u + v =? n + m) with false; auto. symmetry. now apply Nat.eqb_neq.
Qed.
Lemma gate_amp_high L A n m u v :
  L <= n + m -> gate_amp L A n m u v = if (n =? u) && (m =? v) then RtoC 1 else RtoC 0.
Proof. intros H. unfold gate_amp. replace (L <=? n + m) with true; auto. symmetry. now apply Nat.leb_le. Qed.

(** Restricting a double sum to the anti-diagonal u+v=N. *)
Lemma Csum_antidiag L N (f : nat -> nat -> C) :
  N < L -> (forall u v, u + v <> N -> f u v = RtoC 0) ->
  Csum (seq 0 L) (fun v => Csum (seq 0 L) (fun u => f u v))
  = Csum (seq 0 (S N)) (fun u => f u (N - u)).
Proof.
  intros HN Hz. rewrite Csum_swap.
  rewrite (Csum_seq_extend (S N) L).
  - apply Csum_ext. intros u Hu. apply in_seq in Hu.
    apply (Csum_single _ (N - u)); [apply seq_NoDup|apply in_seq; lia|].
    intros v Hv Hne. apply Hz. lia.
  - lia.
  - intros u Hu. apply Csum_zero. intros v Hv. apply Hz. lia.
Qed.

Lemma gate_rows L A n m n' m' :
  unitary2 A -> n < L -> m < L -> n' < L -> m' < L ->
  Csum (seq 0 L) (fun v => Csum (seq 0 L) (fun u => gate_amp L A n m u v * Cconj (gate_amp L A n' m' u v)))%C
  = if (n =? n') && (m =? m') then RtoC 1 else RtoC 0.
Proof.
  intros HU Hn Hm Hn' Hm'.
  destruct (Nat.eq_dec (n + m) (n' + m')) as [EN|EN].
  - destruct (le_lt_dec L (n + m)) as [HL|HL].
    + rewrite (Csum_single _ m); [|apply seq_NoDup|apply in_seq; lia|].
      2:{ intros v Hv Hne. apply Csum_zero. intros u Hu. rewrite (gate_amp_high L A n m) by auto.
          replace (m =? v) with false by (symmetry; apply Nat.eqb_neq; lia). rewrite andb_false_r. ring. }
      rewrite (Csum_single _ n); [|apply seq_NoDup|apply in_seq; lia|].
      2:{ intros u Hu Hne. rewrite (gate_amp_high L A n m) by auto.
          replace (n =? u) with false by (symmetry; apply Nat.eqb_neq; lia). cbn [andb]. ring. }
      rewrite !gate_amp_high by lia. rewrite !Nat.eqb_refl. cbn [andb].
      rewrite (Nat.eqb_sym n'), (Nat.eqb_sym m').
      destruct ((n =? n') && (m =? m')); rewrite Cconj_RtoC; ring.
    + rewrite (Csum_antidiag L (n + m)).
      * rewrite (Csum_ext _ _ (fun u => gam A (n + m) n u * Cconj (gam A (n + m) n' u))%C).
        2:{ intros u Hu. apply in_seq in Hu. rewrite !gate_amp_gam by lia. now rewrite <- EN. }
        rewrite gam_rows by (auto; lia).
        destruct (n =? n') eqn:E; cbn [andb]; auto. apply Nat.eqb_eq in E.
        replace (m =? m') with true; auto. symmetry. apply Nat.eqb_eq. lia.
      * auto.
      * intros u v Hne. rewrite gate_amp_zero by auto. ring.
  - rewrite Csum_zero.
    + destruct (n =? n') eqn:E1; destruct (m =? m') eqn:E2; cbn [andb]; auto.
      apply Nat.eqb_eq in E1, E2. lia.
    + intros v _. apply Csum_zero. intros u _.
      destruct (Nat.eq_dec (u + v) (n + m)) as [E|E].
      * rewrite (gate_amp_zero L A n' m') by lia. rewrite Cconj_RtoC. ring.
      * rewrite gate_amp_zero by auto. ring.
Qed.

Lemma gate_cols L A u v u' v' :
  unitary2 A -> u < L -> v < L -> u' < L -> v' < L ->
  Csum (seq 0 L) (fun m => Csum (seq 0 L) (fun n => Cconj (gate_amp L A n m u v) * gate_amp L A n m u' v'))%C
  = if (u =? u') && (v =? v') then RtoC 1 else RtoC 0.
Proof.
  intros HU Hu Hv Hu' Hv'.
  destruct (Nat.eq_dec (u + v) (u' + v')) as [EN|EN].
  - destruct (le_lt_dec L (u + v)) as [HL|HL].
    + rewrite (Csum_single _ v); [|apply seq_NoDup|apply in_seq; lia|].
      2:{ intros m Hm Hne. apply Csum_zero. intros n Hn'.
          destruct (Nat.eq_dec (u + v) (n + m)) as [E|E].
          - rewrite (gate_amp_high L A n m u v) by lia.
            replace (m =? v) with false by (symmetry; apply Nat.eqb_neq; lia).
            rewrite andb_false_r, Cconj_RtoC. ring.
          - rewrite gate_amp_zero by auto. rewrite Cconj_RtoC. ring. }
      rewrite (Csum_single _ u); [|apply seq_NoDup|apply in_seq; lia|].
      2:{ intros n Hn' Hne. rewrite gate_amp_zero by lia. rewrite Cconj_RtoC. ring. }
      rewrite !gate_amp_high by lia. rewrite !Nat.eqb_refl. cbn [andb].
      destruct ((u =? u') && (v =? v')); rewrite Cconj_RtoC; ring.
    + rewrite (Csum_antidiag L (u + v)).
      * rewrite (Csum_ext _ _ (fun n => Cconj (gam A (u + v) n u) * gam A (u + v) n u')%C).
        2:{ intros n Hn. apply in_seq in Hn. rewrite !gate_amp_gam by lia.
            replace (n + (u + v - n)) with (u + v) by lia. reflexivity. }
        rewrite gam_cols by (auto; lia).
        destruct (u =? u') eqn:E; cbn [andb]; auto. apply Nat.eqb_eq in E.
        replace (v =? v') with true; auto. symmetry. apply Nat.eqb_eq. lia.
      * auto.
      * intros n m Hne. rewrite gate_amp_zero by auto. rewrite Cconj_RtoC. ring.
  - rewrite Csum_zero.
    + destruct (u =? u') eqn:E1; destruct (v =? v') eqn:E2; cbn [andb]; auto.
      apply Nat.eqb_eq in E1, E2. lia.
    + intros m _. apply Csum_zero. intros n _.
      destruct (Nat.eq_dec (u + v) (n + m)) as [E|E].
      * rewrite (gate_amp_zero L A n m u' v') by lia. ring.
      * rewrite gate_amp_zero by auto. rewrite Cconj_RtoC. ring.
Qed.

Lemma decode2 L i : i < L * L -> exists n m, n < L /\ m < L /\ i = m * L + n.
Proof.
  intros Hi. assert (0 < L) by nia. exists (i mod L), (i / L). split; [apply Nat.mod_upper_bound; lia|].
  split; [apply Nat.div_lt_upper_bound; lia|]. pose proof (Nat.div_mod i L). lia.
Qed.

Lemma fock2_unitary L A : unitary2 A -> unitary_mat (L * L) (fock2 L A).
Proof.
  intros HU i j Hi Hj.
  destruct (decode2 L i Hi) as (n & m & Hn & Hm & ->).
  destruct (decode2 L j Hj) as (n' & m' & Hn' & Hm' & ->).
  assert (E : (m * L + n =? m' * L + n') = (n =? n') && (m =? m')).
  { destruct (m * L + n =? m' * L + n') eqn:E.
    - apply Nat.eqb_eq in E. apply two_digit_inj in E; auto. destruct E as [-> ->]. now rewrite !Nat.eqb_refl.
    - destruct (n =? n') eqn:E1; destruct (m =? m') eqn:E2; auto.
      apply Nat.eqb_eq in E1, E2. subst. now rewrite Nat.eqb_refl in E. }
  rewrite E, !Csum_seq_prod. split.
  - rewrite <- (gate_rows L A n m n' m') by auto.
    apply Csum_ext. intros v Hv. apply in_seq in Hv. apply Csum_ext. intros u Hu. apply in_seq in Hu.
    rewrite !fock2_amp by lia. reflexivity.
  - rewrite <- (gate_cols L A n m n' m') by auto.
    apply Csum_ext. intros v Hv. apply in_seq in Hv. apply Csum_ext. intros u Hu. apply in_seq in Hu.
    rewrite !fock2_amp by lia. reflexivity.
Qed.

(** ** Scaling up *)
Definition blockdiag (q : nat) (F : mat) : mat :=
  fun i j => if i / q =? j / q then F (i mod q) (j mod q) else RtoC 0.

Lemma div_mod_nested q r i :
  0 < q -> 0 < r ->
  i / q = r * (i / (q * r)) + (i mod (q * r)) / q /\ (i mod (q * r)) mod q = i mod q /\
  (i mod (q * r)) / q < r.
Proof.
  intros Hq Hr.
  assert (Hp : q * r <> 0) by nia.
  pose proof (Nat.div_mod i (q * r) Hp) as E.
  pose proof (Nat.mod_upper_bound i (q * r) Hp) as Hb.
  set (x := i / (q * r)) in *. set (y := i mod (q * r)) in *.
  split; [|split].
  - rewrite E. replace (q * r * x + y) with (r * x * q + y) by lia. rewrite Nat.div_add_l by lia. reflexivity.
  - rewrite E. replace (q * r * x + y) with (y + r * x * q) by lia. now rewrite Nat.mod_add by lia.
  - apply Nat.div_lt_upper_bound; lia.
Qed.

Lemma kron_blockdiag q r F i j :
  0 < q -> 0 < r -> kron_id (q * r) (blockdiag q F) i j = blockdiag q F i j.
Proof.
  intros Hq Hr. unfold kron_id, blockdiag.
  destruct (div_mod_nested q r i Hq Hr) as (E1 & E2 & E3).
  destruct (div_mod_nested q r j Hq Hr) as (G1 & G2 & G3).
  rewrite E2, G2, E1, G1.
  destruct (i / (q * r) =? j / (q * r)) eqn:E.
  - apply Nat.eqb_eq in E. rewrite E.
    destruct (_ / q =? _ / q) eqn:F1.
    + apply Nat.eqb_eq in F1. rewrite F1, Nat.eqb_refl. reflexivity.
    + replace (_ =? _) with false; auto. symmetry. apply Nat.eqb_neq. apply Nat.eqb_neq in F1. lia.
  - replace (_ =? _) with false; auto. symmetry. apply Nat.eqb_neq. apply Nat.eqb_neq in E. nia.
Qed.

Lemma scaled_spec L N F :
  1 <= L -> 2 <= N ->
  exists M, scaled L N F = Some (L ^ N, M) /\
    forall i j, i < L ^ N -> j < L ^ N -> M i j = blockdiag (L * L) F i j.
Proof.
  intros HL HN. unfold scaled.
  destruct (Nat.eq_dec L 1) as [->|HL1].
  - rewrite Nat.pow_1_l.
    assert (G : forall ns acc, ns <> [] -> fold_left (scale_step 1 F) ns acc = Some (1, F)).
    { assert (S1 : forall n acc, scale_step 1 F acc n = Some (1, F)).
      { intros n acc. unfold scale_step. rewrite !Nat.pow_1_l. reflexivity. }
      induction ns as [|n ns IH]; intros acc Hne; [contradiction|]. cbn [fold_left]. rewrite S1.
      destruct ns; [reflexivity|]. apply IH. discriminate. }
    exists F. split.
    + apply G. destruct N; [lia|discriminate].
    + intros i j Hi Hj. replace i with 0 by lia. replace j with 0 by lia. reflexivity.
  - assert (HL2 : 2 <= L) by lia. clear HL HL1.
    induction N as [|N IH]; [lia|].
    rewrite seq_S, fold_left_app. cbn [fold_left]. change (1 + N) with (S N).
    destruct (Nat.eq_dec N 1) as [->|HN1].
    + cbn [seq fold_left]. unfold scale_step. rewrite Nat.ltb_irrefl, Nat.eqb_refl.
      exists F. split; [reflexivity|].
      intros i j Hi Hj. unfold blockdiag. replace (L ^ 2) with (L * L) in * by (simpl; lia).
      rewrite !Nat.div_small, !Nat.mod_small by auto. reflexivity.
    + destruct IH as (M & -> & HM); [lia|].
      assert (Hgt : L ^ 2 < L ^ S N) by (apply Nat.pow_lt_mono_r; lia).
      unfold scale_step.
      replace (L ^ S N <? L ^ 2) with false by (symmetry; apply Nat.ltb_ge; lia).
      replace (L ^ S N =? L ^ 2) with false by (symmetry; apply Nat.eqb_neq; lia).
      exists (kron_id (L ^ N) M). split; [now rewrite Nat.pow_succ_r'|].
      intros i j Hi Hj.
      assert (Hp : 0 < L ^ N) by (pose proof (Nat.pow_nonzero L N); lia).
      assert (Hr : L ^ N = (L * L) * L ^ (N - 2)).
      { replace N with (2 + (N - 2)) at 1 by lia. rewrite Nat.pow_add_r. f_equal. simpl. lia. }
      assert (Hr0 : 0 < L ^ (N - 2)) by (pose proof (Nat.pow_nonzero L (N - 2)); lia).
      rewrite <- (kron_blockdiag (L * L) (L ^ (N - 2)) F i j) by (auto; nia). rewrite <- Hr.
      unfold kron_id. rewrite HM; auto; apply Nat.mod_upper_bound; lia.
Qed.

Lemma unitary_blockdiag q r F :
  0 < q -> unitary_mat q F -> unitary_mat (q * r) (blockdiag q F).
Proof.
  intros Hq HF i j Hi Hj.
  assert (Hiq : i / q < r) by (apply Nat.div_lt_upper_bound; lia).
  assert (Hjq : j / q < r) by (apply Nat.div_lt_upper_bound; lia).
  assert (Him : i mod q < q) by (apply Nat.mod_upper_bound; lia).
  assert (Hjm : j mod q < q) by (apply Nat.mod_upper_bound; lia).
  assert (Eij : (i =? j) = (i / q =? j / q) && (i mod q =? j mod q)).
  { destruct (i =? j) eqn:E.
    - apply Nat.eqb_eq in E; subst. now rewrite !Nat.eqb_refl.
    - destruct (i / q =? j / q) eqn:E1; destruct (i mod q =? j mod q) eqn:E2; auto.
      apply Nat.eqb_eq in E1, E2. apply Nat.eqb_neq in E. exfalso. apply E.
      pose proof (Nat.div_mod i q) as Di. pose proof (Nat.div_mod j q) as Dj. rewrite Di, Dj, E1, E2 by lia. reflexivity. }
  rewrite Eij, !Csum_seq_prod. unfold blockdiag. split.
  - rewrite (Csum_single _ (i / q)); [|apply seq_NoDup|apply in_seq; lia|].
    + rewrite (Csum_ext _ _ (fun a => F (i mod q) a * Cconj (if j / q =? i / q then F (j mod q) a else RtoC 0))%C).
      2:{ intros a Ha. apply in_seq in Ha. rewrite two_digit_div, two_digit_mod by lia. rewrite Nat.eqb_refl. reflexivity. }
      rewrite (Nat.eqb_sym (i / q)). destruct (j / q =? i / q) eqn:E; cbn [andb].
      * now apply HF.
      * apply Csum_zero. intros. rewrite Cconj_RtoC. ring.
    + intros b Hb Hne. apply Csum_zero. intros a Ha. apply in_seq in Ha.
      rewrite two_digit_div by lia. replace (i / q =? b) with false by (symmetry; apply Nat.eqb_neq; lia). ring.
  - rewrite (Csum_single _ (i / q)); [|apply seq_NoDup|apply in_seq; lia|].
    + rewrite (Csum_ext _ _ (fun a => Cconj (F a (i mod q)) * (if i / q =? j / q then F a (j mod q) else RtoC 0))%C).
      2:{ intros a Ha. apply in_seq in Ha. rewrite two_digit_div, two_digit_mod by lia. rewrite Nat.eqb_refl. reflexivity. }
      destruct (i / q =? j / q) eqn:E; cbn [andb].
      * now apply HF.
      * apply Csum_zero. intros. ring.
    + intros b Hb Hne. apply Csum_zero. intros a Ha. apply in_seq in Ha.
      rewrite two_digit_div by lia. replace (b =? i / q) with false by (symmetry; apply Nat.eqb_neq; lia).
      rewrite Cconj_RtoC. ring.
Qed.

(** ** Re-ordering *)
Lemma Csum_reindex d (o : nat -> nat) f :
  (forall i, i < d -> o i < d) -> (forall i j, i < d -> j < d -> o i = o j -> i = j) ->
  Csum (seq 0 d) (fun k => f (o k)) = Csum (seq 0 d) f.
Proof.
  intros Hb Hi. rewrite <- Csum_map. apply Csum_perm.
  apply NoDup_Permutation_bis.
  - apply map_inj_NoDup; [|apply seq_NoDup]. intros x y Hx Hy. apply in_seq in Hx, Hy. apply Hi; lia.
  - rewrite map_length. lia.
  - intros x Hx. apply in_map_iff in Hx. destruct Hx as (k & <- & Hk). apply in_seq in Hk.
    apply in_seq. specialize (Hb k). lia.
Qed.

Lemma unitary_ext d M M' :
  (forall i j, i < d -> j < d -> M i j = M' i j) -> unitary_mat d M -> unitary_mat d M'.
Proof.
  intros H HM i j Hi Hj. destruct (HM i j Hi Hj) as [H1 H2]. split; [rewrite <- H1|rewrite <- H2]; apply Csum_ext; intros k Hk; apply in_seq in Hk; rewrite !H by lia; reflexivity.
Qed.

Lemma unitary_reindex d M (o : nat -> nat) :
  (forall i, i < d -> o i < d) -> (forall i j, i < d -> j < d -> o i = o j -> i = j) ->
  unitary_mat d M -> unitary_mat d (fun i j => M (o i) (o j)).
Proof.
  intros Hb Hinj HM i j Hi Hj.
  destruct (HM (o i) (o j) (Hb i Hi) (Hb j Hj)) as [H1 H2].
  assert (E : (i =? j) = (o i =? o j)).
  { destruct (i =? j) eqn:E.
    - apply Nat.eqb_eq in E; subst. now rewrite Nat.eqb_refl.
    - symmetry. apply Nat.eqb_neq. apply Nat.eqb_neq in E. intros C. apply E. now apply Hinj. }
  rewrite E. split; [rewrite <- H1|rewrite <- H2].
  - apply (Csum_reindex d o (fun k => M (o i) k * Cconj (M (o j) k))%C); auto.
  - apply (Csum_reindex d o (fun k => Cconj (M k (o i)) * M k (o j))%C); auto.
Qed.

(** Re-ordering the channels of a tuple. *)
Definition pick (tl : list nat) (vs : values) : values := map (fun i => nth i vs 0) tl.

Lemma reorder_pick D vs tl : reorder D vs tl = index_of_values D (pick tl vs).
Proof. reflexivity. Qed.

Lemma pick_valid D tl vs :
  Permutation tl (seq 0 (dN D)) -> valid D vs -> valid D (pick tl vs).
Proof.
  intros HP [Hlen HF]. split.
  - unfold pick. rewrite map_length. rewrite (Permutation_length HP). apply seq_length.
  - apply Forall_forall. intros x Hx. apply in_map_iff in Hx. destruct Hx as (c & <- & Hc).
    apply (Permutation_in _ HP) in Hc. apply in_seq in Hc.
    rewrite Forall_forall in HF. apply HF. apply nth_In. lia.
Qed.

Lemma pick_inj n tl us vs :
  Permutation tl (seq 0 n) -> length us = n -> length vs = n -> pick tl us = pick tl vs -> us = vs.
Proof.
  intros HP Hu Hv E. apply (nth_ext us vs 0 0); [lia|]. intros c Hc.
  assert (Hin : In c tl). { apply (Permutation_in c (Permutation_sym HP)). apply in_seq. lia. }
  unfold pick in E. revert E Hin. clear. induction tl as [|t tl IH]; intros E Hin; [destruct Hin|].
  cbn [map] in E. injection E as E1 E2. destruct Hin as [->|Hin]; auto.
Qed.

(** The re-ordering of basis indices used by the code on a fresh circuit. *)
Definition neworder (D : dims) (tl : list nat) (i : nat) : nat :=
  index_of_values D (pick tl (values_from_index D i)).

Lemma neworder_bound D tl i :
  1 <= dL D -> Permutation tl (seq 0 (dN D)) -> neworder D tl i < size_of_basis D.
Proof. intros HL HP. apply index_of_values_bound. apply pick_valid; auto. now apply values_from_index_valid. Qed.

Lemma index_of_values_inj D us vs :
  1 <= dL D -> valid D us -> valid D vs -> index_of_values D us = index_of_values D vs -> us = vs.
Proof.
  intros HL Hu Hv E. rewrite <- (values_index_roundtrip D us), <- (values_index_roundtrip D vs); auto.
Qed.

Lemma neworder_inj D tl i j :
  1 <= dL D -> Permutation tl (seq 0 (dN D)) -> i < size_of_basis D -> j < size_of_basis D ->
  neworder D tl i = neworder D tl j -> i = j.
Proof.
  intros HL HP Hi Hj E.
  pose proof (values_from_index_valid D i HL) as Vi. pose proof (values_from_index_valid D j HL) as Vj.
  apply index_of_values_inj in E; auto using pick_valid.
  apply (pick_inj (dN D)) in E; [|auto|apply Vi|apply Vj].
  now apply (values_from_index_inj D).
Qed.

(** Entries of the complete single-node matrix on a fresh circuit. *)
Definition full_matrix (D : dims) (A : mat2) (tl : list nat) : mat :=
  fst (single_node_matrix D (all_values D) A tl SelAll).

Lemma nth_all_neworder D tl i :
  i < size_of_basis D ->
  nth i (map (fun i => nth i (map (fun vs => reorder D vs tl) (all_values D)) 0) (seq 0 (size_of_basis D))) 0
  = neworder D tl i.
Proof.
  intros Hi.
  rewrite nth_indep with (d' := nth 0 (map (fun vs => reorder D vs tl) (all_values D)) 0)
    by (rewrite map_length, seq_length; auto).
  rewrite (map_nth (fun i => nth i (map (fun vs => reorder D vs tl) (all_values D)) 0)).
  rewrite seq_nth by auto. cbn [Nat.add].
  assert (Hlen : i < length (all_values D)) by (unfold all_values; rewrite map_length, seq_length; auto).
  rewrite nth_indep with (d' := reorder D [] tl) by (rewrite map_length; auto).
  rewrite (map_nth (fun vs => reorder D vs tl)). unfold neworder. rewrite reorder_pick. do 2 f_equal.
  unfold all_values. rewrite nth_indep with (d' := values_from_index D 0) by (rewrite map_length, seq_length; auto).
  rewrite (map_nth (values_from_index D)), seq_nth by auto. reflexivity.
Qed.

Lemma full_matrix_entry D A tl i j :
  1 <= dL D -> 2 <= dN D -> Permutation tl (seq 0 (dN D)) ->
  i < size_of_basis D -> j < size_of_basis D ->
  full_matrix D A tl i j
  = blockdiag (dL D * dL D) (fock2 (dL D) A) (neworder D tl i) (neworder D tl j).
Proof.
  intros HL HN HP Hi Hj. unfold full_matrix, single_node_matrix. cbn [fst].
  destruct (scaled_spec (dL D) (dN D) (fock2 (dL D) A) HL HN) as (M & -> & HM).
  cbn [keep_indices]. rewrite !nth_all_neworder by auto.
  apply HM; apply neworder_bound; auto.
Qed.

Lemma full_matrix_unitary D A tl :
  1 <= dL D -> 2 <= dN D -> Permutation tl (seq 0 (dN D)) -> unitary2 A ->
  unitary_mat (size_of_basis D) (full_matrix D A tl).
Proof.
  intros HL HN HP HU.
  apply unitary_ext with (fun i j => blockdiag (dL D * dL D) (fock2 (dL D) A) (neworder D tl i) (neworder D tl j)).
  { intros i j Hi Hj. now rewrite full_matrix_entry. }
  apply unitary_reindex.
  - intros i Hi. now apply neworder_bound.
  - intros i j Hi Hj. now apply neworder_inj.
  - assert (Hr : size_of_basis D = (dL D * dL D) * dL D ^ (dN D - 2)).
    { unfold size_of_basis. replace (dN D) with (2 + (dN D - 2)) at 1 by lia. rewrite Nat.pow_add_r.
      f_equal. simpl. lia. }
    rewrite Hr. apply unitary_blockdiag; [nia|]. now apply fock2_unitary.
Qed.

(** In terms of tuples: the two gate channels come first in the tensor list. *)
Lemma full_matrix_tuples D A h v rest us vs :
  1 <= dL D -> 2 <= dN D -> Permutation (h :: v :: rest) (seq 0 (dN D)) -> valid D us -> valid D vs ->
  full_matrix D A (h :: v :: rest) (index_of_values D us) (index_of_values D vs)
  = if leqb (pick rest us) (pick rest vs)
    then gate_amp (dL D) A (nth h us 0) (nth v us 0) (nth h vs 0) (nth v vs 0)
    else RtoC 0.
Proof.
  intros HL HN HP Hu Hv.
  rewrite full_matrix_entry by auto using index_of_values_bound.
  unfold neworder. rewrite !values_index_roundtrip by auto.
  pose proof (pick_valid D _ us HP Hu) as [Lu Fu]. pose proof (pick_valid D _ vs HP Hv) as [Lv Fv].
  cbn [pick map] in *. unfold pick in *.
  set (pu := map (fun i => nth i us 0) rest) in *. set (pv := map (fun i => nth i vs 0) rest) in *.
  set (a := nth h us 0) in *. set (b := nth v us 0) in *. set (c := nth h vs 0) in *. set (d := nth v vs 0) in *.
  set (L := dL D) in *.
  inversion Fu as [|? ? Ha Fu1]; subst. inversion Fu1 as [|? ? Hb Fu2]; subst.
  inversion Fv as [|? ? Hc Fv1]; subst. inversion Fv1 as [|? ? Hd Fv2]; subst.
  assert (E : forall x y r, x < L -> y < L -> index_of_values D (x :: y :: r) = index_from L 0 r * (L * L) + (y * L + x)).
  { intros x y r Hx Hy. unfold index_of_values. rewrite !index_from_cons. fold L. ring. }
  rewrite !E by auto.
  assert (B : forall x y, x < L -> y < L -> y * L + x < L * L) by (intros; nia).
  unfold blockdiag. rewrite !two_digit_div, !two_digit_mod by auto.
  rewrite fock2_amp by auto.
  destruct (leqb pu pv) eqn:Epq.
  - apply leqb_spec in Epq. rewrite Epq, Nat.eqb_refl. reflexivity.
  - replace (index_from L 0 pu =? index_from L 0 pv) with false; auto.
    symmetry. apply Nat.eqb_neq. intros Eidx.
    assert (pu = pv).
    { assert (Lpp : length pv = length pu) by (unfold pu, pv; now rewrite !map_length).
      rewrite <- (vals_from_index L (length pu) pu) by auto.
      rewrite Eidx. now apply vals_from_index. }
    subst. assert (leqb pu pv = true) by now apply leqb_spec. congruence.
Qed.

(** ** Tensor lists *)
Definition transp (a b k : nat) : nat := if k =? a then b else if k =? b then a else k.

Lemma set_nth_length {A} (l : list A) i x : length (set_nth l i x) = length l.
Proof. revert i; induction l as [|a l IH]; intros [|i]; simpl; auto. Qed.
Lemma nth_set_nth (l : list nat) i x k :
  i < length l -> nth k (set_nth l i x) 0 = if k =? i then x else nth k l 0.
Proof.
  revert i k; induction l as [|a l IH]; intros [|i] [|k] H; simpl in *; try lia; auto.
  rewrite IH by lia. reflexivity.
Qed.
Lemma swap_at_length i j l : length (swap_at i j l) = length l.
Proof. unfold swap_at. now rewrite !set_nth_length. Qed.
Lemma nth_swap_at i j l k :
  i < length l -> j < length l -> nth k (swap_at i j l) 0 = nth (transp i j k) l 0.
Proof.
  intros Hi Hj. unfold swap_at. rewrite nth_set_nth by (rewrite set_nth_length; auto).
  rewrite nth_set_nth by auto. unfold transp.
  destruct (k =? j) eqn:E1; destruct (k =? i) eqn:E2; auto.
  apply Nat.eqb_eq in E1, E2. now subst.
Qed.
Lemma transp_bound a b k n : a < n -> b < n -> k < n -> transp a b k < n.
Proof. unfold transp. destruct (k =? a), (k =? b); auto. Qed.
Lemma transp_invol a b k : transp a b (transp a b k) = k.
Proof.
  unfold transp.
  destruct (k =? a) eqn:E1; [apply Nat.eqb_eq in E1|apply Nat.eqb_neq in E1].
  - subst. destruct (b =? a) eqn:E; [apply Nat.eqb_eq in E; auto|]. now rewrite Nat.eqb_refl.
  - destruct (k =? b) eqn:E2; [apply Nat.eqb_eq in E2; subst; now rewrite Nat.eqb_refl|].
    apply Nat.eqb_neq in E2. 
    replace (k =? a) with false by (symmetry; now apply Nat.eqb_neq).
    replace (k =? b) with false by (symmetry; now apply Nat.eqb_neq). reflexivity.
Qed.

Lemma nth_seq0 n k : k < n -> nth k (seq 0 n) 0 = k.
Proof. intros. now rewrite seq_nth. Qed.

(** A list given by an injective table is a permutation. *)
Lemma table_perm n l (f : nat -> nat) :
  length l = n -> (forall k, k < n -> nth k l 0 = f k) -> (forall k, k < n -> f k < n) ->
  (forall i j, i < n -> j < n -> f i = f j -> i = j) -> Permutation l (seq 0 n).
Proof.
  intros Hlen Hn Hb Hi.
  assert (E : l = map f (seq 0 n)).
  { apply (nth_ext l (map f (seq 0 n)) 0 (f 0)); [now rewrite map_length, seq_length|].
    intros k Hk. rewrite Hlen in Hk. rewrite map_nth, seq_nth by auto. auto. }
  rewrite E. apply NoDup_Permutation_bis.
  - apply map_inj_NoDup; [|apply seq_NoDup]. intros x y Hx Hy. apply in_seq in Hx, Hy. apply Hi; lia.
  - now rewrite map_length.
  - intros x Hx. apply in_map_iff in Hx. destruct Hx as (k & <- & Hk). apply in_seq in Hk.
    apply in_seq. specialize (Hb k). lia.
Qed.

Lemma head2 (l : list nat) n h v :
  length l = n -> 2 <= n -> nth 0 l 0 = h -> nth 1 l 0 = v -> exists rest, l = h :: v :: rest.
Proof.
  intros Hlen Hn H0 H1. destruct l as [|x [|y r]]; simpl in *; try lia. subst. now exists r.
Qed.

Lemma two_swaps_table n h v k :
  0 < n -> 1 < n -> h < n -> v < n -> k < n ->
  nth k (swap_at 1 v (swap_at 0 h (seq 0 n))) 0 = transp 0 h (transp 1 v k).
Proof.
  intros. rewrite nth_swap_at by (rewrite swap_at_length, seq_length; auto).
  rewrite nth_swap_at by (rewrite seq_length; auto).
  apply nth_seq0. apply transp_bound; auto. apply transp_bound; auto.
Qed.

Lemma two_swaps_perm n h v :
  2 <= n -> h < n -> v < n -> Permutation (swap_at 1 v (swap_at 0 h (seq 0 n))) (seq 0 n).
Proof.
  intros Hn Hh Hv. apply (table_perm n _ (fun k => transp 0 h (transp 1 v k))).
  - now rewrite !swap_at_length, seq_length.
  - intros k Hk. apply two_swaps_table; lia.
  - intros k Hk. apply transp_bound; try lia. apply transp_bound; lia.
  - intros i j Hi Hj E. apply (f_equal (transp 0 h)) in E. rewrite !transp_invol in E.
    apply (f_equal (transp 1 v)) in E. now rewrite !transp_invol in E.
Qed.

Lemma tensor_list_good n h v :
  2 <= n -> h < n -> v < n -> h <> v -> (v = 0 -> h = 1) ->
  exists rest, tensor_list_of n [h; v] = Some (h :: v :: rest) /\
    Permutation (h :: v :: rest) (seq 0 n).
Proof.
  intros Hn Hh Hv Hne Hbad. unfold tensor_list_of.
  replace (h =? v) with false by (symmetry; now apply Nat.eqb_neq).
  destruct ((h =? 0) && (v =? 1)) eqn:E1.
  { apply andb_true_iff in E1. rewrite !Nat.eqb_eq in E1. destruct E1 as [-> ->].
    destruct n as [|[|n]]; try lia. exists (seq 2 n). split; reflexivity. }
  destruct ((h =? 1) && (v =? 0)) eqn:E2.
  { apply andb_true_iff in E2. rewrite !Nat.eqb_eq in E2. destruct E2 as [-> ->].
    destruct n as [|[|n]]; try lia. exists (seq 2 n). split; [reflexivity|]. cbn [seq]. apply perm_swap. }
  replace (h <? n) with true by (symmetry; now apply Nat.ltb_lt).
  replace (v <? n) with true by (symmetry; now apply Nat.ltb_lt). cbn [andb].
  assert (Hv0 : v <> 0).
  { intros ->. specialize (Hbad eq_refl). subst h. discriminate. }
  destruct (head2 (swap_at 1 v (swap_at 0 h (seq 0 n))) n h v) as [rest Hr].
  - now rewrite !swap_at_length, seq_length.
  - auto.
  - rewrite two_swaps_table by lia. unfold transp. cbn [Nat.eqb].
    destruct v; [lia|]. reflexivity.
  - rewrite two_swaps_table by lia. unfold transp at 2. cbn [Nat.eqb].
    unfold transp. destruct v; [lia|]. replace (S v =? h) with false; [reflexivity|].
    symmetry. apply Nat.eqb_neq. lia.
  - exists rest. split; [now rewrite Hr|]. rewrite <- Hr. now apply two_swaps_perm.
Qed.

(** The defective case: (h, 0) with h >= 2 is laid out as if (1, h) had been asked for. *)
Lemma tensor_list_bad n h :
  2 <= h -> h < n ->
  exists rest, tensor_list_of n [h; 0] = Some (1 :: h :: rest) /\
    Permutation (1 :: h :: rest) (seq 0 n).
Proof.
  intros Hh Hn. unfold tensor_list_of.
  replace (h =? 0) with false by (symmetry; apply Nat.eqb_neq; lia).
  replace (h =? 1) with false by (symmetry; apply Nat.eqb_neq; lia). cbn [andb].
  replace (h <? n) with true by (symmetry; now apply Nat.ltb_lt).
  replace (0 <? n) with true by (symmetry; apply Nat.ltb_lt; lia). cbn [andb].
  destruct (head2 (swap_at 1 0 (swap_at 0 h (seq 0 n))) n 1 h) as [rest Hr].
  - now rewrite !swap_at_length, seq_length.
  - lia.
  - rewrite two_swaps_table by lia. unfold transp. cbn. destruct h as [|[|h]]; solve [lia|reflexivity].
  - rewrite two_swaps_table by lia. unfold transp. cbn. reflexivity.
  - exists rest. split; [now rewrite Hr|]. rewrite <- Hr. apply two_swaps_perm; lia.
Qed.

(** The spectators of a tensor list are the remaining channels. *)
Lemma spectators D h v rest us vs :
  Permutation (h :: v :: rest) (seq 0 (dN D)) -> valid D us -> valid D vs ->
  (leqb (pick rest us) (pick rest vs) = true <-> same_elsewhere h v us vs).
Proof.
  intros HP [Hu _] [Hv _]. rewrite leqb_spec. unfold same_elsewhere, pick. split.
  - intros E c Hch Hcv. destruct (le_lt_dec (dN D) c) as [Hc|Hc].
    + rewrite !nth_overflow by lia. reflexivity.
    + assert (Hin : In c (h :: v :: rest)). { apply (Permutation_in c (Permutation_sym HP)). apply in_seq. lia. }
      destruct Hin as [->|[->|Hin]]; try contradiction.
      revert E Hin. clear. induction rest as [|r rest IH]; intros E Hin; [destruct Hin|].
      cbn [map] in E. injection E as E1 E2. destruct Hin as [->|Hin]; auto.
  - intros H. apply map_ext_in. intros c Hc.
    assert (ND : NoDup (h :: v :: rest)) by (eapply Permutation_NoDup; [symmetry; exact HP|apply seq_NoDup]).
    inversion ND as [|? ? Hh ND1]; subst. inversion ND1 as [|? ? Hv1 ND2]; subst.
    apply H; intros ->; [apply Hh; now right|contradiction].
Qed.

Lemma photons_perm (l l' : list nat) : Permutation l l' -> photons l = photons l'.
Proof. induction 1; simpl; lia. Qed.
Lemma pick_id n vs : length vs = n -> pick (seq 0 n) vs = vs.
Proof.
  intros <-. unfold pick. apply (nth_ext _ _ 0 0); [now rewrite map_length, seq_length|].
  intros k Hk. rewrite map_length, seq_length in Hk.
  rewrite nth_indep with (d' := nth 0 vs 0) by (rewrite map_length, seq_length; auto).
  rewrite (map_nth (fun i => nth i vs 0)), seq_nth by auto. reflexivity.
Qed.
Lemma photons_pick tl n vs :
  Permutation tl (seq 0 n) -> length vs = n -> photons (pick tl vs) = photons vs.
Proof.
  intros HP Hlen. rewrite <- (pick_id n vs Hlen) at 2. apply photons_perm.
  unfold pick. now apply Permutation_map.
Qed.
Lemma photons_app l l' : photons (l ++ l') = photons l + photons l'.
Proof. induction l; simpl; lia. Qed.
Lemma sum_values_photons vs : sum_values vs = photons vs.
Proof.
  unfold sum_values. rewrite fold_symmetric; [|intros; lia|intros; lia].
  induction vs; simpl; auto.
Qed.

Lemma full_matrix_conserves D A tl us vs :
  1 <= dL D -> 2 <= dN D -> Permutation tl (seq 0 (dN D)) -> valid D us -> valid D vs ->
  photons us <> photons vs ->
  full_matrix D A tl (index_of_values D us) (index_of_values D vs) = RtoC 0.
Proof.
  intros HL HN HP Hu Hv Hne.
  destruct (head2 tl (dN D) (nth 0 tl 0) (nth 1 tl 0)) as [rest Hr]; auto.
  { rewrite (Permutation_length HP). apply seq_length. }
  set (h := nth 0 tl 0) in *. set (v := nth 1 tl 0) in *. clearbody h v. subst tl.
  rewrite full_matrix_tuples by auto.
  destruct (leqb _ _) eqn:E; auto. apply leqb_spec in E.
  apply gate_amp_zero.
  rewrite <- (photons_pick _ _ us HP), <- (photons_pick _ _ vs HP) in Hne by (apply Hu || apply Hv).
  cbn [pick map] in Hne. cbn [photons] in Hne.
  unfold pick in E. rewrite E in Hne. lia.
Qed.
