(** C50: histograms of arbitrary classical values. *)
From Coq Require Import Reals ZArith List Arith Lia Lra Bool Permutation.
From Coquelicot Require Import Complex.
From Verif Require Import Prelude NamesModel NamesSpec NamesProofs FockModel StateModel StateSpec StateProofs CollectionModel EvalModel EvalSpec MeasureSpec MeasureProofs WfProofs PropMeasure ColumnModel PlotModel PlotSpec PlotProofs PropPlot.
Import ListNotations.
Open Scope nat_scope.

(** The number without its decimals: 2.7 gives 2, -2.7 gives -2. *)
Definition whole_part (x : R) (z : Z) : Prop := (Rabs (x - IZR z) < 1 /\ Rabs (IZR z) <= Rabs x)%R.
(** The number between 0 and L-1 that is left when multiples of L are added to or taken from the
    whole part. *)
Definition shown (L : nat) (x : R) (d : nat) : Prop :=
  d < L /\ exists z k : Z, whole_part x z /\ z = (Z.of_nat d + k * Z.of_nat L)%Z.
(** The weights of the states with label [l] for which [digit] gives [vs] in the channels. *)
Definition showing_weight (digit : R -> nat) (chs : list nat) (l : ident) (vs : values) (sts : list state) : R :=
  Rsum sts (fun st => if leqb (s_init st) l then
    if list_eq_dec Nat.eq_dec (map digit (classical_read chs st)) vs then s_cum st else 0 else 0)%R.

Lemma whole_part_unique x y z : whole_part x y -> whole_part x z -> y = z.
Proof.
  intros [A1 A2] [B1 B2].
  assert (H : (Rabs (IZR (y - z)) < 2)%R).
  { rewrite minus_IZR. replace (IZR y - IZR z)%R with ((x - IZR z) - (x - IZR y))%R by ring.
    eapply Rle_lt_trans; [apply Rabs_triang|]. rewrite Rabs_Ropp. lra. }
  apply Rabs_def2 in H. destruct H as [H1 H2]. apply lt_IZR in H1. change (- (2))%R with (IZR (-2)) in H2. apply lt_IZR in H2.
  assert (C : (y - z = -1 \/ y - z = 0 \/ y - z = 1)%Z) by lia.
  apply Rabs_def2 in A1. apply Rabs_def2 in B1.
  destruct C as [C|[C|C]]; [|lia|]; exfalso.
  - assert (E : z = (y + 1)%Z) by lia. subst z. rewrite plus_IZR in *.
    destruct (Z_le_gt_dec 0 y) as [Hy|Hy].
    + apply IZR_le in Hy. rewrite (Rabs_pos_eq (IZR y + 1)) in B2 by lra. unfold Rabs in B2. destruct (Rcase_abs x); lra.
    + assert (Hy' : (y + 1 <= 0)%Z) by lia. apply IZR_le in Hy'. rewrite plus_IZR in Hy'.
      rewrite (Rabs_left1 (IZR y)) in A2 by lra. unfold Rabs in A2. destruct (Rcase_abs x); lra.
  - assert (E : y = (z + 1)%Z) by lia. subst y. rewrite plus_IZR in *.
    destruct (Z_le_gt_dec 0 z) as [Hy|Hy].
    + apply IZR_le in Hy. rewrite (Rabs_pos_eq (IZR z + 1)) in A2 by lra. unfold Rabs in A2. destruct (Rcase_abs x); lra.
    + assert (Hy' : (z + 1 <= 0)%Z) by lia. apply IZR_le in Hy'. rewrite plus_IZR in Hy'.
      rewrite (Rabs_left1 (IZR z)) in B2 by lra. unfold Rabs in B2. destruct (Rcase_abs x); lra.
Qed.
Lemma truncate_whole x : whole_part x (truncate x).
Proof.
  unfold whole_part, truncate. destruct (Rle_dec 0 x) as [H|H].
  - pose proof (base_Int_part x) as [B1 B2].
    assert (HI : (0 <= Int_part x)%Z). { assert (IZR (-1) < IZR (Int_part x))%R by (change (IZR (-1)) with (-1)%R; lra). apply lt_IZR in H0. lia. }
    apply IZR_le in HI. rewrite (Rabs_pos_eq (IZR _)), (Rabs_pos_eq x) by lra. rewrite Rabs_pos_eq by lra. lra.
  - pose proof (base_Int_part (- x)) as [B1 B2].
    assert (HI : (0 <= Int_part (- x))%Z). { assert (IZR (-1) < IZR (Int_part (- x)))%R by (change (IZR (-1)) with (-1)%R; lra). apply lt_IZR in H0. lia. }
    apply IZR_le in HI. rewrite opp_IZR. rewrite Rabs_Ropp, (Rabs_pos_eq (IZR _)) by lra. rewrite (Rabs_left1 x) by lra.
    rewrite Rabs_left1 by lra. lra.
Qed.
Lemma shown_unique L x d e : shown L x d -> shown L x e -> d = e.
Proof.
  intros (H1 & y & j & Y & Ey) (H2 & z & k & Hz & Ez). pose proof (whole_part_unique x y z Y Hz) as E. clear Y Hz.
  assert (HL : (Z.of_nat d - Z.of_nat e = (k - j) * Z.of_nat L)%Z) by lia.
  destruct (Z.eq_dec (k - j) 0) as [E0|E0]; [rewrite E0 in HL; lia|]. exfalso. nia.
Qed.
Lemma plot_digit_shown D x : 1 <= dL D -> shown (dL D) x (plot_digit D x).
Proof.
  intros HL. split; [now apply plot_digit_bound|].
  exists (truncate x), (truncate x / Z.of_nat (dL D))%Z. split; [apply truncate_whole|].
  unfold plot_digit. pose proof (Z.mod_pos_bound (truncate x) (Z.of_nat (dL D))).
  rewrite Z.abs_eq, Z2Nat.id by lia. pose proof (Z.div_mod (truncate x) (Z.of_nat (dL D))). lia.
Qed.

(** C50: every value has exactly one digit. *)
Theorem C50_digit : forall L x, 1 <= L -> exists! d, shown L x d.
Proof.
  intros L x HL. exists (plot_digit (Dims L 0 true) x). split; [now apply (plot_digit_shown (Dims L 0 true))|].
  intros e He. eapply shown_unique; [|exact He]. now apply (plot_digit_shown (Dims L 0 true)).
Qed.
Print Assumptions C50_digit.

(** C50: the histogram of a collection with arbitrary values in its channels. Every value is shown
    as its digit, states with the same label that show the same are counted together, and every
    label lists everything that is shown for some selected state. *)
Theorem C50_any_values : forall rnd ord cs chs inits digit,
  (forall x, shown (dL (co_D cs)) x (digit x)) ->
  listing ord -> 1 <= dL (co_D cs) -> ordinary (co_items cs) ->
  Forall (fun it => Forall (fun c => c < length (s_classical (snd it))) (channels_used (co_ncl cs) chs)) (co_items cs) ->
  exists h, plot rnd ord cs chs inits = Some h /\
    NoDup (map fst h) /\
    (forall l, In l (map fst h) <-> exists it, In it (co_items cs) /\ selected inits (snd it) /\ s_init (snd it) = l) /\
    forall l es, In (l, es) h -> exists vss, NoDup vss /\
      (forall vs, In vs vss <-> exists it, In it (co_items cs) /\ selected inits (snd it) /\
                     map digit (classical_read (channels_used (co_ncl cs) chs) (snd it)) = vs) /\
      es = map (fun vs => (outcome_string (co_D cs) vs,
             showing_weight digit (channels_used (co_ncl cs) chs) l vs (map snd (co_items cs)))) vss.
Proof.
  intros rnd ord cs chs inits digit Hd Hord HL Ho Hch. unfold plot. rewrite (all_have_false _ _ Ho).
  change (match chs with [] => seq 0 (co_ncl cs) | _ :: _ => chs end) with (channels_used (co_ncl cs) chs).
  set (cu := channels_used (co_ncl cs) chs) in *. set (D := co_D cs) in *.
  assert (Hdig : forall x, digit x = plot_digit D x) by (intros x; eapply shown_unique; [apply Hd|now apply plot_digit_shown]).
  assert (Hn : forall st, named D cu st = outcome_string D (map digit (classical_read cu st))).
  { intros st. unfold named. rewrite plot_name_digits. f_equal. apply map_ext. intros x. now rewrite Hdig. }
  assert (Hb : forall st, Forall (fun v => v < dL D) (map digit (classical_read cu st))).
  { intros st. apply Forall_map, Forall_forall. intros x _. exact (proj1 (Hd x)). }
  destruct (histogram_of_spec ord D cu inits (map snd (co_items cs)) Hord) as (h & Eh & H1 & H2 & H3).
  { intros st Hs _. rewrite Forall_forall in Hch. apply in_map_iff in Hs. destruct Hs as (it & <- & Hi). now apply Hch. }
  assert (Hex : forall P : state -> Prop, (exists st, In st (map snd (co_items cs)) /\ P st) <-> exists it, In it (co_items cs) /\ P (snd it)).
  { intros P. split.
    - intros (st & Hs & Hp). apply in_map_iff in Hs. destruct Hs as (it & <- & Hi). eauto.
    - intros (it & Hi & Hp). exists (snd it). split; [now apply in_map|auto]. }
  exists h. split; [exact Eh|]. split; [exact H1|]. split; [intros l; rewrite H2; apply (Hex (fun st => selected inits st /\ s_init st = l))|].
  intros l es Hin. destruct (H3 l es Hin) as (J1 & J2 & J3).
  destruct (nodup_preimage (outcome_string D) (fun vs => Forall (fun v => v < dL D) vs) (map fst es)) as (vss & Em & HF).
  { intros o Ho'. apply J2 in Ho'. destruct Ho' as (st & Hs & _ & <-). eexists. split; [apply (Hb st)|symmetry; apply Hn]. }
  exists vss. split; [apply (NoDup_map_inv (outcome_string D)); now rewrite Em|]. rewrite Forall_forall in HF. split.
  - intros vs. rewrite <- (Hex (fun st => selected inits st /\ map digit (classical_read cu st) = vs)). split.
    + intros Hv. assert (Ho' : In (outcome_string D vs) (map fst es)) by (rewrite <- Em; now apply in_map).
      apply J2 in Ho'. destruct Ho' as (st & Hs & Hsel & En). exists st. split; auto. split; auto.
      rewrite Hn in En. apply (outcome_string_inj D); auto.
    + intros (st & Hs & Hsel & Hr).
      assert (Ho' : In (outcome_string D vs) (map fst es)). { apply J2. exists st. split; auto. split; auto. rewrite Hn. now rewrite Hr. }
      rewrite <- Em in Ho'. apply in_map_iff in Ho'. destruct Ho' as (us & E & Hu). apply outcome_string_inj in E; auto; [now subst|].
      rewrite <- Hr. apply Hb.
  - assert (Ew : forall o p, In (o, p) es -> forall vs, In vs vss -> outcome_string D vs = o -> p = showing_weight digit cu l vs (map snd (co_items cs))).
    { intros o p Hp vs Hv <-. rewrite (J3 _ _ Hp). unfold W, showing_weight. apply Rsum_ext. intros st Hs.
      destruct (leqb (s_init st) l); [|reflexivity]. rewrite Hn.
      destruct (list_eq_dec Nat.eq_dec (map digit (classical_read cu st)) vs) as [E|E]; destruct (leqb _ _) eqn:El; auto.
      - subst vs. rewrite (proj2 (leqb_spec _ _) eq_refl) in El. discriminate.
      - apply leqb_spec, outcome_string_inj in El; auto. contradiction. }
    clear -Em Ew. revert vss Em Ew. induction es as [|[o p] es IH]; intros [|vs vss] Em Ew; try discriminate; [reflexivity|].
    cbn [map fst] in Em. injection Em as E1 E2. cbn [map]. f_equal.
    + f_equal; [auto|]. apply (Ew o p); [now left|now left|auto].
    + apply IH; auto. intros o' p' Ho' vs' Hv. apply Ew; now right.
Qed.
Print Assumptions C50_any_values.

(** Negative values: with photon numbers below 3, the value -3/2 is shown as 2 (not as 1), and -3 as 0. *)
Example C50_any_values_case : shown 3 (-3/2) 2 /\ ~ shown 3 (-3/2) 1 /\ shown 3 (-3) 0 /\ shown 3 (5/2) 2.
Proof.
  assert (A : shown 3 (-3/2) 2).
  { split; [lia|]. exists (-1)%Z, (-1)%Z. split; [|reflexivity]. split; [rewrite Rabs_left1 by lra; lra|]. rewrite !Rabs_left1 by lra. lra. }
  split; [exact A|]. split; [intros B; pose proof (shown_unique _ _ _ _ A B); discriminate|]. split.
  - split; [lia|]. exists (-3)%Z, (-1)%Z. split; [|reflexivity]. split; [rewrite Rabs_pos_eq by lra; lra|lra].
  - split; [lia|]. exists 2%Z, 0%Z. split; [|reflexivity]. split; [rewrite Rabs_pos_eq by lra; lra|]. rewrite !Rabs_pos_eq by lra. lra.
Qed.
Example C50_any_values_meets : ordinary (co_items merge_coll) /\ 1 <= dL (co_D merge_coll) /\
  Forall (fun it => Forall (fun c => c < length (s_classical (snd it))) (channels_used (co_ncl merge_coll) [0])) (co_items merge_coll).
Proof.
  split. { exists ([1], merge_state (/2) 0). split; [now left|]. intros x []. }
  split; [cbn; lia|]. repeat constructor.
Qed.
