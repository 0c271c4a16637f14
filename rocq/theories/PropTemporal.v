(** C43: time delays. Read with ColumnModel.v (model) and TemporalSpec.v (vocabulary). *)
From Coq Require Import Reals List Arith Lia Lra Bool Permutation.
From Coquelicot Require Import Complex.
From Verif Require Import Prelude NamesModel NamesSpec NamesProofs FockModel FockProofs StateModel StateSpec StateProofs ApplyProofs
  CollectionModel EvalModel PropMeasure PropCollection PropEval PropBridge PropPRMeasure OperatorModel ColumnModel ColumnSpec ColumnProofs PropColumn
  GroupProofs TemporalSpec TemporalProofs.
Import ListNotations.

(** ** The overlap of two pulses *)
Lemma exponent_nonneg x : (0 <= ln 2 * x ^ 2)%R.
Proof.
  assert (Hl : (0 < ln 2)%R) by (rewrite <- ln_1; apply ln_increasing; lra).
  apply Rmult_le_pos; [lra|]. rewrite <- Rsqr_pow2. apply Rle_0_sqr.
Qed.
(** Two pulses with positive widths overlap with a number in (0,1], the same in both orders,
    which is 1 exactly if they come at the same time, and decreases strictly with their distance. *)
Theorem C43_overlap d1 w1 d2 w2 : (0 < w1)%R -> (0 < w2)%R ->
  (0 < overlap (Some (d1, w1)) (Some (d2, w2)) <= 1)%R /\
  overlap (Some (d1, w1)) (Some (d2, w2)) = overlap (Some (d2, w2)) (Some (d1, w1)) /\
  (overlap (Some (d1, w1)) (Some (d2, w2)) = 1%R <-> d1 = d2) /\
  (forall d1' d2', (Rabs (d1 - d2) < Rabs (d1' - d2'))%R ->
     (overlap (Some (d1', w1)) (Some (d2', w2)) < overlap (Some (d1, w1)) (Some (d2, w2)))%R).
Proof.
  intros H1 H2. unfold overlap. assert (Hl : (0 < ln 2)%R) by (rewrite <- ln_1; apply ln_increasing; lra).
  assert (Hs : (0 < sqrt (w1 ^ 2 + w2 ^ 2))%R) by (apply sqrt_lt_R0; nra). set (s := sqrt (w1 ^ 2 + w2 ^ 2)) in *.
  assert (Hm : forall x y, (Rabs x < Rabs y)%R -> (ln 2 * (x / s) ^ 2 < ln 2 * (y / s) ^ 2)%R).
  { intros x y Hxy. apply Rmult_lt_compat_l; [exact Hl|]. rewrite <- !Rsqr_pow2. apply Rsqr_lt_abs_1.
    unfold Rdiv. rewrite !Rabs_mult. apply Rmult_lt_compat_r; [|exact Hxy]. apply Rabs_pos_lt. apply Rinv_neq_0_compat. lra. }
  split; [split|split; [|split]].
  - apply exp_pos.
  - apply Rle_trans with (exp 0); [|rewrite exp_0; lra]. pose proof (exponent_nonneg ((d1 - d2) / s)) as Hz.
    destruct Hz as [Hz|Hz]; [left; apply exp_increasing; lra|right; f_equal; lra].
  - f_equal. replace (w2 ^ 2 + w1 ^ 2)%R with (w1 ^ 2 + w2 ^ 2)%R by ring. fold s. f_equal. unfold Rdiv. ring.
  - split.
    + intro E. destruct (Req_dec d1 d2) as [Z|Z]; [exact Z|]. exfalso. rewrite <- exp_0 in E. apply exp_inv in E.
      assert (Hp : (ln 2 * ((0 - 0) / s) ^ 2 < ln 2 * ((d1 - d2) / s) ^ 2)%R) by (apply Hm; rewrite Rminus_0_r, Rabs_R0; apply Rabs_pos_lt; lra).
      unfold Rdiv in Hp at 1. rewrite Rminus_0_r, Rmult_0_l in Hp. lra.
    + intros ->. replace (d2 - d2)%R with 0%R by ring. unfold Rdiv. rewrite Rmult_0_l. rewrite <- exp_0. f_equal. ring.
  - intros d1' d2' Hd. apply exp_increasing. specialize (Hm _ _ Hd). lra.
Qed.
(** The same for the overlap used by the quick time delay. *)
Theorem C43_quick_overlap t w : (0 < w)%R ->
  (0 < gauss t w <= 1)%R /\ gauss (- t) w = gauss t w /\ (gauss t w = 1%R <-> t = 0%R) /\
  (forall t', (Rabs t < Rabs t')%R -> (gauss t' w < gauss t w)%R).
Proof.
  intro Hw. split; [apply gauss_range|]. assert (Hl : (0 < ln 2)%R) by (rewrite <- ln_1; apply ln_increasing; lra).
  assert (Hm : forall x y, (Rabs x < Rabs y)%R -> (ln 2 * (x / w) ^ 2 < ln 2 * (y / w) ^ 2)%R).
  { intros x y Hxy. apply Rmult_lt_compat_l; [exact Hl|]. rewrite <- !Rsqr_pow2. apply Rsqr_lt_abs_1.
    unfold Rdiv. rewrite !Rabs_mult. apply Rmult_lt_compat_r; [|exact Hxy]. apply Rabs_pos_lt. apply Rinv_neq_0_compat. lra. }
  unfold gauss. split; [f_equal; unfold Rdiv; ring|]. split; [split|].
  - intro E. destruct (Req_dec t 0) as [Z|Z]; [exact Z|]. exfalso. rewrite <- exp_0 in E. apply exp_inv in E.
    assert (Hp : (ln 2 * (0 / w) ^ 2 < ln 2 * (t / w) ^ 2)%R) by (apply Hm; rewrite Rabs_R0; apply Rabs_pos_lt; exact Z).
    unfold Rdiv in Hp at 1. rewrite Rmult_0_l in Hp. lra.
  - intros ->. unfold Rdiv. rewrite Rmult_0_l. rewrite <- exp_0. f_equal. ring.
  - intros t' Ht. apply exp_increasing. specialize (Hm _ _ Ht). lra.
Qed.
(** Pulses of the same width: the overlap of two photons in both orders is that of the quick
    time delay. *)
Theorem C43_overlap_squared d1 d2 w : (0 < w)%R ->
  (overlap (Some (d1, w)) (Some (d2, w)) * overlap (Some (d2, w)) (Some (d1, w)))%R = gauss (d1 - d2) w.
Proof.
  intro Hw. unfold overlap, gauss. rewrite <- exp_plus. f_equal.
  assert (Hs : (sqrt (w ^ 2 + w ^ 2) * sqrt (w ^ 2 + w ^ 2) = w ^ 2 + w ^ 2)%R) by (apply sqrt_sqrt; nra).
  assert (Hs0 : (0 < sqrt (w ^ 2 + w ^ 2))%R) by (apply sqrt_lt_R0; nra). set (s := sqrt (w ^ 2 + w ^ 2)) in *.
  replace (((d1 - d2) / s) ^ 2)%R with ((d1 - d2) ^ 2 / (s * s))%R by (field; lra). replace (((d2 - d1) / s) ^ 2)%R with ((d1 - d2) ^ 2 / (s * s))%R by (field; lra).
  rewrite Hs. field. nra.
Qed.

(** ** The quick time delay *)
(** The conditions on the collection: states of the circuit without photon information, accepted
    by the checks of State; states with several components have nonzero amplitudes and norm 1. *)
Definition delayable (cs : coll) : Prop :=
  (0 <= co_eps cs)%R /\
  Forall (fun it => plain_state (co_D cs) (co_eps cs) (co_ncl cs) (snd it) /\ s_comps (snd it) <> [] /\
            (2 <= length (s_comps (snd it)) -> Forall (fun c => fst (snd c) <> RtoC 0) (s_comps (snd it)) /\ state_norm2 (snd it) = 1%R)) (co_items cs).
Lemma delayable_good cs : delayable cs -> Forall (fun it => good_state (co_D cs) (co_eps cs) (co_ncl cs) (snd it)) (co_items cs).
Proof.
  intros [_ H]. revert H. apply Forall_impl. intros it [H1 H2]. split; [exact H1|]. split; [apply H1|exact H2].
Qed.
Lemma good_perm D eps ncl (sks : list (state * nat)) its : Permutation (map fst sks) (map snd its) -> Forall (fun it : ident * state => good_state D eps ncl (snd it)) its ->
  Forall (fun sk => good_state D eps ncl (fst sk)) sks.
Proof.
  intros Hp H. apply Forall_forall. intros sk Hin. apply (in_map fst) in Hin. apply (Permutation_in _ Hp) in Hin. apply in_map_iff in Hin.
  destruct Hin as [it [<- Hin]]. exact (proj1 (Forall_forall _ _) H it Hin).
Qed.
(** The states of the result: the n-th state (in some order) gets the groups 2n+1 and 2n+2; the
    first holds its components with weight times overlap and equal timing, the second holds, with
    the remaining weight, every component in two parts: the photons in the delayed channels and
    the other photons, with different timing. *)
Theorem C43_quick_states rnd chs d w cs : delayable cs -> delay_exists d (co_ncl cs) ->
  exists cs' sts idss pts, add_quick_time_delay rnd chs d w cs = Some cs' /\ NoDup (map fst (co_items cs')) /\
    Permutation sts (map snd (co_items cs)) /\ Forall2 column_numbers sts idss /\
    Forall2 (shows (co_D cs)) (map snd (co_items cs')) pts /\
    Permutation pts (flat_map (fun x => flat_map (quick_parts (co_D cs) chs (gauss (delay_in d (fst (snd x))) w) (fst x) (fst (snd x))) (numbered (snd (snd x)) (fst (snd x))))
                       (combine (seq 0 (length sts)) (combine sts idss))).
Proof.
  intros Hdl Hd. pose proof (delayable_good cs Hdl) as Hgood. destruct Hdl as [He _].
  destruct (plain_groups (co_D cs) (co_eps cs) (co_ncl cs) (co_items cs) He Hgood) as [cc [sks [gs [E1 [E2 [Hp [Hnd HF]]]]]]].
  pose proof (good_perm _ _ _ _ _ Hp Hgood) as Hg2.
  destruct (quick_all (co_D cs) (co_eps cs) (co_ncl cs) chs d w sks gs He Hd Hg2 HF 0) as [ls [pts [idss [E3 [H1 [H2 H3]]]]]].
  destruct (collect_ok (co_D cs) rnd cs (flat_map group_states_of (concat ls)) Hgood) as [cs' [E4 [E5 [E6 _]]]].
  exists cs', (map fst sks), idss, pts. unfold add_quick_time_delay. rewrite E1, E2, E3. split; [exact E4|]. split; [exact E6|]. split; [exact Hp|]. split; [exact H1|].
  rewrite E5. split; [exact H2|]. rewrite map_length. exact H3.
Qed.

Lemma Forall2_in_l_ex {A B} (P : A -> B -> Prop) l l' x : Forall2 P l l' -> In x l -> exists y, In y l' /\ P x y.
Proof. induction 1 as [|a b l l' H _ IH]; intros []; [subst; exists b; split; [left; reflexivity|exact H]|destruct (IH H0) as [y [Hy Hp]]; exists y; split; [right; exact Hy|exact Hp]]. Qed.
(** Weights: read off the parts. *)
Lemma shows_group D st pt k p : shows D st pt -> in_group st k p <-> k = pt_group pt /\ p = pt_weight pt.
Proof.
  intros [_ [_ [_ [_ [_ H]]]]]. unfold in_group. rewrite H. split.
  - intros [r [Er [E1 E2]]]. injection Er as <-. cbn in E1, E2. split; congruence.
  - intros [-> ->]. eexists. split; [reflexivity|]. split; reflexivity.
Qed.
Lemma weights_of_parts D (its : list (ident * state)) pts W : Forall2 (shows D) (map snd its) pts ->
  NoDup (map fst W) -> (forall w, In w W <-> In w (map (fun pt => (pt_label pt, pt_group pt, pt_weight pt)) pts)) ->
  group_weights its W.
Proof.
  intros HF Hnd HW. split; [exact Hnd|]. split.
  - intros it Hin. destruct (Forall2_in_l_ex _ _ _ _ HF (in_map snd _ _ Hin)) as [pt [Hpt Hs]].
    exists (pt_group pt), (pt_weight pt). apply (shows_group D _ pt); [exact Hs|]. split; reflexivity.
  - intros i k p. rewrite HW. split.
    + intro H. apply in_map_iff in H. destruct H as [pt [Ept Hpt]]. destruct (Forall2_in_r_ex _ _ _ _ HF Hpt) as [st [Hst Hs]].
      apply in_map_iff in Hst. destruct Hst as [it [<- Hit]]. exists it. split; [exact Hit|].
      assert (i = pt_label pt /\ k = pt_group pt /\ p = pt_weight pt) as [-> [-> ->]] by (split; [congruence|split; congruence]).
      split; [apply Hs|]. apply (shows_group D _ pt); [exact Hs|]. split; reflexivity.
    + intros [it [Hit [Hi Hg]]]. destruct (Forall2_in_l_ex _ _ _ _ HF (in_map snd _ _ Hit)) as [pt [Hpt Hs]].
      apply (shows_group D _ pt _ _ Hs) in Hg. destruct Hg as [-> ->]. apply in_map_iff. exists pt. split; [|exact Hpt]. rewrite <- Hi. rewrite (proj1 Hs). reflexivity.
Qed.
Lemma numbered_nonempty st ids : column_numbers st ids -> s_comps st <> [] -> exists x, In x (numbered ids st).
Proof.
  intros [Hl _] Hne. unfold numbered. assert (Hw : weighted_components st <> []) by (unfold weighted_components; destruct (s_comps st) as [|[n [a p]] [|y l]]; [congruence|discriminate|discriminate]).
  destruct (weighted_components st) as [|y l]; [congruence|]. destruct ids as [|i ids]; [discriminate|]. exists (i, y). left. reflexivity.
Qed.
Definition quick_weights (ov : state -> R) (n : nat) (sts : list state) : list (ident * nat * R) :=
  flat_map (fun x => [(s_init (snd x), 2 * fst x + 1, (s_cum (snd x) * ov (snd x))%R); (s_init (snd x), 2 * fst x + 2, (s_cum (snd x) * (1 - ov (snd x)))%R)]) (combine (seq n (length sts)) sts).
Lemma quick_weights_numbers ov sts : forall n w, In w (quick_weights ov n sts) -> 2 * n + 1 <= snd (fst w).
Proof.
  induction sts as [|st sts IH]; intros n w H; [destruct H|]. unfold quick_weights in *. cbn [length seq combine flat_map fst snd app] in H.
  destruct H as [<-|[<-|H]]; cbn [fst snd]; try lia. apply IH in H. lia.
Qed.
Lemma quick_weights_nodup ov sts : forall n, NoDup (map fst (quick_weights ov n sts)).
Proof.
  induction sts as [|st sts IH]; intro n; [constructor|]. unfold quick_weights. cbn [length seq combine flat_map fst snd app map].
  fold (quick_weights ov (S n) sts). constructor; [|constructor; [|apply IH]].
  - intros [Z|Z]; [assert (2 * n + 2 = 2 * n + 1) by congruence; lia|]. apply in_map_iff in Z. destruct Z as [w [Ew Hw]]. apply quick_weights_numbers in Hw. rewrite Ew in Hw. cbn in Hw. lia.
  - intro Z. apply in_map_iff in Z. destruct Z as [w [Ew Hw]]. apply quick_weights_numbers in Hw. rewrite Ew in Hw. cbn in Hw. lia.
Qed.
Lemma quick_weights_total ov sts i : forall n, weight_of (quick_weights ov n sts) i = Rsum (filter (fun st => leqb (s_init st) i) sts) s_cum.
Proof.
  unfold weight_of. induction sts as [|st sts IH]; intro n; [reflexivity|]. unfold quick_weights. cbn [length seq combine flat_map fst snd app].
  fold (quick_weights ov (S n) sts). cbn [filter fst snd]. destruct (leqb (s_init st) i); [|apply IH].
  rewrite !Rsum_cons, IH. cbn [snd]. ring.
Qed.
Lemma quick_weights_in ov chs D sts : forall n idss w, Forall2 column_numbers sts idss -> Forall (fun st => s_comps st <> []) sts ->
  In w (quick_weights ov n sts) <->
  In w (map (fun pt => (pt_label pt, pt_group pt, pt_weight pt))
     (flat_map (fun x => flat_map (quick_parts D chs (ov (fst (snd x))) (fst x) (fst (snd x))) (numbered (snd (snd x)) (fst (snd x))))
                       (combine (seq n (length sts)) (combine sts idss)))).
Proof.
  induction sts as [|st sts IH]; intros n idss w HF Hne; inversion HF as [|? ids ? idss' Hc HF']; subst; [reflexivity|].
  unfold quick_weights. cbn [length seq combine flat_map fst snd app]. fold (quick_weights ov (S n) sts). rewrite map_app, in_app_iff.
  rewrite <- (IH (S n) idss' w HF' (Forall_inv_tail Hne)). cbn [In].
  destruct (numbered_nonempty st ids Hc (Forall_inv Hne)) as [x0 Hx0].
  split.
  - intros [H|[H|H]]; [left|left|right; exact H].
    + apply in_map_iff. exists (nth 0 (quick_parts D chs (ov st) n st x0) (Part [] [] 0 0 0 0 (RtoC 0) 0 (0%R, 0%R) [])). split; [exact H|]. apply in_flat_map. exists x0. split; [exact Hx0|]. left. reflexivity.
    + apply in_map_iff. exists (nth 1 (quick_parts D chs (ov st) n st x0) (Part [] [] 0 0 0 0 (RtoC 0) 0 (0%R, 0%R) [])). split; [exact H|]. apply in_flat_map. exists x0. split; [exact Hx0|]. right. left. reflexivity.
  - intros [H|H]; [|right; right; exact H]. apply in_map_iff in H. destruct H as [pt [<- Hpt]]. apply in_flat_map in Hpt. destruct Hpt as [x [_ Hpt]].
    unfold quick_parts in Hpt. destruct Hpt as [<-|[<-|[<-|[]]]]; cbn [pt_label pt_group pt_weight]; [left|right; left|right; left]; reflexivity.
Qed.
(** The weights of the groups of the result add up, per label, to the weights of the input. *)
Theorem C43_quick_conserves rnd chs d w cs : delayable cs -> delay_exists d (co_ncl cs) ->
  exists cs' W, add_quick_time_delay rnd chs d w cs = Some cs' /\ group_weights (co_items cs') W /\
    Forall (fun x => (0 <= snd x)%R) W /\
    forall i, weight_of W i = label_weight (co_items cs) i.
Proof.
  intros Hdl Hd. destruct (C43_quick_states rnd chs d w cs Hdl Hd) as [cs' [sts [idss [pts [E [_ [Hp [Hids [HF Hperm]]]]]]]]].
  set (ov := fun st => gauss (delay_in d st) w).
  assert (Hst : Forall (fun st => plain_state (co_D cs) (co_eps cs) (co_ncl cs) st /\ s_comps st <> []) sts).
  { apply Forall_forall. intros st Hin. apply (Permutation_in _ Hp) in Hin. apply in_map_iff in Hin. destruct Hin as [it [<- Hit]].
    destruct (proj1 (Forall_forall _ _) (proj2 Hdl) it Hit) as [K1 [K2 _]]. split; assumption. }
  exists cs', (quick_weights ov 0 sts). split; [exact E|]. split; [|split].
  - apply (weights_of_parts (co_D cs) _ pts); [exact HF|apply quick_weights_nodup|]. intro x.
    rewrite (quick_weights_in ov chs (co_D cs) sts 0 idss x Hids) by (revert Hst; apply Forall_impl; intros st [_ K]; exact K).
    split; apply Permutation_in; apply Permutation_map; [symmetry; exact Hperm|exact Hperm].
  - apply Forall_forall. intros x Hx. unfold quick_weights in Hx. apply in_flat_map in Hx. destruct Hx as [[n st] [Hin Hx]]. apply in_combine_r in Hin.
    destruct (proj1 (Forall_forall _ _) Hst st Hin) as [[_ [_ [_ Hc]]] _]. pose proof (gauss_range (delay_in d st) w) as Hg.
    destruct Hx as [<-|[<-|[]]]; cbn [snd fst]; unfold ov; apply Rmult_le_pos; lra.
  - intro i. rewrite quick_weights_total. unfold label_weight.
    assert (Q : Rsum (filter (fun st => leqb (s_init st) i) (map snd (co_items cs))) s_cum = Rsum (filter (fun it => leqb (s_init (snd it)) i) (co_items cs)) (fun it => s_cum (snd it))).
    { generalize (co_items cs). induction i0 as [|it l IH]; [reflexivity|]. cbn [map filter]. destruct (leqb (s_init (snd it)) i); [rewrite !Rsum_cons, IH; reflexivity|exact IH]. }
    etransitivity; [|exact Q]. apply Rsum_perm. clear -Hp. revert Hp. generalize (map snd (co_items cs)) as l'. intros l' Hp.
    induction Hp; [constructor| | |etransitivity; eassumption]; cbn [filter].
    + destruct (leqb (s_init x) i); [constructor|]; assumption.
    + destruct (leqb (s_init x) i), (leqb (s_init y) i); try reflexivity. constructor.
Qed.

(** ** The full time delay *)
Theorem C43_delay_states rnd chs d w cs : 1 <= dN (co_D cs) -> delayable cs -> delay_exists d (co_ncl cs) -> Forall (fun c => c < dN (co_D cs)) chs ->
  exists cs' sks idss pts, add_time_delay rnd chs d w cs = Some cs' /\ NoDup (map fst (co_items cs')) /\
    Permutation (map fst sks) (map snd (co_items cs)) /\ NoDup (map (fun sk => (s_init (fst sk), snd sk)) sks) /\
    Forall2 column_numbers (map fst sks) idss /\
    Forall2 (shows (co_D cs)) (map snd (co_items cs')) pts /\
    Permutation pts (flat_map (fun x => flat_map (delay_parts (co_D cs) chs (delay_in d (fst (fst x))) w (snd (fst x)) (fst (fst x))) (numbered (snd x) (fst (fst x))))
                       (combine sks idss)).
Proof.
  intros HN Hdl Hd Hchs. pose proof (delayable_good cs Hdl) as Hgood. destruct Hdl as [He _].
  destruct (plain_groups (co_D cs) (co_eps cs) (co_ncl cs) (co_items cs) He Hgood) as [cc [sks [gs [E1 [E2 [Hp [Hnd HF]]]]]]].
  pose proof (good_perm _ _ _ _ _ Hp Hgood) as Hg2.
  destruct (delayed_all (co_D cs) (co_eps cs) (co_ncl cs) chs d w sks gs HN He Hd Hchs Hg2 HF) as [sts [pts [idss [E3 [H1 [H2 H3]]]]]].
  destruct (collect_ok (co_D cs) rnd cs sts Hgood) as [cs' [E4 [E5 [E6 _]]]].
  exists cs', sks, idss, pts. unfold add_time_delay, resolved_groups. rewrite E1, E2, (resolved_groups_plain _ _ _ sks gs HN He Hg2 HF), E3.
  split; [exact E4|]. split; [exact E6|]. split; [exact Hp|]. split; [exact Hnd|]. split; [exact H1|]. rewrite E5. split; assumption.
Qed.
Definition delay_weights (sks : list (state * nat)) : list (ident * nat * R) := map (fun sk => (s_init (fst sk), snd sk, s_cum (fst sk))) sks.
Lemma delay_weights_in chs D (t : state -> R) w (sks : list (state * nat)) : forall idss x, Forall2 column_numbers (map fst sks) idss -> Forall (fun sk => s_comps (fst sk) <> []) sks ->
  In x (delay_weights sks) <->
  In x (map (fun pt => (pt_label pt, pt_group pt, pt_weight pt))
     (flat_map (fun x => flat_map (delay_parts D chs (t (fst (fst x))) w (snd (fst x)) (fst (fst x))) (numbered (snd x) (fst (fst x)))) (combine sks idss))).
Proof.
  induction sks as [|sk sks IH]; intros idss x HF Hne; cbn [map] in HF; inversion HF as [|? ids ? idss' Hc HF']; subst; [reflexivity|].
  unfold delay_weights. cbn [map combine flat_map fst snd]. fold (delay_weights sks). rewrite map_app, in_app_iff.
  rewrite <- (IH idss' x HF' (Forall_inv_tail Hne)). cbn [In].
  assert (Hpts : forall y pt, In pt (delay_parts D chs (t (fst sk)) w (snd sk) (fst sk) y) -> (pt_label pt, pt_group pt, pt_weight pt) = (s_init (fst sk), snd sk, s_cum (fst sk))).
  { intros y pt Hpt. unfold delay_parts in Hpt. destruct (channels_of (values_of_name D (fst (snd y)))) as [|c l].
    - destruct Hpt as [<-|[]]. reflexivity.
    - apply in_map_iff in Hpt. destruct Hpt as [ch [<- _]]. reflexivity. }
  destruct (numbered_nonempty (fst sk) ids Hc (Forall_inv Hne)) as [x0 Hx0].
  split.
  - intros [H|H]; [left|right; exact H]. subst x.
    assert (Hex : exists pt, In pt (delay_parts D chs (t (fst sk)) w (snd sk) (fst sk) x0)).
    { unfold delay_parts. destruct (channels_of (values_of_name D (fst (snd x0)))) as [|c l]; eexists; left; reflexivity. }
    destruct Hex as [pt Hpt]. rewrite <- (Hpts x0 pt Hpt). apply in_map_iff. exists pt. split; [reflexivity|]. apply in_flat_map. exists x0. split; assumption.
  - intros [H|H]; [left|right; exact H]. apply in_map_iff in H. destruct H as [pt [<- Hpt]]. apply in_flat_map in Hpt. destruct Hpt as [y [_ Hpt]]. symmetry. exact (Hpts y pt Hpt).
Qed.
Theorem C43_delay_conserves rnd chs d w cs : 1 <= dN (co_D cs) -> delayable cs -> delay_exists d (co_ncl cs) -> Forall (fun c => c < dN (co_D cs)) chs ->
  exists cs' W, add_time_delay rnd chs d w cs = Some cs' /\ group_weights (co_items cs') W /\
    forall i, weight_of W i = label_weight (co_items cs) i.
Proof.
  intros HN Hdl Hd Hchs. destruct (C43_delay_states rnd chs d w cs HN Hdl Hd Hchs) as [cs' [sks [idss [pts [E [_ [Hp [Hnd [Hids [HF Hperm]]]]]]]]]].
  exists cs', (delay_weights sks). split; [exact E|]. split.
  - apply (weights_of_parts (co_D cs) _ pts); [exact HF| |].
    + unfold delay_weights. rewrite map_map. cbn [fst]. exact Hnd.
    + intro x. rewrite (delay_weights_in chs (co_D cs) (delay_in d) w sks idss x Hids).
      * split; apply Permutation_in; apply Permutation_map; [symmetry; exact Hperm|exact Hperm].
      * apply Forall_forall. intros sk Hin. apply (in_map fst) in Hin. apply (Permutation_in _ Hp) in Hin. apply in_map_iff in Hin. destruct Hin as [it [<- Hit]].
        exact (proj1 (proj2 (proj1 (Forall_forall _ _) (proj2 Hdl) it Hit))).
  - intro i. unfold weight_of, label_weight, delay_weights.
    assert (Q1 : Rsum (filter (fun w0 : ident * nat * R => leqb (fst (fst w0)) i) (map (fun sk => (s_init (fst sk), snd sk, s_cum (fst sk))) sks)) snd = Rsum (filter (fun st => leqb (s_init st) i) (map fst sks)) s_cum).
    { clear. induction sks as [|sk l IH]; [reflexivity|]. cbn [map filter fst]. destruct (leqb (s_init (fst sk)) i); [rewrite !Rsum_cons, IH; reflexivity|exact IH]. }
    assert (Q : Rsum (filter (fun st => leqb (s_init st) i) (map snd (co_items cs))) s_cum = Rsum (filter (fun it => leqb (s_init (snd it)) i) (co_items cs)) (fun it => s_cum (snd it))).
    { generalize (co_items cs). induction i0 as [|it l IH]; [reflexivity|]. cbn [map filter]. destruct (leqb (s_init (snd it)) i); [rewrite !Rsum_cons, IH; reflexivity|exact IH]. }
    etransitivity; [exact Q1|]. etransitivity; [|exact Q]. apply Rsum_perm. clear -Hp. revert Hp. generalize (map snd (co_items cs)) as l'. generalize (map fst sks) as l. intros l l' Hp.
    induction Hp; [constructor| | |etransitivity; eassumption]; cbn [filter].
    + destruct (leqb (s_init x) i); [constructor|]; assumption.
    + destruct (leqb (s_init x) i), (leqb (s_init y) i); try reflexivity. constructor.
Qed.
