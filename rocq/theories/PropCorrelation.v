(** C51: correlations between classical channels. *)
From Coq Require Import Reals ZArith List Arith Lia Lra Bool Permutation.
From Coquelicot Require Import Complex.
From Verif Require Import Prelude NamesModel NamesProofs FockModel StateModel StateProofs CollectionModel EvalModel MeasureProofs PropMeasure PropEval ColumnModel PlotModel PlotSpec PlotProofs PropPlot.
Import ListNotations.
Open Scope nat_scope.

Lemma correlation_fold D a b (w : values -> R) (v : values -> name) (f : values -> values) n vss : forall x y,
  a < n -> b < n -> (forall vs, In vs vss -> plot_values D (v vs) = f vs /\ length (f vs) = n) ->
  fold_left (correlation_step D (a, b)) (map (fun vs => (v vs, w vs)) vss) (Some (x, y)) =
  Some ((x + Rsum vss (fun vs => if (nth a (f vs) 0 =? nth b (f vs) 0)%nat then w vs else - w vs))%R, (y + Rsum vss w)%R).
Proof.
  induction vss as [|vs vss IH]; intros x y Ha Hb H.
  - cbn [map fold_left]. unfold Rsum. cbn [fold_right]. f_equal. f_equal; ring.
  - cbn [map fold_left correlation_step fst snd]. destruct (H vs) as [E El]; [now left|]. rewrite E.
    rewrite (nth_error_nth' (f vs) 0) by lia. rewrite (nth_error_nth' (f vs) 0) by lia.
    rewrite IH by (auto; intros; apply H; now right). rewrite !Rsum_cons. f_equal. f_equal; [|ring].
    destruct (_ =? _); ring.
Qed.

(** The channel that [a] is taken for. *)
Definition place (left : bool) (n a : nat) : nat := if left then a else n - 1 - a.
Lemma place_bound left n a : a < n -> place left n a < n.
Proof. unfold place. destruct left; lia. Qed.
Lemma seen_values D vs : 1 <= dL D -> Forall (fun v => v < dL D) vs -> (dLeft D = true \/ dL D <= 10) ->
  plot_values D (outcome_string D vs) = if dLeft D then vs else rev vs.
Proof.
  intros HL Hv H. rewrite C50_names by auto. unfold name_string, plot_values.
  destruct (dLeft D) eqn:E; [apply plot_values_left; auto|]. apply (plot_values_left D (rev vs)); auto. now apply Forall_rev.
Qed.
Lemma nth_place D vs a : a < length vs -> nth a (if dLeft D then vs else rev vs) 0 = nth (place (dLeft D) (length vs) a) vs 0.
Proof. intros H. unfold place. destruct (dLeft D); [reflexivity|]. rewrite rev_nth by auto. f_equal. lia. Qed.

Lemma classical_all ncl st : length (s_classical st) = ncl -> classical_read (seq 0 ncl) st = s_classical st.
Proof.
  intros <-. unfold classical_read. apply nth_ext with (d := 0%R) (d' := 0%R); [now rewrite map_length, seq_length|].
  intros i Hi. rewrite map_length, seq_length in Hi.
  rewrite (nth_indep _ 0%R (nth 0 (s_classical st) 0%R)) by (rewrite map_length, seq_length; auto).
  rewrite (map_nth (fun c => nth c (s_classical st) 0%R)). now rewrite seq_nth.
Qed.

Definition correlation_value (a b : nat) (l : ident) (sts : list state) : R :=
  ((agree_weight a b l sts - differ_weight a b l sts) / label_weight l sts)%R.

Lemma correlations_general rnd ord cs combis inits :
  listing ord -> 1 <= dL (co_D cs) -> (dLeft (co_D cs) = true \/ dL (co_D cs) <= 10) -> ordinary (co_items cs) ->
  Forall (fun it => counts (co_D cs) (co_ncl cs) (seq 0 (co_ncl cs)) (snd it)) (co_items cs) ->
  Forall (fun ab => fst ab < co_ncl cs /\ snd ab < co_ncl cs) combis ->
  (forall it, In it (co_items cs) -> label_weight (s_init (snd it)) (map snd (co_items cs)) <> 0%R) ->
  exists d, plot_correlations rnd ord cs combis inits = Some d /\
    NoDup (map fst d) /\
    (forall l, In l (map fst d) <-> exists it, In it (co_items cs) /\ selected inits (snd it) /\ s_init (snd it) = l) /\
    forall l xs, In (l, xs) d -> xs = map (fun ab =>
      correlation_value (place (dLeft (co_D cs)) (co_ncl cs) (fst ab)) (place (dLeft (co_D cs)) (co_ncl cs) (snd ab)) l (map snd (co_items cs))) combis.
Proof.
  intros Hord HL Hleft Ho Hc Hcomb Hpos.
  destruct (C50_histogram rnd ord cs [] [] Hord HL Ho (Forall_nil _) Hc) as (h & Eh & H1 & H2 & H3).
  cbn [channels_used] in H3. set (sts := map snd (co_items cs)) in *. set (D := co_D cs) in *. set (n := co_ncl cs) in *.
  set (val := fun l (ab : nat * nat) => correlation_value (place (dLeft D) n (fst ab)) (place (dLeft D) n (snd ab)) l sts).
  assert (Hone : forall l es ab, In (l, es) h -> In ab combis -> correlation D ab es = Some (val l ab)).
  { intros l es [a b] Hin Hab. rewrite Forall_forall in Hcomb. destruct (Hcomb _ Hab) as [Ha Hb]. cbn [fst snd] in Ha, Hb.
    assert (Etot : Rsum es snd = label_weight l sts) by (eapply (C50_total rnd ord cs [] [] h l es); eauto).
    destruct (H3 l es Hin) as (vss & N & Hv & Ees).
    assert (Hsm : forall vs, In vs vss -> Forall (fun v => v < dL D) vs /\ length vs = n).
    { intros vs Hvs. apply Hv in Hvs. destruct Hvs as (it & Hit & _ & Hr). rewrite Forall_forall in Hc. pose proof (Hc it Hit) as Hci. split.
      - exact (reads_small D n _ _ _ Hci Hr).
      - unfold reads in Hr. apply values_eqb_spec in Hr. apply (f_equal (@length R)) in Hr. rewrite map_length in Hr. rewrite <- Hr.
        unfold classical_read. now rewrite map_length, seq_length. }
    unfold correlation. rewrite Ees.
    assert (Hseen : forall vs, In vs vss -> plot_values D (outcome_string D vs) = (if dLeft D then vs else rev vs) /\
                      length (if dLeft D then vs else rev vs) = n).
    { intros vs Hvs. destruct (Hsm vs Hvs) as [S1 S2]. split; [apply seen_values; auto|destruct (dLeft D); rewrite ?rev_length; auto]. }
    rewrite (correlation_fold D a b _ (outcome_string D) (fun vs => if dLeft D then vs else rev vs) n) by auto.
    assert (Et : Rsum vss (fun vs => reading_weight (seq 0 n) l vs sts) = label_weight l sts).
    { rewrite <- Etot, Ees. now rewrite Rsum_map. }
    rewrite !Rplus_0_l, Et.
    assert (Hl : label_weight l sts <> 0%R).
    { assert (Hli : In l (map fst h)) by exact (in_map fst _ _ Hin). apply H2 in Hli. destruct Hli as (it & Hit & _ & <-). now apply Hpos. }
    destruct (Req_EM_T (label_weight l sts) 0) as [X|_]; [contradiction|]. f_equal. unfold val, correlation_value. cbn [fst snd]. f_equal.
    set (pa := place (dLeft D) n a). set (pb := place (dLeft D) n b).
    transitivity (Rsum vss (fun vs => Rsum sts (fun st => if leqb (s_init st) l then if reads (seq 0%nat n) st vs then (if (nth pa vs 0 =? nth pb vs 0)%nat then s_cum st else - s_cum st) else 0 else 0))%R).
    { apply Rsum_ext. intros vs Hvs. destruct (Hsm vs Hvs) as [S1 S2]. rewrite !(nth_place D) by lia. rewrite S2. fold pa pb.
      unfold reading_weight. destruct (nth pa vs 0 =? nth pb vs 0); [reflexivity|].
      replace (- _)%R with (-1 * Rsum sts (fun st => if leqb (s_init st) l then if reads (seq 0%nat n) st vs then s_cum st else 0 else 0))%R by ring.
      rewrite <- Rsum_scal_l. apply Rsum_ext. intros st _. destruct (leqb _ l); [|ring]. destruct (reads _ st vs); ring. }
    rewrite Rsum_swap. unfold agree_weight, differ_weight.
    replace (_ - _)%R with (Rsum sts (fun st => (if leqb (s_init st) l then if agree pa pb st then s_cum st else 0 else 0)) + -1 * Rsum sts (fun st => if leqb (s_init st) l then if agree pa pb st then 0 else s_cum st else 0))%R by (unfold sts; ring).
    rewrite <- Rsum_scal_l, <- Rsum_plus. apply Rsum_ext. intros st Hst.
    destruct (leqb (s_init st) l) eqn:El; [|rewrite Rsum_zero by reflexivity; ring]. apply leqb_spec in El.
    apply in_map_iff in Hst. destruct Hst as (it & <- & Hit). rewrite Forall_forall in Hc. pose proof (Hc it Hit) as Hci.
    destruct (counts_reads D n _ _ Hci) as (vs & Hvsm & Hr).
    assert (Hvi : In vs vss) by (apply Hv; exists it; split; auto; split; [now left|auto]).
    rewrite (Rsum_single vss vs); auto.
    - rewrite Hr. unfold reads in Hr. apply values_eqb_spec in Hr. destruct Hci as [Hlen _]. rewrite classical_all in Hr by auto.
      unfold agree. rewrite Hr. destruct (Hsm vs Hvi) as [_ S2].
      assert (En : forall i, nth i (map INR vs) 0%R = INR (nth i vs 0)) by (intros i; change 0%R with (INR 0); apply map_nth).
      rewrite !En. destruct (Nat.eqb_spec (nth pa vs 0) (nth pb vs 0)) as [Eq|Neq].
      + rewrite Eq. destruct (Req_EM_T _ _); [ring|contradiction].
      + destruct (Req_EM_T _ _) as [X|_]; [apply INR_eq in X; contradiction|ring].
    - intros us Hus Hne. destruct (reads (seq 0 n) (snd it) us) eqn:Er; [|reflexivity]. exfalso. apply Hne.
      unfold reads in *. apply values_eqb_spec in Er, Hr. rewrite Er in Hr. now apply map_INR_inj in Hr. }
  assert (Ed : correlations rnd ord cs combis = Some (map (fun x => (fst x, map (val (fst x)) combis)) h)).
  { unfold correlations. rewrite Eh. fold D. clear Eh H1 H2 H3.
    induction h as [|[l es] h IH]; [reflexivity|]. cbn [map option_list fst snd].
    rewrite (option_list_all _ (val l)) by (intros ab Hab; apply (Hone l es); [now left|auto]). cbn [option_map].
    rewrite IH; [reflexivity|]. intros l' es' ab Hin. apply Hone. now right. }
  unfold plot_correlations. rewrite Ed. cbn [option_map]. eexists. split; [reflexivity|].
  set (d := map (fun x => (fst x, map (val (fst x)) combis)) h).
  assert (Ek : map fst d = map fst h) by (unfold d; rewrite map_map; reflexivity).
  assert (Hvals : forall l xs, In (l, xs) d -> xs = map (val l) combis).
  { intros l xs Hin. unfold d in Hin. apply in_map_iff in Hin. destruct Hin as (x & E & _). injection E as <- <-. reflexivity. }
  assert (Hsel0 : forall l, In l (map fst d) <-> exists it, In it (co_items cs) /\ s_init (snd it) = l).
  { intros l. rewrite Ek, H2. split; intros (it & Hit & Hx); exists it; split; auto; [tauto|]. split; [now left|auto]. }
  destruct inits as [|i0 inits].
  - cbn [length Nat.ltb Nat.leb]. split; [rewrite Ek; exact H1|]. split; [|exact Hvals].
    intros l. rewrite Hsel0. split; intros (it & Hit & Hx); exists it; split; auto; [|tauto]. split; [now left|auto].
  - change (0 <? length (i0 :: inits)) with true. cbv iota.
    assert (Hin : forall l xs, In (l, xs) (filter (fun x => existsb (leqb (fst x)) (i0 :: inits)) d) <-> In (l, xs) d /\ In l (i0 :: inits)).
    { intros l xs. rewrite filter_In. cbn [fst]. rewrite existsb_exists. split.
      - intros [A (y & Hy & E)]. apply leqb_spec in E. subst y. auto.
      - intros [A B]. split; auto. exists l. split; auto. now apply leqb_spec. }
    split; [|split].
    + apply filter_NoDup_map. rewrite Ek. exact H1.
    + intros l. split.
      * intros Hl. apply in_map_iff in Hl. destruct Hl as ([l' xs] & <- & Hl). apply Hin in Hl. destruct Hl as [A B].
        apply (in_map fst) in A. cbn [fst] in *. apply Hsel0 in A. destruct A as (it & Hit & E). exists it. split; auto. split; auto. right. now rewrite E.
      * intros (it & Hit & [X|Hsel] & E); [discriminate|].
        assert (A : In l (map fst d)) by (apply Hsel0; eauto). apply in_map_iff in A. destruct A as ([l' xs] & E' & A). cbn [fst] in E'. subst l'.
        apply in_map_iff. exists (l, xs). split; auto. apply Hin. split; auto. now rewrite <- E.
    + intros l xs Hl. apply Hin in Hl. apply Hvals, Hl.
Qed.

(** With channel 0 on the left: the correlation of channels a and b is the probability that they
    agree minus the probability that they differ, divided by the total weight of the label. *)
Theorem C51_correlations : forall rnd ord cs combis inits,
  listing ord -> 1 <= dL (co_D cs) -> dLeft (co_D cs) = true -> ordinary (co_items cs) ->
  Forall (fun it => counts (co_D cs) (co_ncl cs) (seq 0 (co_ncl cs)) (snd it)) (co_items cs) ->
  Forall (fun ab => fst ab < co_ncl cs /\ snd ab < co_ncl cs) combis ->
  (forall it, In it (co_items cs) -> label_weight (s_init (snd it)) (map snd (co_items cs)) <> 0%R) ->
  exists d, plot_correlations rnd ord cs combis inits = Some d /\
    NoDup (map fst d) /\
    (forall l, In l (map fst d) <-> exists it, In it (co_items cs) /\ selected inits (snd it) /\ s_init (snd it) = l) /\
    forall l xs, In (l, xs) d -> xs = map (fun ab =>
      ((agree_weight (fst ab) (snd ab) l (map snd (co_items cs)) - differ_weight (fst ab) (snd ab) l (map snd (co_items cs)))
         / label_weight l (map snd (co_items cs)))%R) combis.
Proof.
  intros rnd ord cs combis inits Hord HL Hleft Ho Hc Hcomb Hpos.
  destruct (correlations_general rnd ord cs combis inits Hord HL (or_introl Hleft) Ho Hc Hcomb Hpos) as (d & E & H1 & H2 & H3).
  exists d. split; [exact E|]. split; [exact H1|]. split; [exact H2|]. rewrite Hleft in H3. exact H3.
Qed.
(** The values are in [-1, 1]. 1 means that the two channels agree in every state with a positive
    weight, -1 that they differ in every such state. *)
Theorem C51_range : forall rnd ord cs combis inits d l xs,
  listing ord -> 1 <= dL (co_D cs) -> dLeft (co_D cs) = true -> ordinary (co_items cs) ->
  Forall (fun it => counts (co_D cs) (co_ncl cs) (seq 0 (co_ncl cs)) (snd it)) (co_items cs) ->
  Forall (fun ab => fst ab < co_ncl cs /\ snd ab < co_ncl cs) combis ->
  Forall (fun it => 0 <= s_cum (snd it))%R (co_items cs) ->
  (forall it, In it (co_items cs) -> label_weight (s_init (snd it)) (map snd (co_items cs)) <> 0%R) ->
  plot_correlations rnd ord cs combis inits = Some d -> In (l, xs) d ->
  Forall2 (fun ab x => (-1 <= x <= 1)%R /\
    (x = 1%R <-> forall it, In it (co_items cs) -> s_init (snd it) = l -> (0 < s_cum (snd it))%R ->
       nth (fst ab) (s_classical (snd it)) 0%R = nth (snd ab) (s_classical (snd it)) 0%R) /\
    (x = (-1)%R <-> forall it, In it (co_items cs) -> s_init (snd it) = l -> (0 < s_cum (snd it))%R ->
       nth (fst ab) (s_classical (snd it)) 0%R <> nth (snd ab) (s_classical (snd it)) 0%R)) combis xs.
Proof.
  intros rnd ord cs combis inits d l xs Hord HL Hleft Ho Hc Hcomb Hw Hpos Ed Hin.
  destruct (C51_correlations rnd ord cs combis inits Hord HL Hleft Ho Hc Hcomb Hpos) as (d' & E & H1 & H2 & H3).
  rewrite Ed in E. injection E as <-. rewrite (H3 l xs Hin). 
  assert (Hl : label_weight l (map snd (co_items cs)) <> 0%R).
  { assert (A : In l (map fst d)) by exact (in_map fst _ _ Hin). apply H2 in A. destruct A as (it & Hit & _ & <-). now apply Hpos. }
  set (sts := map snd (co_items cs)) in *.
  assert (Hs : forall st, In st sts -> (0 <= s_cum st)%R).
  { intros st Hst. unfold sts in Hst. apply in_map_iff in Hst. destruct Hst as (it & <- & Hit). rewrite Forall_forall in Hw. now apply Hw. }
  assert (Hit : forall P : state -> Prop, (forall st, In st sts -> P st) <-> forall it, In it (co_items cs) -> P (snd it)).
  { intros P. unfold sts. split; [intros H it Hi; apply H; now apply in_map|]. intros H st Hst. apply in_map_iff in Hst. destruct Hst as (it & <- & Hi). auto. }
  clear H1 H2 H3 Hin Ed. induction Hcomb as [|[a b] combis _ _ IH]; [constructor|]. cbn [map fst snd]. constructor; [|exact IH]. clear IH.
  assert (Esum : label_weight l sts = (agree_weight a b l sts + differ_weight a b l sts)%R).
  { unfold label_weight, agree_weight, differ_weight. rewrite <- Rsum_plus. apply Rsum_ext. intros st _.
    destruct (leqb _ l); [|ring]. destruct (agree a b st); ring. }
  assert (Pa : (0 <= agree_weight a b l sts)%R).
  { apply Rsum_nonneg. intros st Hst. destruct (leqb _ l); [|lra]. destruct (agree a b st); [now apply Hs|lra]. }
  assert (Pd : (0 <= differ_weight a b l sts)%R).
  { apply Rsum_nonneg. intros st Hst. destruct (leqb _ l); [|lra]. destruct (agree a b st); [lra|now apply Hs]. }
  assert (Zd : differ_weight a b l sts = 0%R <-> forall it, In it (co_items cs) -> s_init (snd it) = l -> (0 < s_cum (snd it))%R ->
       nth a (s_classical (snd it)) 0%R = nth b (s_classical (snd it)) 0%R).
  { rewrite <- (Hit (fun st => s_init st = l -> (0 < s_cum st)%R -> nth a (s_classical st) 0%R = nth b (s_classical st) 0%R)). split.
    - intros Z st Hst El Hp. destruct (Req_dec (nth a (s_classical st) 0%R) (nth b (s_classical st) 0%R)) as [|Hne]; auto. exfalso.
      pose proof (Rsum_le_term sts (fun st => if leqb (s_init st) l then if agree a b st then 0 else s_cum st else 0)%R st) as Hle.
      cbn beta in Hle. rewrite (proj2 (leqb_spec _ _) El) in Hle. unfold agree at 2 in Hle.
      destruct (Req_EM_T (nth a (s_classical st) 0%R) (nth b (s_classical st) 0%R)); [contradiction|].
      assert (s_cum st <= 0)%R; [|lra]. rewrite <- Z. unfold differ_weight. apply Hle; auto.
      intros y Hy. destruct (leqb _ l); [|lra]. destruct (agree a b y); [lra|now apply Hs].
    - intros H. unfold differ_weight. apply Rsum_zero. intros st Hst. destruct (leqb (s_init st) l) eqn:El; [|reflexivity]. apply leqb_spec in El.
      unfold agree. destruct (Req_EM_T _ _) as [|Hne]; [reflexivity|]. destruct (Rle_lt_or_eq_dec _ _ (Hs st Hst)) as [Hp|Hp]; [|auto].
      exfalso. apply Hne. now apply H. }
  assert (Za : agree_weight a b l sts = 0%R <-> forall it, In it (co_items cs) -> s_init (snd it) = l -> (0 < s_cum (snd it))%R ->
       nth a (s_classical (snd it)) 0%R <> nth b (s_classical (snd it)) 0%R).
  { rewrite <- (Hit (fun st => s_init st = l -> (0 < s_cum st)%R -> nth a (s_classical st) 0%R <> nth b (s_classical st) 0%R)). split.
    - intros Z st Hst El Hp Heq.
      pose proof (Rsum_le_term sts (fun st => if leqb (s_init st) l then if agree a b st then s_cum st else 0 else 0)%R st) as Hle.
      cbn beta in Hle. rewrite (proj2 (leqb_spec _ _) El) in Hle. unfold agree at 2 in Hle.
      destruct (Req_EM_T (nth a (s_classical st) 0%R) (nth b (s_classical st) 0%R)); [|contradiction].
      assert (s_cum st <= 0)%R; [|lra]. rewrite <- Z. unfold agree_weight. apply Hle; auto.
      intros y Hy. destruct (leqb _ l); [|lra]. destruct (agree a b y); [now apply Hs|lra].
    - intros H. unfold agree_weight. apply Rsum_zero. intros st Hst. destruct (leqb (s_init st) l) eqn:El; [|reflexivity]. apply leqb_spec in El.
      unfold agree. destruct (Req_EM_T _ _) as [Heq|]; [|reflexivity]. destruct (Rle_lt_or_eq_dec _ _ (Hs st Hst)) as [Hp|Hp]; [|auto].
      exfalso. now apply (H st Hst El Hp). }
  rewrite Esum in *. revert Pa Pd Hl Zd Za. generalize (agree_weight a b l sts) (differ_weight a b l sts). intros A B PA PB Hl Zd Za.
  assert (HAB : (0 < A + B)%R) by lra.
  assert (K : forall x, ((A - B) / (A + B) = x)%R <-> (A - B = x * (A + B))%R).
  { intros x. split; [intros <-; field; lra|]. intros E. rewrite E. field. lra. }
  split; [|split].
  - split; apply (Rmult_le_reg_r (A + B)); auto; unfold Rdiv; rewrite ?Rmult_assoc, ?Rinv_l by lra; lra.
  - rewrite <- Zd, K. split; intros; lra.
  - rewrite <- Za, K. split; intros; lra.
Qed.

(** With channel 0 on the right the channels are counted from the other end (photon numbers of
    one digit): the value for (a, b) is that of channels n-1-a and n-1-b. *)
Theorem C51_mirrored : forall rnd ord cs combis inits,
  listing ord -> 1 <= dL (co_D cs) <= 10 -> dLeft (co_D cs) = false -> ordinary (co_items cs) ->
  Forall (fun it => counts (co_D cs) (co_ncl cs) (seq 0 (co_ncl cs)) (snd it)) (co_items cs) ->
  Forall (fun ab => fst ab < co_ncl cs /\ snd ab < co_ncl cs) combis ->
  (forall it, In it (co_items cs) -> label_weight (s_init (snd it)) (map snd (co_items cs)) <> 0%R) ->
  exists d, plot_correlations rnd ord cs combis inits = Some d /\
    NoDup (map fst d) /\
    (forall l, In l (map fst d) <-> exists it, In it (co_items cs) /\ selected inits (snd it) /\ s_init (snd it) = l) /\
    forall l xs, In (l, xs) d -> xs = map (fun ab =>
      let a := co_ncl cs - 1 - fst ab in let b := co_ncl cs - 1 - snd ab in
      ((agree_weight a b l (map snd (co_items cs)) - differ_weight a b l (map snd (co_items cs)))
         / label_weight l (map snd (co_items cs)))%R) combis.
Proof.
  intros rnd ord cs combis inits Hord HL Hleft Ho Hc Hcomb Hpos.
  destruct (correlations_general rnd ord cs combis inits Hord (proj1 HL) (or_intror (proj2 HL)) Ho Hc Hcomb Hpos) as (d & E & H1 & H2 & H3).
  exists d. split; [exact E|]. split; [exact H1|]. split; [exact H2|]. rewrite Hleft in H3. exact H3.
Qed.

(** Hence the documented meaning fails: in this collection channels 0 and 1 always agree and the
    value for (0, 1) is -1. *)
Definition right_state : state := State [97] 1 [([0;0], (RtoC 1, 1%R))] [1%R; 1%R; 0%R] [] [].
Definition right_coll (left : bool) : coll := Coll (Dims 3 2 left) 3 0 [([1], right_state)].
Lemma right_facts left :
  ordinary (co_items (right_coll left)) /\
  Forall (fun it => counts (co_D (right_coll left)) (co_ncl (right_coll left)) (seq 0 (co_ncl (right_coll left))) (snd it)) (co_items (right_coll left)) /\
  label_weight [97] (map snd (co_items (right_coll left))) = 1%R /\
  agree_weight 0 1 [97] (map snd (co_items (right_coll left))) = 1%R /\
  differ_weight 0 1 [97] (map snd (co_items (right_coll left))) = 0%R /\
  agree_weight 2 1 [97] (map snd (co_items (right_coll left))) = 0%R /\
  differ_weight 2 1 [97] (map snd (co_items (right_coll left))) = 1%R.
Proof.
  split. { exists ([1], right_state). split; [now left|]. intros x []. }
  split. { constructor; [|constructor]. split; [reflexivity|]. exists [1;1;0]. split; [repeat constructor; cbn; lia|reflexivity]. }
  assert (A : agree 0 1 right_state = true) by (unfold agree; cbn; destruct (Req_EM_T 1 1); [reflexivity|contradiction]).
  assert (B : agree 2 1 right_state = false) by (unfold agree; cbn; destruct (Req_EM_T 0 1); [exfalso; lra|reflexivity]).
  unfold label_weight, agree_weight, differ_weight. cbn [right_coll co_items map snd]. rewrite !Rsum_cons, A, B.
  change (leqb (s_init right_state) [97]) with true. cbv iota. unfold Rsum. cbn. repeat split; ring.
Qed.
Theorem C51_right_refuted : exists rnd ord cs,
  listing ord /\ 1 <= dL (co_D cs) <= 10 /\ dLeft (co_D cs) = false /\ ordinary (co_items cs) /\
  Forall (fun it => counts (co_D cs) (co_ncl cs) (seq 0 (co_ncl cs)) (snd it)) (co_items cs) /\
  (forall it, In it (co_items cs) -> nth 0 (s_classical (snd it)) 0%R = nth 1 (s_classical (snd it)) 0%R) /\
  plot_correlations rnd ord cs [(0, 1)] [] = Some [([97], [(-1)%R])].
Proof.
  exists (fun _ => 0), (fun _ l => l), (right_coll false). destruct (right_facts false) as (F1 & F2 & F3 & F4 & F5 & F6 & F7).
  split; [intros i l; reflexivity|]. split; [cbn; lia|]. split; [reflexivity|]. split; [exact F1|]. split; [exact F2|].
  split. { intros it [<-|[]]. reflexivity. }
  destruct (C51_mirrored (fun _ => 0) (fun _ l => l) (right_coll false) [(0,1)] []) as (d & E & N & Hk & Hv); auto.
  { intros i l; reflexivity. } { cbn; lia. } { repeat constructor. } { intros it [<-|[]]. cbn [snd s_init right_state]. rewrite F3. lra. }
  rewrite E. f_equal. destruct d as [|[l xs] [|[l' xs'] r]].
  - exfalso. assert (H : In [97] (map fst (@nil (ident * list R)))) by (apply Hk; exists ([1], right_state); split; [now left|]; split; [now left|reflexivity]). destruct H.
  - assert (El : l = [97]). { assert (H : In l (map fst [(l, xs)])) by now left. apply Hk in H. destruct H as (it & [<-|[]] & _ & <-). reflexivity. }
    subst l. rewrite (Hv [97] xs) by now left. cbn [map fst snd]. change (co_ncl (right_coll false) - 1 - 0) with 2. change (co_ncl (right_coll false) - 1 - 1) with 1. cbv zeta.
    rewrite F3, F6, F7. do 3 f_equal. field.
  - exfalso. assert (El : forall k, In k (map fst ((l, xs) :: (l', xs') :: r)) -> k = [97]).
    { intros k H. apply Hk in H. destruct H as (it & [<-|[]] & _ & <-). reflexivity. }
    assert (l = [97]) by (apply El; now left). assert (l' = [97]) by (apply El; right; now left). subst.
    inversion N as [|? ? Hni _]; subst. apply Hni. now left.
Qed.
(** A case for C50_histogram, C51_correlations and C51_range. *)
Example C51_case : ordinary (co_items (right_coll true)) /\
  Forall (fun it => counts (co_D (right_coll true)) (co_ncl (right_coll true)) (seq 0 (co_ncl (right_coll true))) (snd it)) (co_items (right_coll true)) /\
  (forall it, In it (co_items (right_coll true)) -> label_weight (s_init (snd it)) (map snd (co_items (right_coll true))) <> 0%R) /\
  agree_weight 0 1 [97] (map snd (co_items (right_coll true))) = 1%R /\ differ_weight 2 1 [97] (map snd (co_items (right_coll true))) = 1%R.
Proof.
  destruct (right_facts true) as (F1 & F2 & F3 & F4 & F5 & F6 & F7). split; auto. split; auto. split; auto.
  intros it [<-|[]]. cbn [snd s_init right_state]. rewrite F3. lra.
Qed.
