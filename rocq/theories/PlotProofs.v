(** Proofs about histograms. *)
From Coq Require Import Reals ZArith List Arith Lia Lra Bool Permutation.
From Coquelicot Require Import Complex.
From Verif Require Import Prelude NamesModel NamesProofs FockModel StateModel StateProofs CollectionModel EvalModel ColumnModel PlotModel PlotSpec.
Import ListNotations.
Open Scope nat_scope.

(** ** Digits *)
Lemma truncate_INR n : truncate (INR n) = Z.of_nat n.
Proof.
  unfold truncate. destruct (Rle_dec 0 (INR n)) as [H|H]; [|exfalso; apply H; apply pos_INR].
  rewrite INR_IZR_INZ. apply Int_part_IZR || (unfold Int_part; rewrite <- (tech_up (IZR (Z.of_nat n)) (Z.of_nat n + 1)); [lia| |]; rewrite plus_IZR; lra).
Qed.
Lemma plot_digit_small D n : n < dL D -> plot_digit D (INR n) = n.
Proof. intros H. unfold plot_digit. rewrite truncate_INR, Z.mod_small by lia. rewrite Z.abs_eq by lia. apply Nat2Z.id. Qed.
Lemma plot_digit_bound D x : 1 <= dL D -> plot_digit D x < dL D.
Proof.
  intros H. unfold plot_digit. pose proof (Z.mod_pos_bound (truncate x) (Z.of_nat (dL D))).
  rewrite Z.abs_eq by lia. lia.
Qed.
Lemma plot_name_digits D xs : plot_name D xs = outcome_string D (map (plot_digit D) xs).
Proof. unfold plot_name, outcome_string. rewrite map_map. reflexivity. Qed.
Lemma plot_name_values D vs : Forall (fun v => v < dL D) vs -> plot_name D (map INR vs) = outcome_string D vs.
Proof.
  intros H. rewrite plot_name_digits, map_map. f_equal. rewrite <- (map_id vs) at 2. apply map_ext_in.
  intros v Hv. rewrite Forall_forall in H. apply plot_digit_small; auto.
Qed.
Lemma plot_values_left D vs : 1 <= dL D -> Forall (fun v => v < dL D) vs ->
  plot_values D (concat (map (pad (digits_per_channel D)) vs)) = vs.
Proof.
  intros HL H. pose proof (values_of_name_string (Dims (dL D) (dN D) true) vs H) as E.
  unfold values_of_name, name_string in E. cbn [dLeft dL] in E. exact E.
Qed.
Lemma outcome_string_inj D us vs : 1 <= dL D -> Forall (fun v => v < dL D) us -> Forall (fun v => v < dL D) vs ->
  outcome_string D us = outcome_string D vs -> us = vs.
Proof.
  intros HL Hu Hv E. rewrite <- (plot_values_left D us), <- (plot_values_left D vs); auto. f_equal.
  unfold outcome_string in E. destruct (dLeft D); auto.
  rewrite <- (rev_involutive (concat (map _ us))), E, rev_involutive. reflexivity.
Qed.

Lemma dget_key {V} l (v : V) (d : list (list nat * V)) : dget leqb l d = Some v -> In l (map fst d).
Proof. intros H. apply (dget_some_in leqb leqb_spec) in H. exact (in_map fst _ _ H). Qed.
Lemma nodup_app {A} (a b : list A) : NoDup a -> NoDup b -> (forall x, In x a -> ~ In x b) -> NoDup (a ++ b).
Proof.
  induction 1 as [|x r Hx Hr IH]; intros Hb Hd; [exact Hb|]. cbn [app]. constructor.
  - rewrite in_app_iff. intros [H|H]; [contradiction|]. apply (Hd x); [now left|auto].
  - apply IH; auto. intros y Hy. apply Hd. now right.
Qed.

(** ** The loop over the states *)
Lemma add_outcome_dset o p l : add_outcome o p l = dset leqb o (or_else (dget leqb o l) 0 + p)%R l \/ dget leqb o l = None.
Proof.
  induction l as [|[o' q] r IH]; [right; reflexivity|]. cbn [add_outcome dget dset].
  destruct (leqb o o') eqn:E; [left; reflexivity|]. destruct IH as [IH|IH]; [left; now rewrite IH|now right].
Qed.
Lemma add_outcome_same o p l : dget leqb o (add_outcome o p l) = Some (or_else (dget leqb o l) 0 + p)%R.
Proof.
  induction l as [|[o' q] r IH]; cbn [add_outcome dget or_else].
  - rewrite (proj2 (leqb_spec o o) eq_refl). f_equal. ring.
  - destruct (leqb o o') eqn:E; cbn [dget]; rewrite E; [reflexivity|exact IH].
Qed.
Lemma add_outcome_other o o2 p l : o2 <> o -> dget leqb o2 (add_outcome o p l) = dget leqb o2 l.
Proof.
  intros H. induction l as [|[o' q] r IH]; cbn [add_outcome dget].
  - destruct (leqb o2 o) eqn:E; [apply leqb_spec in E; contradiction|reflexivity].
  - destruct (leqb o o') eqn:E; cbn [dget].
    + apply leqb_spec in E. subst. destruct (leqb o2 o') eqn:E2; [apply leqb_spec in E2; contradiction|reflexivity].
    + destruct (leqb o2 o'); auto.
Qed.
Lemma add_outcome_keys o p l : map fst (add_outcome o p l) = map fst l ++ (if existsb (leqb o) (map fst l) then [] else [o]).
Proof.
  induction l as [|[o' q] r IH]; [reflexivity|]. cbn [add_outcome map fst existsb].
  destruct (leqb o o') eqn:E; cbn [map fst app orb]; [now rewrite app_nil_r|now rewrite IH].
Qed.
Lemma add_outcome_in o p l x : In x (map fst (add_outcome o p l)) <-> In x (map fst l) \/ x = o.
Proof.
  rewrite add_outcome_keys, in_app_iff. destruct (existsb (leqb o) (map fst l)) eqn:E; cbn; [|intuition].
  apply existsb_exists in E. destruct E as (y & Hy & E). apply leqb_spec in E. subst y. intuition. subst. auto.
Qed.
Lemma add_outcome_nodup o p l : NoDup (map fst l) -> NoDup (map fst (add_outcome o p l)).
Proof.
  intros H. rewrite add_outcome_keys. destruct (existsb (leqb o) (map fst l)) eqn:E; [now rewrite app_nil_r|].
  apply Permutation_NoDup with (o :: map fst l); [apply Permutation_cons_append|]. constructor; auto.
  intros Hi. assert (existsb (leqb o) (map fst l) = true) by (apply existsb_exists; exists o; split; [auto|now apply leqb_spec]). congruence.
Qed.

Section Histogram.
  Variables (D : dims) (chs : list nat) (inits : list ident).
  Definition named (st : state) : name := plot_name D (classical_read chs st).
  Definition W (l : ident) (o : name) (sts : list state) : R :=
    Rsum sts (fun st => if leqb (s_init st) l then if leqb (named st) o then s_cum st else 0 else 0)%R.
  Definition inv (sts : list state) (h : histogram) : Prop :=
    NoDup (map fst h) /\
    (forall l, In l (map fst h) <-> exists st, In st sts /\ selected inits st /\ s_init st = l) /\
    (forall l es, dget leqb l h = Some es -> NoDup (map fst es) /\
       (forall o, In o (map fst es) <-> exists st, In st sts /\ s_init st = l /\ named st = o) /\
       (forall o p, dget leqb o es = Some p -> p = W l o sts)).
  Lemma skip_iff st : ((0 <? length inits) && negb (existsb (leqb (s_init st)) inits)) = false <-> selected inits st.
  Proof.
    unfold selected. destruct inits as [|i0 r]; [cbn; intuition|].
    change (0 <? length (i0 :: r)) with true. cbn [andb]. rewrite negb_false_iff, existsb_exists. split.
    - intros (x & Hx & E). apply leqb_spec in E. subst. auto.
    - intros [H|H]; [discriminate|]. eexists. split; [exact H|now apply leqb_spec].
  Qed.
  Lemma W_app l o a b : W l o (a ++ b) = (W l o a + W l o b)%R.
  Proof. unfold W. apply Rsum_app. Qed.
  Lemma W_other l o sts : (forall st, In st sts -> s_init st = l -> named st = o -> False) -> W l o sts = 0%R.
  Proof.
    intros H. unfold W. induction sts as [|st r IH]; [reflexivity|]. rewrite Rsum_cons, IH by (intros; eapply H; eauto; now right).
    destruct (leqb (s_init st) l) eqn:E1; [|ring]. destruct (leqb (named st) o) eqn:E2; [|ring].
    apply leqb_spec in E1, E2. exfalso. eapply H; eauto. now left.
  Qed.
  Lemma read_ok st : Forall (fun c => c < length (s_classical st)) chs ->
    option_list (map (nth_error (s_classical st)) chs) = Some (classical_read chs st).
  Proof.
    unfold classical_read. induction 1 as [|c r Hc Hr IH]; [reflexivity|]. cbn [map option_list].
    rewrite (nth_error_nth' _ 0%R Hc), IH. reflexivity.
  Qed.
  Lemma histo_fold sts : (forall st, In st sts -> selected inits st -> Forall (fun c => c < length (s_classical st)) chs) ->
    exists h, fold_left (histo_step D chs inits) sts (Some []) = Some h /\ inv sts h.
  Proof.
    induction sts as [|st sts IH] using rev_ind; intros Hin.
    - exists []. split; [reflexivity|]. split; [constructor|]. split; [|discriminate].
      intros l. split; [intros []|]. intros (st & [] & _).
    - destruct IH as (h & Eh & I1 & I2 & I3). { intros s Hs. apply Hin. apply in_or_app. auto. }
      rewrite fold_left_app, Eh. cbn [fold_left histo_step].
      destruct ((0 <? length inits) && negb (existsb (leqb (s_init st)) inits)) eqn:Es.
      + assert (Hns : ~ selected inits st) by (rewrite <- skip_iff; congruence).
        exists h. split; [reflexivity|]. split; [auto|]. split.
        * intros l. rewrite I2. split; intros (s & Hs & Hsel & El).
          -- exists s. split; [apply in_or_app; auto|auto].
          -- apply in_app_iff in Hs. destruct Hs as [Hs|[<-|[]]]; [exists s; auto|contradiction].
        * intros l es Hg. destruct (I3 l es Hg) as (J1 & J2 & J3).
          assert (Hl : s_init st <> l).
          { intros E. apply (dget_some_in leqb leqb_spec) in Hg. apply (in_map fst) in Hg. cbn [fst] in Hg.
            apply I2 in Hg. destruct Hg as (s & _ & Hsel & E2). apply Hns. unfold selected in *. rewrite E, <- E2. exact Hsel. }
          split; [auto|]. split.
          -- intros o. rewrite J2. split; intros (s & Hs & Hx).
             ++ exists s. split; [apply in_or_app; auto|auto].
             ++ apply in_app_iff in Hs. destruct Hs as [Hs|[<-|[]]]; [exists s; auto|]. destruct Hx; contradiction.
          -- intros o p Hp. rewrite W_app, <- (J3 o p Hp). unfold W. rewrite Rsum_cons.
             destruct (leqb (s_init st) l) eqn:E; [apply leqb_spec in E; contradiction|]. cbn. ring.
      + apply skip_iff in Es. rewrite read_ok by (apply Hin; auto; apply in_or_app; right; now left).
        eexists. split; [reflexivity|]. set (l0 := s_init st). set (es0 := or_else (dget leqb l0 h) []).
        fold (named st).
        assert (Hes0 : NoDup (map fst es0) /\
           (forall o, In o (map fst es0) <-> exists s, In s sts /\ s_init s = l0 /\ named s = o) /\
           (forall o p, dget leqb o es0 = Some p -> p = W l0 o sts)).
        { unfold es0. destruct (dget leqb l0 h) as [es|] eqn:Eg; [cbn [or_else]; apply I3; auto|]. cbn [or_else].
          split; [constructor|]. split; [|discriminate]. intros o. split; [intros []|]. intros (s & Hs & El & _).
          apply (dget_none_iff leqb leqb_spec) in Eg. apply Eg, I2. exists s. split; auto. split; auto.
          unfold selected in *. rewrite El. exact Es. }
        destruct Hes0 as (K1 & K2 & K3).
        split; [apply (dset_NoDup leqb leqb_spec); exact I1|]. split.
        * intros l. change (map fst (dset leqb l0 (add_outcome (named st) (s_cum st) es0) h)) with (dkeys (dset leqb l0 (add_outcome (named st) (s_cum st) es0) h)).
          split.
          -- intros Hl. destruct (leqb l l0) eqn:E; [apply leqb_spec in E|].
             ++ exists st. split; [apply in_or_app; right; now left|]. split; auto.
             ++ assert (l <> l0) by (intros ->; rewrite (proj2 (leqb_spec l0 l0) eq_refl) in E; discriminate).
                assert (Hl' : In l (map fst h)).
                { destruct (dget leqb l h) eqn:Eg; [apply (dget_some_in leqb leqb_spec) in Eg; apply (in_map fst) in Eg; exact Eg|].
                  exfalso. rewrite <- (dget_dset_other leqb leqb_spec l0 l (add_outcome (named st) (s_cum st) es0) h) in Eg by auto.
                  apply (dget_none_iff leqb leqb_spec) in Eg. contradiction. }
                apply I2 in Hl'. destruct Hl' as (s & Hs & Hx). exists s. split; [apply in_or_app; auto|auto].
          -- intros (s & Hs & Hsel & El). destruct (leqb l l0) eqn:E.
             ++ apply leqb_spec in E. subst l. rewrite E. eapply dget_key. apply (dget_dset_same leqb leqb_spec).
             ++ assert (Hne : l <> l0) by (intros ->; rewrite (proj2 (leqb_spec l0 l0) eq_refl) in E; discriminate).
                apply in_app_iff in Hs. destruct Hs as [Hs|[<-|[]]]; [|contradiction (Hne (eq_sym El))].
                assert (Hl : In l (map fst h)) by (apply I2; eauto).
                destruct (dget leqb l h) eqn:Eg; [|apply (dget_none_iff leqb leqb_spec) in Eg; contradiction].
                rewrite <- (dget_dset_other leqb leqb_spec l0 l (add_outcome (named st) (s_cum st) es0) h) in Eg by auto.
                apply (dget_some_in leqb leqb_spec) in Eg. apply (in_map fst) in Eg. exact Eg.
        * intros l es Hg. destruct (leqb l l0) eqn:E.
          -- apply leqb_spec in E. subst l. rewrite (dget_dset_same leqb leqb_spec) in Hg. injection Hg as <-.
             split; [apply add_outcome_nodup; auto|]. split.
             ++ intros o. rewrite add_outcome_in, K2. split.
                ** intros [(s & Hs & Hx)| ->]; [exists s; split; [apply in_or_app; auto|auto]|].
                   exists st. split; [apply in_or_app; right; now left|auto].
                ** intros (s & Hs & Hx). apply in_app_iff in Hs. destruct Hs as [Hs|[<-|[]]]; [left; eauto|right; symmetry; apply Hx].
             ++ intros o p Hp. rewrite W_app. replace (W l0 o [st]) with (if leqb (named st) o then s_cum st else 0)%R.
                2:{ unfold W. rewrite Rsum_cons. fold l0. rewrite (proj2 (leqb_spec l0 l0) eq_refl). cbn. ring. }
                destruct (leqb (named st) o) eqn:Eo.
                ** apply leqb_spec in Eo. subst o. rewrite add_outcome_same in Hp. injection Hp as <-.
                   destruct (dget leqb (named st) es0) as [q|] eqn:Eq; cbn [or_else]; [now rewrite (K3 _ _ Eq)|].
                   rewrite W_other; [ring|]. intros s Hs E1 E2. apply (dget_none_iff leqb leqb_spec) in Eq.
                   apply Eq, K2. eauto.
                ** rewrite add_outcome_other in Hp by (intros ->; rewrite (proj2 (leqb_spec _ _) eq_refl) in Eo; discriminate).
                   rewrite (K3 _ _ Hp). ring.
          -- assert (Hne : l <> l0) by (intros ->; rewrite (proj2 (leqb_spec l0 l0) eq_refl) in E; discriminate).
             rewrite (dget_dset_other leqb leqb_spec) in Hg by auto. destruct (I3 l es Hg) as (J1 & J2 & J3).
             split; auto. split.
             ++ intros o. rewrite J2. split; intros (s & Hs & Hx).
                ** exists s. split; [apply in_or_app; auto|auto].
                ** apply in_app_iff in Hs. destruct Hs as [Hs|[<-|[]]]; [exists s; auto|]. destruct Hx as [Hx _]. contradiction (Hne (eq_sym Hx)).
             ++ intros o p Hp. rewrite W_app, <- (J3 o p Hp). unfold W. rewrite Rsum_cons. fold l0.
                destruct (leqb l0 l) eqn:E2; [apply leqb_spec in E2; contradiction (Hne (eq_sym E2))|]. cbn. ring.
  Qed.
End Histogram.

Lemma output_fold l : forall acc, NoDup acc ->
  NoDup (fold_left (fun acc o => if existsb (leqb o) acc then acc else acc ++ [o]) l acc) /\
  forall x, In x (fold_left (fun acc o => if existsb (leqb o) acc then acc else acc ++ [o]) l acc) <-> In x acc \/ In x l.
Proof.
  induction l as [|o l IH]; intros acc ND; cbn [fold_left]; [split; [auto|intros; cbn; tauto]|].
  destruct (existsb (leqb o) acc) eqn:E.
  - destruct (IH acc ND) as [A B]. split; auto. intros x. rewrite B. cbn [In].
    apply existsb_exists in E. destruct E as (y & Hy & E). apply leqb_spec in E. subst y. intuition. subst. auto.
  - assert (Hn : ~ In o acc).
    { intros H. assert (existsb (leqb o) acc = true) by (apply existsb_exists; exists o; split; [auto|now apply leqb_spec]). congruence. }
    destruct (IH (acc ++ [o])) as [A B].
    { apply Permutation_NoDup with (o :: acc); [apply Permutation_cons_append|constructor; auto]. }
    split; auto. intros x. rewrite B, in_app_iff. cbn [In]. intuition.
Qed.
Lemma output_nodup h : NoDup (output_states h).
Proof. apply output_fold. constructor. Qed.
Lemma output_in h o : In o (output_states h) <-> exists l es, In (l, es) h /\ In o (map fst es).
Proof.
  unfold output_states. rewrite (proj2 (output_fold _ [] (NoDup_nil _))). rewrite in_flat_map. cbn [In]. split.
  - intros [[]|([l es] & H1 & H2)]. eauto.
  - intros (l & es & H1 & H2). right. exists (l, es). auto.
Qed.

Lemma histogram_of_spec ord D chs inits sts : listing ord ->
  (forall st, In st sts -> selected inits st -> Forall (fun c => c < length (s_classical st)) chs) ->
  exists h, histogram_of ord D chs inits sts = Some h /\
    NoDup (map fst h) /\
    (forall l, In l (map fst h) <-> exists st, In st sts /\ selected inits st /\ s_init st = l) /\
    (forall l es, In (l, es) h -> NoDup (map fst es) /\
       (forall o, In o (map fst es) <-> exists st, In st sts /\ selected inits st /\ named D chs st = o) /\
       (forall o p, In (o, p) es -> p = W D chs l o sts)).
Proof.
  intros Hord Hch. destruct (histo_fold D chs inits sts Hch) as (h & Eh & I1 & I2 & I3).
  unfold histogram_of. rewrite Eh. cbn [option_map]. eexists. split; [reflexivity|].
  assert (Ek : map fst (fill_zeros ord h) = map fst h) by (unfold fill_zeros; rewrite map_map; reflexivity).
  rewrite Ek. split; [exact I1|]. split; [exact I2|].
  intros l es Hin. unfold fill_zeros in Hin. apply in_map_iff in Hin. destruct Hin as ([l' es0] & E & Hin). cbn [fst snd] in E.
  injection E as -> <-.
  pose proof (dget_in leqb leqb_spec l es0 h I1 Hin) as Hg. destruct (I3 l es0 Hg) as (J1 & J2 & J3).
  set (miss := filter (fun o => negb (existsb (leqb o) (map fst es0))) (output_states h)) in *.
  pose proof (Hord l miss) as HP.
  assert (Hmiss : forall o, In o miss <-> In o (output_states h) /\ ~ In o (map fst es0)).
  { intros o. unfold miss. rewrite filter_In, negb_true_iff. split; intros [A B]; (split; [auto|]).
    - intros Hi. assert (existsb (leqb o) (map fst es0) = true) by (apply existsb_exists; exists o; split; [auto|now apply leqb_spec]). congruence.
    - destruct (existsb (leqb o) (map fst es0)) eqn:E; auto. apply existsb_exists in E. destruct E as (y & Hy & E). apply leqb_spec in E. now subst. }
  assert (Em : map fst (map (fun o : name => (o, 0%R)) (ord l miss)) = ord l miss) by (rewrite map_map; apply map_id).
  rewrite map_app. replace (map fst (map _ (ord l miss))) with (ord l miss) by (symmetry; exact Em). split; [|split].
  - apply Permutation_NoDup with (map fst es0 ++ miss); [apply Permutation_app_head; now symmetry|].
    apply nodup_app; [auto|apply NoDup_filter, output_nodup|]. intros x Hx Hm. apply Hmiss in Hm. tauto.
  - intros o. rewrite in_app_iff. rewrite (Permutation_in' eq_refl HP), Hmiss, output_in. split.
    + intros [Ho|[(l2 & es2 & Hl2 & Ho) _]].
      * apply J2 in Ho. destruct Ho as (st & Hs & El & En). exists st. split; auto. split; auto.
        apply (in_map fst) in Hin. cbn [fst] in Hin. apply I2 in Hin. destruct Hin as (s2 & _ & Hsel & E2).
        unfold selected in *. rewrite El, <- E2. exact Hsel.
      * destruct (I3 l2 es2 (dget_in leqb leqb_spec _ _ _ I1 Hl2)) as (_ & K2 & _). apply K2 in Ho.
        destruct Ho as (st & Hs & El & En). exists st. split; auto. split; auto.
        apply (in_map fst) in Hl2. cbn [fst] in Hl2. apply I2 in Hl2. destruct Hl2 as (s2 & _ & Hsel & E2).
        unfold selected in *. rewrite El, <- E2. exact Hsel.
    + intros (st & Hs & Hsel & En). destruct (in_dec (list_eq_dec Nat.eq_dec) o (map fst es0)) as [Hi|Hi]; [auto|]. right. split; auto.
      assert (Hl : In (s_init st) (map fst h)) by (apply I2; eauto).
      apply in_map_iff in Hl. destruct Hl as ([l2 es2] & El & Hl2). cbn [fst] in El. exists l2, es2. split; auto.
      apply (I3 l2 es2 (dget_in leqb leqb_spec _ _ _ I1 Hl2)). exists st. auto.
  - intros o p Hp. apply in_app_iff in Hp. destruct Hp as [Hp|Hp].
    + apply J3. apply (dget_in leqb leqb_spec); auto.
    + apply in_map_iff in Hp. destruct Hp as (o' & E & Ho). injection E as -> <-.
      apply (Permutation_in _ HP) in Ho. apply Hmiss in Ho. destruct Ho as [_ Ho].
      symmetry. apply W_other. intros st Hs El En. apply Ho, J2. eauto.
Qed.
