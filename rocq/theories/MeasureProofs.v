From Coq Require Import Reals List Arith Lia Lra Bool Permutation.
From Coquelicot Require Import Complex.
From Verif Require Import Prelude NamesModel NamesSpec NamesProofs FockModel FockSpec FockProofs GateProofs
  OpticalModel StateModel StateSpec StateProofs ApplyProofs CollectionModel EvalModel EvalSpec EvalProofs MeasureSpec.
Import ListNotations.

(** ** Markers and identifiers *)
Fixpoint marker_value (l : list nat) : nat := match l with [] => 0 | n :: r => S n + 26 * marker_value r end.

Lemma marker_step_value l : Forall (fun n => n <= 25) l ->
  marker_value (marker_step l) = S (marker_value l) /\ Forall (fun n => n <= 25) (marker_step l).
Proof.
  induction l as [|n r IH]; intros H; cbn [marker_step].
  - split; [reflexivity|]. constructor; [lia|constructor].
  - inversion H; subst. destruct (Nat.eqb_spec n 25) as [->|Hn].
    + destruct (IH H3) as [E F]. split; [cbn [marker_value]; rewrite E; lia|]. constructor; [lia|auto].
    + split; [cbn [marker_value]; lia|]. constructor; [lia|auto].
Qed.

Lemma marker_iter j : marker_value (Nat.iter j marker_step [0]) = S j /\ Forall (fun n => n <= 25) (Nat.iter j marker_step [0]).
Proof.
  induction j as [|j [IH1 IH2]]; cbn [Nat.iter nat_rect].
  - split; [reflexivity|]. constructor; [lia|constructor].
  - change (nat_rect _ [0] (fun _ => marker_step) j) with (Nat.iter j marker_step [0]).
    destruct (marker_step_value _ IH2) as [E F]. split; [|auto]. rewrite E. lia.
Qed.

Lemma map_add_inj a (l l' : list nat) : map (fun n => a + n) l = map (fun n => a + n) l' -> l = l'.
Proof.
  revert l'; induction l as [|x l IH]; intros [|y l'] E; try discriminate; auto.
  cbn [map] in E. injection E as E1 E2. f_equal; [lia|auto].
Qed.

Lemma marker_inj i j : marker i = marker j -> i = j.
Proof.
  intros E. apply map_add_inj in E. apply (f_equal marker_value) in E.
  rewrite !(proj1 (marker_iter _)) in E. lia.
Qed.

Lemma marker_letters j x : In x (marker j) -> 97 <= x.
Proof. unfold marker. intros H. apply in_map_iff in H. destruct H as (n & <- & _). lia. Qed.

(** Splitting off the letters at the end of an identifier. *)
Lemma suffix_split (p p' s s' : list nat) d d' :
  d < 97 -> d' < 97 -> (forall x, In x s -> 97 <= x) -> (forall x, In x s' -> 97 <= x) ->
  p ++ [d] ++ s = p' ++ [d'] ++ s' -> p ++ [d] = p' ++ [d'] /\ s = s'.
Proof.
  intros Hd Hd'. revert s'. induction s as [|x s IH] using rev_ind; intros s' Hs Hs' E.
  - destruct s' as [|y s' _] using rev_ind; [cbn [app] in *; auto|].
    exfalso. rewrite app_nil_r in E. rewrite !app_assoc in E. apply app_inj_tail in E. destruct E as [_ ->].
    assert (97 <= y) by (apply Hs'; apply in_or_app; right; now left). lia.
  - destruct s' as [|y s' _] using rev_ind.
    + exfalso. rewrite app_nil_r in E. rewrite !app_assoc in E. apply app_inj_tail in E. destruct E as [_ <-].
      assert (97 <= x) by (apply Hs; apply in_or_app; right; now left). lia.
    + rewrite !app_assoc in E. apply app_inj_tail in E. destruct E as [E ->].
      rewrite <- !app_assoc in E. destruct (IH s') as [E1 E2]; auto.
      * intros z Hz. apply Hs. apply in_or_app. now left.
      * intros z Hz. apply Hs'. apply in_or_app. now left.
      * split; auto. now rewrite E2.
Qed.

Lemma measured_identifier_inj num i j i' j' :
  num <> [] -> (forall x, In x num -> x < 97) ->
  measured_identifier i num j = measured_identifier i' num j' -> i = i' /\ j = j'.
Proof.
  intros Hne Hnum E. destruct (@exists_last _ num Hne) as (q & d & ->).
  assert (Hd : d < 97) by (apply Hnum; apply in_or_app; right; now left).
  unfold measured_identifier in E.
  assert (E' : (i ++ [45; 77] ++ q) ++ [d] ++ marker j = (i' ++ [45; 77] ++ q) ++ [d] ++ marker j').
  { rewrite <- !app_assoc in *. exact E. }
  apply suffix_split in E'; auto; try (intros; eapply marker_letters; eauto).
  destruct E' as [E1 E2]. split; [|now apply marker_inj].
  apply app_inv_tail in E1. now apply app_inv_tail in E1.
Qed.

Lemma measurement_number_ok nodes k :
  measurement_number nodes k <> [] /\ forall x, In x (measurement_number nodes k) -> x < 97.
Proof.
  unfold measurement_number. set (w := ndigits _). pose proof (ndigits_pos (count_measure nodes)) as Hw. fold w in Hw. split.
  - intros E. apply (f_equal (@length nat)) in E. rewrite map_length, pad_length in E. cbn in E. lia.
  - intros x Hx. apply in_map_iff in Hx. destruct Hx as (n & <- & Hn). unfold pad in Hn.
    apply in_map_iff in Hn. destruct Hn as (m & <- & _).
    pose proof (Nat.mod_upper_bound (count_measure (firstn (S k) nodes) / 10 ^ (w - 1 - m)) 10). lia.
Qed.

(** ** One measurement *)
Definition val_amp (D : dims) (st : state) : list (values * C) :=
  map (fun c => (values_of_name D (fst c), fst (snd c))) (s_comps st).

Lemma readout_outcome opt vs : outcome_of opt vs = readout opt vs.
Proof. reflexivity. Qed.

Lemma wf_comp_values D st c :
  1 <= dL D -> wf_state D st -> In c (s_comps st) ->
  valid D (values_of_name D (fst c)) /\ name_string D (values_of_name D (fst c)) = fst c.
Proof.
  intros HL [_ Hn] Hc. destruct (Hn (fst c)) as (vs & Hv & E); [now apply in_map|].
  rewrite E. assert (Ev : values_of_name D (name_string D vs) = vs) by (apply values_of_name_string; auto; apply Hv).
  rewrite Ev. auto.
Qed.

(** The members of an outcome, as components. *)
Definition members (D : dims) (opt o : list nat) (st : state) : list (name * (C * R)) :=
  filter (fun c => leqb o (readout opt (values_of_name D (fst c)))) (s_comps st).

Lemma val_amp_filter D opt o st :
  filter (fun m => leqb o (outcome_of opt (fst m))) (val_amp D st)
  = map (fun c => (values_of_name D (fst c), fst (snd c))) (members D opt o st).
Proof.
  unfold val_amp, members. induction (s_comps st) as [|c cs IH]; [reflexivity|].
  cbn [map filter fst]. change (outcome_of opt (values_of_name D (fst c))) with (readout opt (values_of_name D (fst c))).
  destruct (leqb o _); cbn [map]; now rewrite IH.
Qed.

Lemma leqb_sym a b : leqb a b = leqb b a.
Proof.
  destruct (leqb a b) eqn:E, (leqb b a) eqn:E'; auto.
  - apply leqb_spec in E. subst. rewrite (proj2 (leqb_spec b b) eq_refl) in E'. discriminate.
  - apply leqb_spec in E'. subst. rewrite (proj2 (leqb_spec a a) eq_refl) in E. discriminate.
Qed.

Lemma outcome_prob_members D st opt o :
  Rsum (map (fun c => (values_of_name D (fst c), fst (snd c))) (members D opt o st)) (fun m => Cnorm2 (snd m))
  = outcome_prob D st opt o.
Proof.
  rewrite Rsum_map. unfold members, outcome_prob. rewrite Rsum_filter. apply Rsum_ext. intros c _. cbn [snd].
  now rewrite leqb_sym.
Qed.

(** The components after collapse. *)
Definition collapsed_comps (D : dims) (opt o : list nat) (st : state) : list (name * (C * R)) :=
  map (fun c => let a := (fst (snd c) / RtoC (sqrt (outcome_prob D st opt o)))%C in (fst c, (a, Cnorm2 a)))
      (members D opt o st).

Lemma filter_NoDup_map {A B} (f : A -> B) p l : NoDup (map f l) -> NoDup (map f (filter p l)).
Proof.
  induction l as [|x l IH]; intros H; [constructor|]. cbn [map filter] in *. inversion H; subst.
  destruct (p x); [|auto]. cbn [map]. constructor; auto. intros Hin. apply H2.
  apply in_map_iff in Hin. destruct Hin as (y & <- & Hy). apply filter_In in Hy. now apply in_map.
Qed.

Lemma collapsed_dict D opt o st :
  1 <= dL D -> wf_state D st ->
  dict_of leqb (map (fun m : values * C =>
                      let a := (snd m / RtoC (sqrt (outcome_prob D st opt o)))%C in
                      (name_string D (fst m), (a, Cnorm2 a)))
                  (map (fun c => (values_of_name D (fst c), fst (snd c))) (members D opt o st)))
  = collapsed_comps D opt o st.
Proof.
  intros HL Hw. rewrite map_map. cbn [fst snd].
  assert (E : map (fun x : name * (C * R) =>
      (name_string D (values_of_name D (fst x)),
       ((fst (snd x) / RtoC (sqrt (outcome_prob D st opt o)))%C, Cnorm2 (fst (snd x) / RtoC (sqrt (outcome_prob D st opt o)))%C))) (members D opt o st)
      = collapsed_comps D opt o st).
  { unfold collapsed_comps. apply map_ext_in. intros c Hc. cbv zeta. f_equal.
    apply filter_In in Hc. eapply wf_comp_values; eauto. tauto. }
  cbv zeta. rewrite E. apply (dict_of_nodup leqb leqb_spec).
  unfold collapsed_comps. rewrite map_map. cbn [fst]. unfold members. apply filter_NoDup_map. apply Hw.
Qed.

(** The classical write. *)
Lemma write_classical_length cl o old : length (write_classical cl o old) = length old.
Proof.
  unfold write_classical. revert old. generalize (combine cl o). induction l as [|x l IH]; intros old; [reflexivity|].
  cbn [fold_left]. rewrite IH. apply set_nth_length.
Qed.

Lemma nth_set_nth_R (l : list R) i x k :
  nth k (set_nth l i x) 0%R = if (k =? i) && (k <? length l) then x else nth k l 0%R.
Proof.
  revert i k. induction l as [|a l IH]; intros i k.
  - destruct i, k; cbn [set_nth nth length]; rewrite ?andb_false_r; try reflexivity.
  - destruct i as [|i], k as [|k]; cbn [set_nth nth length]; try reflexivity.
    rewrite IH. reflexivity.
Qed.

Lemma write_classical_written cl o old :
  NoDup cl -> (forall c, In c cl -> c < length old) -> written cl o old (write_classical cl o old).
Proof.
  intros ND Hr. split; [apply write_classical_length|].
  unfold write_classical.
  assert (G : forall cl o old, NoDup cl -> (forall c, In c cl -> c < length old) ->
     (forall i, i < length cl -> i < length o ->
        nth (nth i cl 0) (fold_left (fun acc cv => set_nth acc (fst cv) (INR (snd cv))) (combine cl o) old) 0%R = INR (nth i o 0)) /\
     (forall c, ~ In c cl -> nth c (fold_left (fun acc cv => set_nth acc (fst cv) (INR (snd cv))) (combine cl o) old) 0%R = nth c old 0%R)).
  { clear. induction cl as [|a cl IH]; intros o old ND Hr.
    - cbn [combine fold_left]. split; [cbn [length]; lia|auto].
    - inversion ND; subst. destruct o as [|x o].
      + cbn [combine fold_left]. split; [cbn [length]; lia|auto].
      + cbn [combine fold_left fst snd].
        destruct (IH o (set_nth old a (INR x))) as [A B]; auto.
        { intros c Hc. rewrite set_nth_length. apply Hr. now right. }
        split.
        * intros [|i] Hi Ho; cbn [nth length] in *.
          -- rewrite B by auto. rewrite nth_set_nth_R. rewrite Nat.eqb_refl.
             rewrite (proj2 (Nat.ltb_lt _ _)) by (apply Hr; now left). reflexivity.
          -- apply A; lia.
        * intros c Hc. rewrite B by (intros H; apply Hc; now right). rewrite nth_set_nth_R.
          destruct (Nat.eqb_spec c a); [subst; exfalso; apply Hc; now left|reflexivity]. }
  apply G; auto.
Qed.

(** What one outcome does. *)
Definition collapse (D : dims) (opt cl o : list nat) (st : state) (p : R) : state :=
  let classical := write_classical cl o (s_classical st) in
  State (s_init st) p (collapsed_comps D opt o st) classical
        (s_results st ++ [(classical, outcome_prob D st opt o)]) (s_aux st).

Lemma round3_near x : (Rabs (round3 x - x) <= 1 / 2000)%R.
Proof.
  unfold round3. destruct (archimed (x * 1000)) as [A B]. set (n := (up (x * 1000) - 1)%Z).
  assert (En : IZR n = (IZR (up (x * 1000)) - 1)%R) by (unfold n; apply minus_IZR).
  assert (Hx : (IZR n <= x * 1000 < IZR n + 1)%R) by lra. clearbody n. clear A B En.
  destruct (Rlt_dec _ _) as [H|H]; [|destruct (Rlt_dec _ _) as [H2|H2]; [|destruct (Z.even n)]]; rewrite ?plus_IZR; apply Rabs_le; lra.
Qed.
Lemma collapsed_state_inv D ncl eps opt cl o st s :
  1 <= dL D -> wf_state D st ->
  collapsed_state D ncl eps cl st o
    (map (fun c => (values_of_name D (fst c), fst (snd c))) (members D opt o st)) = Some s ->
  outcome_prob D st opt o <> 0%R /\ check_state eps ncl st = true /\
  exists p, s = collapse D opt cl o st p /\ ((0 <= p <= 1)%R /\ (Rabs (p - s_cum st * outcome_prob D st opt o) <= 1 / 2000)%R) /\
    ((0 <= s_cum st * outcome_prob D st opt o <= 1)%R -> p = (s_cum st * outcome_prob D st opt o)%R).
Proof.
  intros HL Hw. unfold collapsed_state. rewrite outcome_prob_members, collapsed_dict by auto.
  destruct (Req_EM_T _ _) as [|Hne]; [discriminate|]. unfold copy_state, make_state.
  destruct (check_state eps ncl st); [|discriminate].
  intros H. split; auto. split; auto.
  destruct (set_cumulative st (s_cum st * outcome_prob D st opt o)) as [s1|] eqn:E1.
  - unfold set_cumulative in E1. destruct (Rle_dec 0 _) as [H0|]; [|discriminate]. destruct (Rle_dec _ 1) as [H1|]; [|discriminate].
    injection E1 as <-. injection H as <-. exists (s_cum st * outcome_prob D st opt o)%R.
    split; [reflexivity|]. split; [|auto]. split; [lra|]. rewrite Rminus_eq_0, Rabs_R0. lra.
  - destruct (set_cumulative st (round3 _)) as [s1|] eqn:E2; [|discriminate].
    injection H as <-. unfold set_cumulative in E1, E2.
    destruct (Rle_dec 0 (round3 _)) as [H0|]; [|discriminate]. destruct (Rle_dec (round3 _) 1) as [H1|]; [|discriminate].
    injection E2 as <-. eexists. split; [reflexivity|]. cbn [with_cum s_cum]. split; [split; [lra|apply round3_near]|]. intros [Ha Hb].
    destruct (Rle_dec 0 _); [|contradiction]. destruct (Rle_dec _ 1); [discriminate|contradiction].
Qed.

Lemma collapsed_state_ok D ncl eps opt cl o st :
  1 <= dL D -> wf_state D st -> outcome_prob D st opt o <> 0%R -> check_state eps ncl st = true ->
  (0 <= s_cum st * outcome_prob D st opt o <= 1)%R ->
  collapsed_state D ncl eps cl st o
    (map (fun c => (values_of_name D (fst c), fst (snd c))) (members D opt o st))
  = Some (collapse D opt cl o st (s_cum st * outcome_prob D st opt o)).
Proof.
  intros HL Hw Hne Hck Hp. unfold collapsed_state. rewrite outcome_prob_members, collapsed_dict by auto.
  destruct (Req_EM_T _ _); [contradiction|]. unfold copy_state, make_state. rewrite Hck.
  unfold set_cumulative. destruct (Rle_dec 0 _); [|lra]. destruct (Rle_dec _ 1); [|lra]. reflexivity.
Qed.

(** The outcomes, in the order of the first component showing them. *)
Definition outcomes (D : dims) (opt : list nat) (st : state) : list (list nat) :=
  dkeys (group_by leqb (fun m => outcome_of opt (fst m)) (val_amp D st)).

Lemma outcomes_nodup D opt st : NoDup (outcomes D opt st).
Proof. apply group_by_nodup. apply leqb_spec. Qed.

Lemma outcomes_possible D opt st o :
  1 <= dL D -> wf_state D st -> (In o (outcomes D opt st) <-> possible D st opt o).
Proof.
  intros HL Hw. unfold outcomes. rewrite (group_by_key_iff leqb leqb_spec). unfold possible. split.
  - intros (m & Hm & <-). unfold val_amp in Hm. apply in_map_iff in Hm. destruct Hm as (c & <- & Hc).
    destruct (wf_comp_values D st c HL Hw Hc) as [Hv En].
    exists (values_of_name D (fst c)). split; auto. rewrite En. split; [now apply in_map|reflexivity].
  - intros (vs & Hv & Hin & <-). apply in_map_iff in Hin. destruct Hin as (c & En & Hc).
    exists (values_of_name D (fst c), fst (snd c)). split.
    + unfold val_amp. apply (in_map (fun c => (values_of_name D (fst c), fst (snd c)))). exact Hc.
    + cbn [fst]. rewrite En. rewrite values_of_name_string; auto. apply Hv.
Qed.

Lemma group_by_map_keys {V} (f : V -> list nat) l :
  group_by leqb f l = map (fun k => (k, filter (fun x => leqb k (f x)) l)) (dkeys (group_by leqb f l)).
Proof.
  unfold dkeys. rewrite map_map. symmetry. rewrite <- map_id. apply map_ext_in. intros [k g] H. cbn [fst].
  apply (group_by_in leqb leqb_spec) in H. destruct H as [-> _]. reflexivity.
Qed.

Lemma perform_unfold D ncl eps opt cl st :
  perform_measurement D ncl eps opt cl st
  = option_list (map (fun o => collapsed_state D ncl eps cl st o
       (map (fun c => (values_of_name D (fst c), fst (snd c))) (members D opt o st))) (outcomes D opt st)).
Proof.
  unfold perform_measurement. fold (val_amp D st). f_equal. rewrite group_by_map_keys. rewrite map_map.
  fold (outcomes D opt st). apply map_ext. intros o. cbn [fst snd]. now rewrite val_amp_filter.
Qed.

Lemma map_some_inv {A B} (f : A -> option B) (l : list A) r :
  map f l = map Some r -> Forall2 (fun a b => f a = Some b) l r.
Proof.
  revert r; induction l as [|a l IH]; intros [|b r] H; try discriminate; constructor.
  - now injection H.
  - apply IH. now injection H.
Qed.

Lemma perform_inv D ncl eps opt cl st sts :
  1 <= dL D -> wf_state D st ->
  perform_measurement D ncl eps opt cl st = Some sts ->
  Forall2 (fun o s => outcome_prob D st opt o <> 0%R /\ check_state eps ncl st = true /\
    exists p, s = collapse D opt cl o st p /\ ((0 <= p <= 1)%R /\ (Rabs (p - s_cum st * outcome_prob D st opt o) <= 1 / 2000)%R) /\
      ((0 <= s_cum st * outcome_prob D st opt o <= 1)%R -> p = (s_cum st * outcome_prob D st opt o)%R))
    (outcomes D opt st) sts.
Proof.
  intros HL Hw E. rewrite perform_unfold in E. apply option_list_some in E. apply map_some_inv in E.
  induction E; constructor; auto. now apply collapsed_state_inv.
Qed.

Lemma outcome_prob_nonneg D st opt o : (0 <= outcome_prob D st opt o)%R.
Proof. apply Rsum_nonneg. intros c _. destruct (leqb _ _); [apply Cnorm2_nonneg|lra]. Qed.

(** Total probability of the outcomes. *)
Lemma outcomes_total D opt st :
  Rsum (outcomes D opt st) (outcome_prob D st opt) = state_norm2 st.
Proof.
  unfold outcomes, dkeys. rewrite Rsum_map.
  transitivity (Rsum (group_by leqb (fun m => outcome_of opt (fst m)) (val_amp D st)) (fun kg => Rsum (snd kg) (fun m => Cnorm2 (snd m)))).
  - apply Rsum_ext. intros [k g] H. cbn [fst snd]. apply (group_by_in leqb leqb_spec) in H. destruct H as [-> _].
    rewrite val_amp_filter. now rewrite outcome_prob_members.
  - rewrite (group_by_Rsum leqb leqb_spec). unfold val_amp. rewrite Rsum_map. reflexivity.
Qed.

Lemma Rsum_le_term {A} (l : list A) f x : (forall y, In y l -> 0 <= f y)%R -> In x l -> (f x <= Rsum l f)%R.
Proof.
  induction l as [|a l IH]; intros Hf []; rewrite Rsum_cons.
  - subst. assert (0 <= Rsum l f)%R by (apply Rsum_nonneg; intros; apply Hf; now right). lra.
  - assert (0 <= f a)%R by (apply Hf; now left). assert (f x <= Rsum l f)%R by (apply IH; auto; intros; apply Hf; now right). lra.
Qed.

Lemma outcome_prob_le D st opt o : (outcome_prob D st opt o <= state_norm2 st)%R.
Proof.
  unfold outcome_prob, state_norm2. induction (s_comps st) as [|c cs IH]; [cbn; lra|].
  rewrite !Rsum_cons. pose proof (Cnorm2_nonneg (fst (snd c))). destruct (leqb _ _); lra.
Qed.

(** Collapsed states are normalised. *)
Lemma collapse_norm D opt cl o st p :
  outcome_prob D st opt o <> 0%R -> state_norm2 (collapse D opt cl o st p) = 1%R.
Proof.
  intros Hne. unfold state_norm2. cbn [collapse s_comps]. unfold collapsed_comps. rewrite Rsum_map. cbn [fst snd].
  pose proof (outcome_prob_nonneg D st opt o) as Hp.
  assert (Hpos : (0 < outcome_prob D st opt o)%R) by lra.
  set (q := outcome_prob D st opt o) in *.
  assert (Hs : sqrt q <> 0%R) by (apply Rgt_not_eq; now apply sqrt_lt_R0).
  transitivity (Rsum (members D opt o st) (fun c => / q * Cnorm2 (fst (snd c))))%R.
  - apply Rsum_ext. intros c _. unfold Cdiv. rewrite Cnorm2_mult. rewrite Rmult_comm. f_equal.
    rewrite <- RtoC_inv by auto. rewrite Cnorm2_RtoC. rewrite <- Rinv_mult. rewrite sqrt_sqrt; auto.
  - rewrite Rsum_scal_l.
    assert (E : Rsum (members D opt o st) (fun c => Cnorm2 (fst (snd c))) = q).
    { unfold q. rewrite <- outcome_prob_members. rewrite Rsum_map. reflexivity. }
    rewrite E. now apply Rinv_l.
Qed.

Lemma collapse_wf D opt cl o st p : wf_state D st -> wf_state D (collapse D opt cl o st p).
Proof.
  intros [ND Hn]. unfold wf_state. cbn [collapse s_comps]. unfold collapsed_comps. rewrite map_map. cbn [fst].
  unfold members. split.
  - now apply filter_NoDup_map.
  - intros nm H. apply in_map_iff in H. destruct H as (c & <- & Hc). apply filter_In in Hc. apply Hn. apply in_map. tauto.
Qed.

Lemma members_in D opt o st c :
  In c (members D opt o st) <-> In c (s_comps st) /\ readout opt (values_of_name D (fst c)) = o.
Proof.
  unfold members. rewrite filter_In, leqb_spec. split; intros [H E]; auto.
Qed.

Lemma collapse_comp D opt cl o st p vs :
  1 <= dL D -> wf_state D st -> valid D vs ->
  In (name_string D vs) (map fst (s_comps (collapse D opt cl o st p))) ->
  In (name_string D vs) (map fst (s_comps st)) /\ readout opt vs = o.
Proof.
  intros HL Hw Hv H. cbn [collapse s_comps] in H. unfold collapsed_comps in H. rewrite map_map in H. cbn [fst] in H.
  apply in_map_iff in H. destruct H as (c & Ec & Hc). apply members_in in Hc. destruct Hc as [Hc Er].
  rewrite Ec in Er. rewrite values_of_name_string in Er by (auto; apply Hv).
  split; auto. rewrite <- Ec. now apply in_map.
Qed.

Lemma collapse_amp D opt cl o st p vs :
  1 <= dL D -> wf_state D st -> valid D vs ->
  amp_of D (collapse D opt cl o st p) vs
  = if leqb (readout opt vs) o then (amp_of D st vs / RtoC (sqrt (outcome_prob D st opt o)))%C else RtoC 0.
Proof.
  intros HL Hw Hv. pose proof (collapse_wf D opt cl o st p Hw) as Hw'.
  unfold amp_of, amplitude.
  destruct (dget leqb (name_string D vs) (s_comps (collapse D opt cl o st p))) as [ap|] eqn:E.
  - apply (dget_some_in leqb leqb_spec) in E. cbn [collapse s_comps] in E. unfold collapsed_comps in E.
    apply in_map_iff in E. destruct E as ([nm [a q]] & E & Hc). cbv zeta in E. cbn [fst snd] in E. injection E as E1 E2.
    apply members_in in Hc. destruct Hc as [Hc Er]. cbn [fst] in Er. subst nm ap.
    rewrite values_of_name_string in Er by (auto; apply Hv). rewrite (proj2 (leqb_spec _ _) Er).
    rewrite (dget_in leqb leqb_spec _ (a, q) (s_comps st)); auto. apply Hw.
  - destruct (leqb (readout opt vs) o) eqn:Er; [|reflexivity]. apply leqb_spec in Er.
    destruct (dget leqb (name_string D vs) (s_comps st)) as [ap|] eqn:E0.
    + exfalso. apply (dget_some_in leqb leqb_spec) in E0. apply (dget_none_iff leqb leqb_spec) in E. apply E.
      cbn [collapse s_comps]. unfold collapsed_comps, dkeys. rewrite map_map. cbn [fst].
      apply in_map_iff. exists (name_string D vs, ap). split; auto. apply members_in. split; auto. cbn [fst].
      rewrite values_of_name_string; auto. apply Hv.
    + unfold Cdiv. rewrite Cmult_0_l. reflexivity.
Qed.

Lemma collapse_nonempty D opt cl o st p :
  outcome_prob D st opt o <> 0%R -> s_comps (collapse D opt cl o st p) <> [].
Proof.
  intros Hne E. apply (collapse_norm D opt cl o st p) in Hne. unfold state_norm2 in Hne. rewrite E in Hne.
  cbn in Hne. lra.
Qed.

(** ** The collection after a measurement *)
Definition measured_ids (num : ident) (i : ident) (n : nat) : list ident :=
  map (measured_identifier i num) (seq 0 n).

Lemma add_measured i num l : forall s (out : items),
  (forall j, s <= j < s + length l -> ~ In (measured_identifier i num j) (dkeys out)) ->
  num <> [] -> (forall x, In x num -> x < 97) ->
  fold_left (fun o js => add_state (measured_identifier i num (fst js)) (snd js) o) (combine (seq s (length l)) l) out
  = out ++ map (fun js => (measured_identifier i num (fst js), snd js)) (combine (seq s (length l)) l).
Proof.
  induction l as [|x l IH]; intros s out Hn Hne Hd; cbn [length seq combine fold_left map].
  - now rewrite app_nil_r.
  - rewrite IH; auto.
    + unfold add_state. rewrite (dset_fresh leqb leqb_spec).
      * rewrite <- app_assoc. reflexivity.
      * apply Hn. cbn [fst length]. lia.
    + intros j Hj Hin. unfold add_state in Hin. rewrite (dset_fresh leqb leqb_spec) in Hin by (apply Hn; cbn [fst length]; lia).
      unfold dkeys in Hin. rewrite map_app in Hin. apply in_app_or in Hin. destruct Hin as [Hin|[E|[]]].
      * revert Hin. apply Hn. cbn [fst length]. lia.
      * cbn [fst] in E. apply measured_identifier_inj in E; auto. destruct E as [_ E]. lia.
Qed.

Definition relabel (num i : ident) (sts : list state) : items :=
  map (fun js => (measured_identifier i num (fst js), snd js)) (combine (seq 0 (length sts)) sts).

Lemma relabel_keys num i sts x : In x (dkeys (relabel num i sts)) -> exists j, x = measured_identifier i num j.
Proof.
  unfold relabel, dkeys. rewrite map_map. cbn [fst]. intros H. apply in_map_iff in H.
  destruct H as (js & <- & _). eauto.
Qed.
Lemma relabel_vals num i sts : map snd (relabel num i sts) = sts.
Proof.
  unfold relabel. rewrite map_map. cbn [snd]. generalize 0. induction sts as [|x l IH]; intros n; [reflexivity|].
  cbn [length seq combine map snd]. f_equal. apply IH.
Qed.

Lemma map_fst_combine_seq {A} (l : list A) : forall s, map fst (combine (seq s (length l)) l) = seq s (length l).
Proof. induction l as [|x l IH]; intros s; [reflexivity|]. cbn [length seq combine map fst]. now rewrite IH. Qed.

Lemma relabel_ids num i sts : dkeys (relabel num i sts) = measured_ids num i (length sts).
Proof.
  unfold relabel, dkeys, measured_ids. rewrite map_map. cbn [fst].
  rewrite <- (map_map fst (fun j => measured_identifier i num j)). now rewrite map_fst_combine_seq.
Qed.

Lemma measure_items_inv c k opt cl its out :
  NoDup (dkeys its) -> measure_items c k opt cl its = Some out ->
  exists results,
    Forall2 (fun it sts => perform_measurement (c_D c) (c_ncl c) (c_eps c) opt cl (snd it) = Some sts) its results /\
    out = concat (map (fun p => relabel (measurement_number (c_nodes c) k) (fst (fst p)) (snd p)) (combine its results)).
Proof.
  intros ND. unfold measure_items. set (num := measurement_number (c_nodes c) k).
  destruct (measurement_number_ok (c_nodes c) k) as [Hne Hd]. fold num in Hne, Hd.
  set (stepf := fun (acc : option items) (it : ident * state) => _).
  assert (G : forall its acc, NoDup (dkeys its) ->
     (forall i j, In i (dkeys its) -> ~ In (measured_identifier i num j) (dkeys acc)) ->
     forall out, fold_left stepf its (Some acc) = Some out ->
     exists results,
       Forall2 (fun it sts => perform_measurement (c_D c) (c_ncl c) (c_eps c) opt cl (snd it) = Some sts) its results /\
       out = acc ++ concat (map (fun p => relabel num (fst (fst p)) (snd p)) (combine its results))).
  { clear its out ND. induction its as [|[i st] its IH]; intros acc ND Hfresh out E; cbn [fold_left] in E.
    - injection E as <-. exists []. split; [constructor|]. cbn. now rewrite app_nil_r.
    - unfold stepf at 2 in E. cbn [fst snd] in E.
      destruct (perform_measurement _ _ _ _ _ st) as [sts|] eqn:Ep.
      2:{ exfalso. clear - E. induction its; cbn [fold_left] in E; [discriminate|]. apply IHits. exact E. }
      cbn [dkeys map fst] in ND, Hfresh. inversion ND; subst.
      rewrite add_measured in E; auto.
      + fold (relabel num i sts) in E. apply IH in E; auto.
        * destruct E as (rs & HF & ->). exists (sts :: rs). split; [now constructor|].
          cbn [combine map concat fst snd]. now rewrite app_assoc.
        * intros i' j' Hi' Hin. unfold dkeys in Hin. rewrite map_app in Hin. apply in_app_or in Hin. destruct Hin as [Hin|Hin].
          -- revert Hin. apply Hfresh. now right.
          -- apply relabel_keys in Hin. destruct Hin as (j & E'). apply measured_identifier_inj in E'; auto.
             destruct E' as [-> _]. contradiction.
      + intros j _. apply Hfresh. now left. }
  intros E. destruct (G its [] ND) with (out := out) as (rs & HF & ->); auto.
  exists rs. split; auto.
Qed.

Lemma measured_nodup num its (results : list (list state)) :
  num <> [] -> (forall x, In x num -> x < 97) -> NoDup (dkeys its) ->
  NoDup (dkeys (concat (map (fun p : (ident * state) * list state => relabel num (fst (fst p)) (snd p)) (combine its results)))).
Proof.
  intros Hne Hd. revert results. induction its as [|[i st] its IH]; intros results ND; [constructor|].
  destruct results as [|sts rs]; [constructor|]. cbn [combine map concat fst snd].
  cbn [dkeys map fst] in ND. inversion ND; subst.
  unfold dkeys. rewrite map_app. fold (dkeys (relabel num i sts)).
  set (rest := concat _) in *.
  assert (NDr : NoDup (dkeys rest)) by (unfold rest; auto).
  rewrite relabel_ids. unfold measured_ids. 
  assert (Hdis : forall x, In x (map (measured_identifier i num) (seq 0 (length sts))) -> ~ In x (map fst rest)).
  { intros x Hx Hin. apply in_map_iff in Hx. destruct Hx as (j & <- & _).
    unfold rest in Hin. rewrite concat_map in Hin. apply in_concat in Hin. destruct Hin as (l & Hl & Hin).
    rewrite map_map in Hl. apply in_map_iff in Hl. destruct Hl as ([[i' st'] sts'] & <- & Hc). cbn [fst snd] in Hin.
    apply relabel_keys in Hin. destruct Hin as (j' & E). apply measured_identifier_inj in E; auto.
    destruct E as [-> _]. apply in_combine_l in Hc. apply H1. apply (in_map fst) in Hc. exact Hc. }
  assert (NDm : NoDup (map (measured_identifier i num) (seq 0 (length sts)))).
  { apply map_inj_NoDup; [|apply seq_NoDup]. intros x y _ _ E. apply measured_identifier_inj in E; auto. tauto. }
  fold (dkeys rest) in *. clear - Hdis NDr NDm. revert Hdis NDm.
  generalize (map (measured_identifier i num) (seq 0 (length sts))).
  generalize dependent (dkeys rest). intros l0 NDr l.
  induction l as [|x l IHl]; intros Hdis NDm; [exact NDr|]. inversion NDm; subst. cbn [app]. constructor.
  - intros Hin. apply in_app_or in Hin. destruct Hin; [contradiction|]. apply (Hdis x); [now left|auto].
  - apply IHl; auto. intros y Hy. apply Hdis. now right.
Qed.
