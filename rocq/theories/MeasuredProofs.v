(** Proofs about the measurement of photon-resolved collections: the groups after the measurement. *)
From Coq Require Import Reals List Arith Lia Lra Bool Permutation.
From Coquelicot Require Import Complex.
From Verif Require Import Prelude NamesModel NamesSpec NamesProofs FockModel FockProofs StateModel StateSpec StateProofs ApplyProofs MeasureSpec MeasureProofs
  CollectionModel EvalModel PropMeasure PropCollection PropEval PropBridge PropPRMeasure OperatorModel ColumnModel ColumnSpec ColumnProofs PropColumn
  GroupProofs TemporalSpec TemporalProofs ResolvedProofs InterferenceSpec ArrangementProofs InterferenceProofs.
Import ListNotations.

Lemma group_by_map {A V} (h : A -> V) (k : V -> list nat) l :
  group_by leqb k (map h l) = map (fun kv => (fst kv, map h (snd kv))) (group_by leqb (fun x => k (h x)) l).
Proof.
  unfold group_by. induction l as [|x l IH] using rev_ind; [reflexivity|]. rewrite map_app, !fold_left_app. cbn [map fold_left]. rewrite IH. clear IH.
  set (d := fold_left _ l []). 
  assert (Hg : forall d : list (list nat * list A), dget leqb (k (h x)) (map (fun kv => (fst kv, map h (snd kv))) d) = option_map (map h) (dget leqb (k (h x)) d)).
  { induction d0 as [|[q v] d0 IHd]; [reflexivity|]. cbn [map dget fst snd]. destruct (leqb (k (h x)) q); [reflexivity|exact IHd]. }
  unfold dappend. rewrite Hg. assert (Hs : forall v (d : list (list nat * list A)), dset leqb (k (h x)) (map h v) (map (fun kv => (fst kv, map h (snd kv))) d) = map (fun kv => (fst kv, map h (snd kv))) (dset leqb (k (h x)) v d)).
  { intros v. induction d0 as [|[q u] d0 IHd]; [reflexivity|]. cbn [map dset fst snd]. destruct (leqb (k (h x)) q); [reflexivity|]. cbn [map fst snd]. rewrite IHd. reflexivity. }
  destruct (dget leqb (k (h x)) d) as [v|]; cbn [option_map].
  - rewrite <- Hs. rewrite map_app. reflexivity.
  - rewrite map_app. reflexivity.
Qed.
Lemma Rsum_subset {A} (eqb : A -> A -> bool) (Hq : forall a b, eqb a b = true <-> a = b) (l l' : list A) f :
  NoDup l -> NoDup l' -> incl l l' -> (forall x, In x l' -> ~ In x l -> f x = 0%R) -> Rsum l' f = Rsum l f.
Proof.
  intros Hl Hl' Hi Hz.
  transitivity (Rsum (filter (fun x => existsb (eqb x) l) l') f).
  - rewrite Rsum_filter. apply Rsum_ext. intros x Hx. destruct (existsb (eqb x) l) eqn:E; [reflexivity|]. apply Hz; [exact Hx|]. intro Z.
    assert (existsb (eqb x) l = true) by (apply existsb_exists; exists x; split; [exact Z|apply Hq; reflexivity]). congruence.
  - apply Rsum_perm. apply NoDup_Permutation; [apply NoDup_filter; exact Hl'|exact Hl|]. intro x. rewrite filter_In, existsb_exists. split.
    + intros [_ [y [Hy E]]]. apply Hq in E. subst y. exact Hy.
    + intro Hx. split; [apply Hi; exact Hx|]. exists x. split; [exact Hx|apply Hq; reflexivity].
Qed.

(** ** The quantities of a column *)
Definition self_overlap (D : dims) (c : column) : R :=
  Rsum (valid_combinations (photon_channels (column_occ D c)) (v_channels (view_of D c))) (fun s =>
    Rsum (valid_combinations (photon_channels (column_occ D c)) (v_channels (view_of D c))) (fun t => seq_overlap (view_of D c) (view_of D c) s t)).
Definition new_boson (D : dims) (c : column) : R := sqrt (self_overlap D c / INR (factorials (column_occ D c))).
Definition amp_norm (cs : list column) : R := Rsum cs (fun c => Cnorm2 (col_amp c)).
Definition outcome_p (D : dims) (cs : list column) : R := Rsum (group_by leqb (column_occ D) cs) (fun f => column_list_probability D (fst f) (snd f)).
Definition measured_column (D : dims) (cl o : list nat) (P S : R) (n : nat) (w : R) (c : column) : column :=
  make_column (col_id c) (col_amp c / RtoC (sqrt S))%C (new_boson D c) n w (map (record_outcome cl o P) (col_states c)).
(** A column that can be measured. *)
Definition measurable (D : dims) (c : column) : Prop :=
  col_amp c <> RtoC 0 /\ (0 < col_boson c)%R /\ col_states c <> [] /\ Forall (fun s => length (first_values D s) = dN D) (col_states c) /\
  valid D (column_occ D c).
Lemma column_occ_channels D c : Forall (fun s => length (first_values D s) = dN D) (col_states c) -> Permutation (v_channels (view_of D c)) (photon_channels (column_occ D c)).
Proof.
  intro H. unfold column_occ. change (map fst (list_of_photons D c)) with (v_channels (view_of D c)).
  assert (Hb : Forall (fun x => x < dN D) (v_channels (view_of D c))).
  { apply Forall_forall. intros x Hx. unfold v_channels, v_photons, view_of, list_of_photons in Hx; cbn [snd] in Hx. apply in_map_iff in Hx. destruct Hx as [[x' q] [E Hx]]. cbn in E. subst x'.
    apply in_flat_map in Hx. destruct Hx as [s [Hs Hx]]. apply in_map_iff in Hx. destruct Hx as [y [E Hy]]. assert (y = x) by congruence. subst y. rewrite photon_channels_pc in Hy. apply pc_in in Hy.
    rewrite (proj1 (Forall_forall _ _) H s Hs) in Hy. lia. }
  revert Hb. generalize (v_channels (view_of D c)). intros l Hb. apply (Permutation_count_occ Nat.eq_dec). intro x. rewrite photon_channels_pc, pc_count by lia. rewrite Nat.sub_0_r.
  destruct (Nat.lt_ge_cases x (dN D)) as [Hx|Hx].
  - rewrite occupation_nth by exact Hx. reflexivity.
  - rewrite nth_overflow by (rewrite occupation_length; exact Hx). apply count_occ_not_In. intro Z. pose proof (proj1 (Forall_forall _ _) Hb x Z) as Z'. cbn beta in Z'. lia.
Qed.
Lemma Rprod_pos {A} (l : list A) f : (forall x, In x l -> (0 < f x)%R) -> (0 < Rprod l f)%R.
Proof. unfold Rprod. induction l as [|x l IH]; intro H; cbn [fold_right]; [lra|]. apply Rmult_lt_0_compat; [apply H; left; reflexivity|apply IH; intros y Hy; apply H; right; exact Hy]. Qed.
Lemma overlap_pos a b : (0 < overlap a b)%R.
Proof. unfold overlap. destruct a as [[d1 w1]|]; [|lra]. destruct b as [[d2 w2]|]; [|lra]. apply exp_pos. Qed.
Lemma Rsum_pos {A} (l : list A) f : l <> [] -> (forall x, In x l -> (0 < f x)%R) -> (0 < Rsum l f)%R.
Proof.
  induction l as [|x l IH]; intros Hne H; [congruence|]. rewrite Rsum_cons. destruct l as [|y l].
  - change (Rsum [] f) with 0%R. rewrite Rplus_0_r. apply H. left. reflexivity.
  - apply Rplus_lt_0_compat; [apply H; left; reflexivity|]. apply IH; [discriminate|]. intros z Hz. apply H. right. exact Hz.
Qed.
Lemma self_overlap_pos D c : Forall (fun s => length (first_values D s) = dN D) (col_states c) -> (0 < self_overlap D c)%R.
Proof.
  intro H. pose proof (column_occ_channels D c H) as Hp. unfold self_overlap.
  assert (Hne : valid_combinations (photon_channels (column_occ D c)) (v_channels (view_of D c)) <> []).
  { destruct (pick_exists _ _ Hp) as [s [Hs E]]. pose proof (Permutation_length Hp) as Hl.
    pose proof (valid_combinations_spec (photon_channels (column_occ D c)) (v_channels (view_of D c)) Hl) as Hv. intro Z. rewrite Z in Hv. apply Permutation_nil in Hv.
    assert (Hin : In s []); [rewrite <- Hv; apply filter_In; split; [rewrite <- Hl; exact Hs|apply leqb_spec; exact E]|destruct Hin]. }
  apply Rsum_pos; [exact Hne|]. intros s _. apply Rsum_pos; [exact Hne|]. intros t _. apply Rprod_pos. intros x _. apply overlap_pos.
Qed.
Lemma self_probability D c : measurable D c ->
  pair_value (photon_channels (column_occ D c)) (boson_fold 1 (column_occ D c)) (view_of D c) (view_of D c)
  = RtoC (Cnorm2 (col_amp c) * self_overlap D c / (INR (factorials (column_occ D c)) * (col_boson c * col_boson c))).
Proof.
  intros [Ha [Hb [Hne [Hl Hv]]]]. unfold pair_value. unfold v_amp, v_boson; cbn [view_of fst snd]. fold (self_overlap D c).
  assert (Hpb : (boson_fold 1 (column_occ D c) * boson_fold 1 (column_occ D c) = INR (factorials (column_occ D c)))%R) by (rewrite boson_fold_spec, Rmult_1_l; apply sqrt_sqrt; apply pos_INR).
  assert (Hfp : INR (factorials (column_occ D c)) <> 0%R) by (apply not_0_INR; pose proof (factorials_pos (column_occ D c)); lia).
  rewrite Hpb. assert (Hc : (Cconj (col_amp c) * col_amp c)%C = RtoC (Cnorm2 (col_amp c))) by (unfold Cnorm2; apply C_eq; cbn; ring). rewrite Hc.
  assert (Hbb : (col_boson c * col_boson c)%R <> 0%R) by nra.
  rewrite <- RtoC_div by exact Hfp. rewrite <- RtoC_div by exact Hbb. rewrite <- RtoC_mult. f_equal. field. split; [lra|exact Hfp].
Qed.
Lemma Cnorm2_pos z : z <> RtoC 0 -> (0 < Cnorm2 z)%R.
Proof.
  intro H. unfold Cnorm2. destruct z as [a b]. cbn. destruct (Req_dec a 0) as [->|Ha]; [destruct (Req_dec b 0) as [->|Hb]; [exfalso; apply H; reflexivity|nra]|nra].
Qed.
Lemma measurable_stamp D id a b n p c : a <> RtoC 0 -> (0 < b)%R -> measurable D c -> measurable D (make_column id a b n p (col_states c)) /\
  column_occ D (make_column id a b n p (col_states c)) = column_occ D c /\ self_overlap D (make_column id a b n p (col_states c)) = self_overlap D c.
Proof.
  intros Ha Hb [_ [_ [Hne [Hl Hv]]]].
  assert (Hph : list_of_photons D (make_column id a b n p (col_states c)) = list_of_photons D c).
  { rewrite !photons_core. unfold make_column; cbn [col_states]. rewrite map_map. apply f_equal. apply map_ext. intro. apply core_stamp. }
  assert (Ho : column_occ D (make_column id a b n p (col_states c)) = column_occ D c) by (unfold column_occ; rewrite Hph; reflexivity).
  split; [|split; [exact Ho|]].
  - split; [exact Ha|]. split; [exact Hb|]. split; [unfold make_column; cbn [col_states]; intro Z; apply map_eq_nil in Z; exact (Hne Z)|]. split.
    + unfold make_column; cbn [col_states]. apply Forall_map. exact Hl.
    + rewrite Ho. exact Hv.
  - unfold self_overlap. rewrite Ho. unfold seq_overlap, v_channels, v_photons, view_of. cbn [snd]. rewrite Hph. reflexivity.
Qed.

(** ** One outcome *)
Lemma make_amp_again id a b g p a' sts : col_with_amp (make_column id a b g p sts) a' = make_column id a' b g p sts.
Proof. unfold col_with_amp, make_column; cbn [col_id col_amp col_boson col_group col_cum col_states]. f_equal. rewrite map_map. apply map_ext. intro. apply stamp_stamp. Qed.
Lemma make_boson_again id a b g p b' sts : col_with_boson (make_column id a b g p sts) b' = make_column id a b' g p sts.
Proof. unfold col_with_boson, make_column; cbn [col_id col_amp col_boson col_group col_cum col_states]. f_equal. rewrite map_map. apply map_ext. intro. apply stamp_stamp. Qed.
Lemma make_id_again id a b g p g' sts : col_with_group (make_column id a b g p sts) g' = make_column id a b g' p sts.
Proof. apply make_group_again. Qed.
Lemma record_stamp cl o q id a b g p st : record_outcome cl o q (stamp id a b g p st) = stamp id a b g p (record_outcome cl o q st).
Proof. reflexivity. Qed.
Lemma with_states_record id a b g p cl o q sts :
  with_states (make_column id a b g p sts) (map (record_outcome cl o q) (col_states (make_column id a b g p sts))) = make_column id a b g p (map (record_outcome cl o q) sts).
Proof.
  unfold with_states, make_column; cbn [col_id col_amp col_boson col_group col_cum col_states]. f_equal. rewrite !map_map. apply map_ext. intro st. rewrite record_stamp. apply stamp_stamp.
Qed.
Lemma map_columns_some f h g : (forall kc, In kc (g_cols g) -> f (snd kc) = Some (h (snd kc))) ->
  map_columns f g = Some (Group (g_id g) (g_cum g) (map (fun kc => (fst kc, h (snd kc))) (g_cols g))).
Proof.
  intro H. unfold map_columns. rewrite (option_list_map_some _ (fun kc => (fst kc, h (snd kc)))); [reflexivity|]. intros kc Hkc. rewrite (H kc Hkc). reflexivity.
Qed.
Lemma outcome_p_spec D cs :
  fold_left Rplus (map (fun f : list nat * list (values * column) => column_list_probability D (fst f) (map snd (snd f))) (group_by leqb fst (map (fun c => (column_occ D c, c)) cs))) 0%R = outcome_p D cs.
Proof.
  rewrite fold_Rplus, Rplus_0_l, Rsum_fold. rewrite group_by_map, Rsum_map. cbn [fst snd]. unfold outcome_p. apply Rsum_ext. intros [f l] _. cbn [fst snd]. rewrite map_map. cbn [snd]. rewrite map_id. reflexivity.
Qed.
Lemma rescaled_boson D id a b n q c : a <> RtoC 0 -> (0 < b)%R -> measurable D c -> 
  match column_values D (make_column id a b n q (col_states c)) with
  | None => None
  | Some vs =>
      let (pr, pb) := projection_of vs in
      match pair_probability D pr pb (make_column id a b n q (col_states c)) (make_column id a b n q (col_states c)) with
      | None => None
      | Some p =>
          if Rlt_dec 0 (fst p) then
            let correction := (Cnorm2 (col_amp (make_column id a b n q (col_states c))) / fst p)%R in
            if Rlt_dec 0 correction then Some (col_with_boson (make_column id a b n q (col_states c)) (col_boson (make_column id a b n q (col_states c)) / sqrt correction)) else None
          else None
      end
  end = Some (make_column id a (new_boson D c) n q (col_states c)).
Proof.
  intros Ha Hb Hm. destruct (measurable_stamp D id a b n q c Ha Hb Hm) as [Hm' [Ho Hs]]. set (c' := make_column id a b n q (col_states c)) in *.
  pose proof Hm' as [_ [_ [Hne [Hl Hv]]]]. rewrite (column_values_spec D c' Hl Hne). fold (column_occ D c'). unfold projection_of.
  pose proof (pair_probability_spec D (photon_channels (column_occ D c')) (boson_fold 1 (column_occ D c')) c' c') as Hp. rewrite (self_probability D c' Hm') in Hp.
  assert (HX : (0 < self_overlap D c')%R) by (apply self_overlap_pos; exact Hl).
  assert (Hf : (0 < INR (factorials (column_occ D c')))%R) by (apply lt_0_INR; apply factorials_pos).
  change (col_amp c') with a in *. change (col_boson c') with b in *. pose proof (Cnorm2_pos a Ha) as Hna.
  set (P := (Cnorm2 a * self_overlap D c' / (INR (factorials (column_occ D c')) * (b * b)))%R) in *.
  assert (HP : (0 < P)%R) by (unfold P; apply Rdiv_lt_0_compat; [apply Rmult_lt_0_compat; assumption|apply Rmult_lt_0_compat; nra]).
  destruct (pair_probability D _ _ c' c') as [p|].
  - rewrite Hp. cbn [fst RtoC]. destruct (Rlt_dec 0 P) as [_|Z]; [|contradiction].
    destruct (Rlt_dec 0 (Cnorm2 a / P)) as [Hcor|Z]; [|exfalso; apply Z; apply Rdiv_lt_0_compat; assumption].
    unfold c'. rewrite make_boson_again. cbv zeta. do 2 f_equal. unfold new_boson. rewrite <- Ho, <- Hs. fold c'.
    assert (Hc : (Cnorm2 a / P = (b * b) * / (self_overlap D c' / INR (factorials (column_occ D c'))))%R) by (unfold P; field; repeat split; lra).
    rewrite Hc. assert (HXF : (0 < self_overlap D c' / INR (factorials (column_occ D c')))%R) by (apply Rdiv_lt_0_compat; assumption).
    rewrite sqrt_mult_alt by nra. rewrite sqrt_square by lra. rewrite sqrt_inv. pose proof (sqrt_lt_R0 _ HXF). field. split; lra.
  - exfalso. apply (f_equal fst) in Hp. cbn in Hp. lra.
Qed.
Lemma outcome_group_spec D opt cl o n w cs : cs <> [] -> NoDup (map col_id cs) ->
  Forall (fun c => col_group c = n /\ col_cum c = w /\ measurable D c) cs -> (forall c l, cs = c :: l -> outcome_of opt (column_occ D c) = o) ->
  outcome_group D opt cl (map (fun c => (column_occ D c, c)) cs)
  = Some (Group n (w * outcome_p D cs)%R (map (fun c => (col_id c, measured_column D cl o (outcome_p D cs) (amp_norm cs) n (w * outcome_p D cs)%R c)) cs)).
Proof.
  intros Hne Hnd H Ho. unfold outcome_group. rewrite outcome_p_spec. set (p := outcome_p D cs). rewrite map_map. cbn [snd]. rewrite map_id.
  assert (Hg : group_of_columns cs None = Group n w (map (fun c => (col_id c, make_column (col_id c) (col_amp c) (col_boson c) n (col_cum c) (col_states c))) cs)).
  { destruct cs as [|c cs]; [congruence|]. destruct (Forall_inv H) as [Hn [Hw _]]. rewrite <- Hn. rewrite <- Hw. exact (group_of_columns_spec c cs (col_group c) Hnd). }
  rewrite Hg. destruct cs as [|c0 cs0] eqn:Ecs; [congruence|]. rewrite <- Ecs in *. 
  assert (Hm : exists vs x l, map (fun c => (column_occ D c, c)) cs = (vs, x) :: l /\ outcome_of opt vs = o).
  { rewrite Ecs. cbn [map]. eexists _, _, _. split; [reflexivity|]. exact (Ho _ _ Ecs). }
  destruct Hm as [vs [x [l [Em Evs]]]]. rewrite Em. rewrite Evs. clear Em x l. 
  assert (HS : (0 < amp_norm cs)%R).
  { unfold amp_norm. apply Rsum_pos; [rewrite Ecs; discriminate|]. intros c Hc. apply Cnorm2_pos. apply (proj1 (Forall_forall _ _) H c Hc). }
  unfold group_with_cum. cbn [g_id g_cum g_cols]. rewrite map_map. cbn [fst snd].
  rewrite (map_ext (fun c => (col_id c, col_with_cum (make_column (col_id c) (col_amp c) (col_boson c) n (col_cum c) (col_states c)) (w * p))) (fun c => (col_id c, make_column (col_id c) (col_amp c) (col_boson c) n (w * p) (col_states c)))).
  2:{ intro c. rewrite make_cum_again. reflexivity. }
  unfold rescale_amplitudes. cbv zeta. unfold group_columns. cbn [g_cols]. rewrite !map_map. cbn [snd make_column col_amp].
  rewrite fold_Rplus, Rplus_0_l, Rsum_fold. fold (amp_norm cs). destruct (Req_EM_T (amp_norm cs) 0) as [Z|_]; [lra|].
  rewrite (map_columns_some _ (fun c => col_with_amp c (col_amp c / RtoC (sqrt (amp_norm cs)))%C)) by reflexivity. cbn [g_id g_cum g_cols]. rewrite map_map. cbn [fst snd].
  rewrite (map_ext _ (fun c => (col_id c, make_column (col_id c) (col_amp c / RtoC (sqrt (amp_norm cs)))%C (col_boson c) n (w * p) (col_states c)))).
  2:{ intro c. rewrite make_amp_again. reflexivity. }
  unfold rescale_boson.
  assert (Hsq : RtoC (sqrt (amp_norm cs)) <> RtoC 0) by (intro Z; apply RtoC_inj in Z; pose proof (sqrt_lt_R0 _ HS); lra).
  assert (Hamp : forall c, In c cs -> (col_amp c / RtoC (sqrt (amp_norm cs)))%C <> RtoC 0).
  { intros c Hc Z. destruct (proj1 (Forall_forall _ _) H c Hc) as [_ [_ [Ha _]]]. apply Ha. replace (col_amp c) with (col_amp c / RtoC (sqrt (amp_norm cs)) * RtoC (sqrt (amp_norm cs)))%C by (field; exact Hsq). rewrite Z. ring. }
  unfold map_columns at 1. cbn [g_cols g_id g_cum]. rewrite map_map. cbn [fst snd].
  rewrite (option_list_map_some _ (fun c => (col_id c, make_column (col_id c) (col_amp c / RtoC (sqrt (amp_norm cs)))%C (new_boson D c) n (w * p) (col_states c)))).
  2:{ intros c Hc. destruct (proj1 (Forall_forall _ _) H c Hc) as [_ [_ Hmc]].
      exact (f_equal (option_map (pair (col_id c))) (rescaled_boson D (col_id c) (col_amp c / RtoC (sqrt (amp_norm cs)))%C (col_boson c) n (w * p) c (Hamp c Hc) (proj1 (proj2 Hmc)) Hmc)). }
  cbn [option_map]. rewrite (map_columns_some _ (fun c => with_states c (map (record_outcome cl o p) (col_states c)))) by reflexivity. cbn [g_id g_cum g_cols]. rewrite map_map. cbn [fst snd].
  do 2 f_equal. apply map_ext. intro c. rewrite with_states_record. reflexivity.
Qed.

(** ** One group *)
Lemma digit_string v : v < 10 -> pad (ndigits v) v = [v].
Proof.
  intro H. assert (E : ndigits v = 1) by (unfold ndigits; destruct v; [reflexivity|]; cbn [ndigits_aux]; rewrite (proj2 (Nat.ltb_lt _ _) H); reflexivity).
  rewrite E. unfold pad. cbn [seq map]. rewrite Nat.pow_0_r, Nat.div_1_r. rewrite Nat.mod_small by exact H. reflexivity.
Qed.
Lemma ten_string : pad (ndigits 10) 10 = [1; 0].
Proof. reflexivity. Qed.
Lemma decimal_inj a b : pad (ndigits a) a = pad (ndigits b) b -> a = b.
Proof.
  intro E. assert (El : ndigits a = ndigits b) by (rewrite <- (pad_length (ndigits a) a), E; apply pad_length).
  rewrite <- (parse_pad (ndigits a) a (ndigits_bound a)), <- (parse_pad (ndigits b) b (ndigits_bound b)). now rewrite E.
Qed.
Lemma two_decimals a b c d : a <= 10 -> b <= 10 -> c <= 10 -> d <= 10 -> pad (ndigits a) a ++ pad (ndigits b) b = pad (ndigits c) c ++ pad (ndigits d) d -> a = c /\ b = d.
Proof.
  assert (S : forall v, v <= 10 -> (v < 10 /\ pad (ndigits v) v = [v]) \/ (v = 10 /\ pad (ndigits v) v = [1; 0])).
  { intros v Hv. destruct (Nat.lt_ge_cases v 10) as [H|H]; [left; split; [exact H|now apply digit_string]|right; assert (v = 10) as -> by lia; split; reflexivity]. }
  intros Ha Hb Hc Hd E. destruct (S a Ha) as [[? Ea]|[? Ea]], (S b Hb) as [[? Eb]|[? Eb]], (S c Hc) as [[? Ec]|[? Ec]], (S d Hd) as [[? Ed]|[? Ed]]; rewrite Ea, Eb, Ec, Ed in E; cbn in E; try discriminate E; (split; congruence || lia || (injection E; intros; lia)).
Qed.
Lemma outcome_strings D opt v v' : outcomes_clear (dL D) opt -> valid D v -> valid D v' -> outcome_string opt v = outcome_string opt v' -> readout opt v = readout opt v'.
Proof.
  intros Ho [_ Hv] [_ Hv'].
  assert (Hn : forall u c, Forall (fun x => x < dL D) u -> nth c u 0 = 0 \/ nth c u 0 < dL D).
    { intros u c Hu. destruct (Nat.lt_ge_cases c (length u)) as [Hc|Hc]; [right; exact (proj1 (Forall_forall _ _) Hu _ (nth_In _ _ Hc))|left; now apply nth_overflow]. }
    unfold outcome_string, readout. destruct Ho as [H|[H|[H1 H2]]].
    + induction opt as [|c opt IH]; [reflexivity|]. cbn [flat_map map]. rewrite !digit_string by (pose proof (Hn v c Hv); pose proof (Hn v' c Hv'); lia). cbn [app]. intro E. injection E as E1 E2. f_equal; [exact E1|now apply IH].
    + destruct opt as [|c [|c' opt]]; [reflexivity| |cbn in H; lia]. cbn [flat_map map]. rewrite !app_nil_r. intro E. f_equal. now apply decimal_inj.
    + destruct opt as [|c [|c' [|c'' opt]]]; [reflexivity| | |cbn in H2; lia].
      * cbn [flat_map map]. rewrite !app_nil_r. intro E. f_equal. now apply decimal_inj.
      * cbn [flat_map map]. rewrite !app_nil_r. intro E. pose proof (Hn v c Hv). pose proof (Hn v' c Hv'). pose proof (Hn v c' Hv). pose proof (Hn v' c' Hv').
        destruct (two_decimals (nth c v 0) (nth c' v 0) (nth c v' 0) (nth c' v' 0)) as [-> ->]; try lia; [exact E|reflexivity].
Qed.
Lemma group_by_ext {V} (f g : V -> list nat) l : (forall x, In x l -> f x = g x) -> group_by leqb f l = group_by leqb g l.
Proof.
  unfold group_by. induction l as [|x l IH] using rev_ind; intro H; [reflexivity|]. rewrite !fold_left_app. cbn [fold_left]. rewrite IH by (intros; apply H; apply in_app_iff; left; assumption).
  rewrite (H x) by (apply in_app_iff; right; left; reflexivity). reflexivity.
Qed.
Definition decimals (o : list nat) : list nat := flat_map (fun v => pad (ndigits v) v) o.
Lemma string_decimals opt vs : outcome_string opt vs = decimals (readout opt vs).
Proof. unfold outcome_string, decimals, readout. induction opt as [|c opt IH]; [reflexivity|]. cbn [flat_map map]. now rewrite IH. Qed.
(** Grouping only depends on which keys are equal. *)
Lemma group_by_inj {V} (h : list nat -> list nat) (g : V -> list nat) l : (forall x y, In x l -> In y l -> h (g x) = h (g y) -> g x = g y) ->
  group_by leqb (fun x => h (g x)) l = map (fun kv => (h (fst kv), snd kv)) (group_by leqb g l).
Proof.
  induction l as [|x l IH] using rev_ind; intro H; [reflexivity|].
  assert (Hk : forall k, In k (dkeys (group_by leqb g l)) -> h (g x) = h k -> g x = k).
  { intros k Hk E. apply (group_by_key_iff leqb leqb_spec) in Hk. destruct Hk as (y & Hy & <-). apply H; [apply in_or_app; right; now left|apply in_or_app; now left|exact E]. }
  assert (IH' : group_by leqb (fun x => h (g x)) l = map (fun kv => (h (fst kv), snd kv)) (group_by leqb g l)) by (apply IH; intros y z Hy Hz; apply H; apply in_or_app; now left). clear IH H.
  unfold group_by in *. rewrite !fold_left_app. cbn [fold_left]. rewrite IH'. clear IH'. set (d := fold_left _ l []) in *. clearbody d.
  assert (Hg : dget leqb (h (g x)) (map (fun kv => (h (fst kv), snd kv)) d) = dget leqb (g x) d).
  { induction d as [|[k v] d IH]; [reflexivity|]. cbn [map dget fst snd]. destruct (leqb (g x) k) eqn:E.
    - apply leqb_spec in E. subst k. now rewrite (proj2 (leqb_spec _ _) eq_refl).
    - destruct (leqb (h (g x)) (h k)) eqn:E'; [|apply IH; intros k' Hk'; apply Hk; now right]. apply leqb_spec in E'. apply Hk in E'; [|now left]. rewrite E', (proj2 (leqb_spec k k) eq_refl) in E. discriminate E. }
  assert (Hs : forall v, dset leqb (h (g x)) v (map (fun kv => (h (fst kv), snd kv)) d) = map (fun kv => (h (fst kv), snd kv)) (dset leqb (g x) v d)).
  { intro v. clear Hg. induction d as [|[k u] d IH]; [reflexivity|]. cbn [map dset fst snd]. destruct (leqb (g x) k) eqn:E.
    - apply leqb_spec in E. subst k. now rewrite (proj2 (leqb_spec _ _) eq_refl).
    - destruct (leqb (h (g x)) (h k)) eqn:E'; [|cbn [map fst snd]; f_equal; apply IH; intros k' Hk'; apply Hk; now right]. apply leqb_spec in E'. apply Hk in E'; [|now left]. rewrite E', (proj2 (leqb_spec k k) eq_refl) in E. discriminate E. }
  unfold dappend. rewrite Hg. destruct (dget leqb (g x) d) as [v|]; [apply Hs|]. rewrite map_app. reflexivity.
Qed.
Definition outcome_keys (D : dims) (opt : list nat) (cs : list column) : list (list nat) := dkeys (group_by leqb (fun c => readout opt (column_occ D c)) cs).
Definition selected (D : dims) (opt o : list nat) (cs : list column) : list column := filter (fun c => leqb o (readout opt (column_occ D c))) cs.
Definition measured_group (D : dims) (opt cl : list nat) (g : group) (o : list nat) : group :=
  let cs := selected D opt o (group_columns g) in
  Group (g_id g) (g_cum g * outcome_p D cs)%R
    (map (fun c => (col_id c, measured_column D cl o (outcome_p D cs) (amp_norm cs) (g_id g) (g_cum g * outcome_p D cs)%R c)) cs).
Lemma keys_selected D opt cs o : In o (outcome_keys D opt cs) <-> selected D opt o cs <> [].
Proof.
  unfold outcome_keys, selected. rewrite (group_by_key_iff leqb leqb_spec). split.
  - intros [c [Hc E]] Z. assert (Hin : In c []); [rewrite <- Z; apply filter_In; split; [exact Hc|apply leqb_spec; symmetry; exact E]|destruct Hin].
  - intro H. destruct (filter _ cs) as [|c l] eqn:E; [congruence|]. assert (Hin : In c (c :: l)) by (left; reflexivity). rewrite <- E in Hin. apply filter_In in Hin. destruct Hin as [H1 H2].
    exists c. split; [exact H1|]. apply leqb_spec in H2. symmetry. exact H2.
Qed.
Lemma measure_group_spec D opt cl g : outcomes_clear (dL D) opt -> group_ok g -> Forall (measurable D) (group_columns g) ->
  measure_group D opt cl g = Some (map (measured_group D opt cl g) (outcome_keys D opt (group_columns g))).
Proof.
  intros HL [Hnd Hok] Hm. unfold measure_group.
  rewrite (option_list_map_some _ (fun c => (column_occ D c, c))).
  2:{ intros c Hc. destruct (proj1 (Forall_forall _ _) Hm c Hc) as [_ [_ [Hne [Hl Hv]]]]. rewrite (column_values_spec D c Hl Hne). fold (column_occ D c). rewrite (proj2 (contains_values_spec D _) Hv). reflexivity. }
  rewrite (group_by_ext (fun cv : values * column => outcome_string opt (fst cv)) (fun cv => decimals (readout opt (fst cv)))) by (intros; apply string_decimals).
  rewrite (group_by_inj decimals (fun cv : values * column => readout opt (fst cv))).
  2:{ intros x y Hx Hy. apply in_map_iff in Hx. destruct Hx as [c [<- Hc]]. apply in_map_iff in Hy. destruct Hy as [c' [<- Hc']]. cbn [fst]. rewrite <- !string_decimals.
      apply (outcome_strings D opt); [exact HL| |]; [destruct (proj1 (Forall_forall _ _) Hm c Hc) as [_ [_ [_ [_ Hv]]]]|destruct (proj1 (Forall_forall _ _) Hm c' Hc') as [_ [_ [_ [_ Hv]]]]]; exact Hv. }
  rewrite map_map. cbn [snd].
  rewrite group_by_map. cbn [fst]. rewrite map_map. cbn [snd]. rewrite group_by_map_keys. fold (outcome_keys D opt (group_columns g)). rewrite map_map. cbn [snd].
  apply option_list_map_some. intros o Ho. fold (selected D opt o (group_columns g)). apply keys_selected in Ho. unfold measured_group. cbv zeta.
  assert (Hids : map col_id (group_columns g) = dkeys (g_cols g)).
  { unfold group_columns, dkeys. rewrite map_map. apply map_ext_in. intros kc Hkc. apply (proj1 (Forall_forall _ _) Hok kc Hkc). }
  apply outcome_group_spec.
  - exact Ho.
  - unfold selected. rewrite <- Hids in Hnd. clear -Hnd. induction (group_columns g) as [|c l IH]; [constructor|]. cbn [map] in Hnd. inversion Hnd as [|? ? H1 H2]; subst. cbn [filter].
    destruct (leqb o _); [|apply IH; exact H2]. cbn [map]. constructor; [|apply IH; exact H2]. intro Z. apply H1. apply in_map_iff in Z. destruct Z as [x [<- Hx]]. apply filter_In in Hx. apply in_map. apply Hx.
  - apply Forall_forall. intros c Hc. unfold selected in Hc. apply filter_In in Hc. destruct Hc as [Hc E]. apply leqb_spec in E.
    assert (Hkc : exists kc, In kc (g_cols g) /\ snd kc = c) by (unfold group_columns in Hc; apply in_map_iff in Hc; destruct Hc as [kc [E1 E2]]; exists kc; split; assumption).
    destruct Hkc as [kc [Hkc <-]]. destruct (proj1 (Forall_forall _ _) Hok kc Hkc) as [_ [K2 [K3 _]]]. split; [exact K2|]. split; [exact K3|]. exact (proj1 (Forall_forall _ _) Hm _ Hc).
  - intros c l El. assert (Hc : In c (selected D opt o (group_columns g))) by (rewrite El; now left). unfold selected in Hc. apply filter_In in Hc. destruct Hc as [_ E]. apply leqb_spec in E. symmetry. exact E.
Qed.

(** The weight of an outcome is its detection probability. *)
Lemma outcome_detected D eps ncl b opt o cs : bundle_ok D eps ncl b -> Permutation (map (view_of D) cs) (flat_map (ray_views D) (bd_rays b)) ->
  Forall (fun c => valid D (column_occ D c)) cs ->
  outcome_p D (selected D opt o cs) = outcome_detection (dL D) (dN D) (map (ray_branch D) (bd_rays b)) opt o.
Proof.
  intros Hb Hp Hv. unfold outcome_p, outcome_detection. rewrite group_by_map_keys, Rsum_map. cbn [fst snd].
  assert (Hdet : forall f, length f = dN D -> detection (map (ray_branch D) (bd_rays b)) f = column_list_probability D f (filter (fun c => leqb f (column_occ D c)) cs)).
  { intros f Hf. rewrite list_probability_spec. unfold detection.
    assert (Hfp : (0 < INR (factorials f))%R) by (apply lt_0_INR; apply factorials_pos).
    assert (Hflt : Permutation (map (view_of D) (filter (fun c => leqb f (column_occ D c)) cs)) (filter (fun v => leqb (v_occ D v) f) (flat_map (ray_views D) (bd_rays b)))).
    { assert (E : map (view_of D) (filter (fun c => leqb f (column_occ D c)) cs) = filter (fun v => leqb (v_occ D v) f) (map (view_of D) cs)).
      { clear. induction cs as [|c cs IH]; [reflexivity|]. cbn [map filter].
        assert (E : leqb f (column_occ D c) = leqb (v_occ D (view_of D c)) f) by (apply Bool.eq_iff_eq_true; rewrite !leqb_spec; unfold column_occ, v_occ; split; intro H; symmetry; exact H).
        rewrite E. destruct (leqb (v_occ D (view_of D c)) f); [cbn [map]; rewrite IH; reflexivity|exact IH]. }
      rewrite E. clear -Hp. induction Hp as [|x l l' _ IH|x y l|l l' l'' _ IH1 _ IH2].
      - constructor.
      - cbn [filter]. destruct (leqb (v_occ D x) f); [constructor; exact IH|exact IH].
      - cbn [filter]. destruct (leqb (v_occ D x) f), (leqb (v_occ D y) f); try reflexivity. constructor.
      - etransitivity; eassumption. }
    rewrite (Csum_perm _ _ _ Hflt). rewrite (Csum_ext _ _ (fun v => Csum (filter (fun v => leqb (v_occ D v) f) (flat_map (ray_views D) (bd_rays b))) (fun v' => pair_value (photon_channels f) (boson_fold 1 f) v v'))).
    2:{ intros v _. apply (Csum_perm _ _ _ Hflt). }
    rewrite (views_detection D eps ncl b f Hb Hf). rewrite Cmod_div by (intro Z; apply RtoC_inj in Z; lra). rewrite Cmod_R. rewrite Rabs_pos_eq by lra. reflexivity. }
  symmetry. set (keys := dkeys (group_by leqb (column_occ D) (selected D opt o cs))).
  assert (Hkey : forall f, In f keys <-> exists c, In c cs /\ column_occ D c = f /\ readout opt f = o).
  { intro f. unfold keys. rewrite (group_by_key_iff leqb leqb_spec). unfold selected. split.
    - intros [c [Hc E]]. apply filter_In in Hc. destruct Hc as [H1 H2]. apply leqb_spec in H2. exists c. split; [exact H1|]. split; [exact E|]. rewrite <- E. symmetry. exact H2.
    - intros [c [H1 [H2 H3]]]. exists c. split; [|exact H2]. apply filter_In. split; [exact H1|]. apply leqb_spec. rewrite H2. symmetry. exact H3. }
  rewrite (Rsum_subset leqb leqb_spec keys).
  - apply Rsum_ext. intros f Hf. apply Hkey in Hf. destruct Hf as [c [Hc [Ef Er]]]. pose proof (proj1 (Forall_forall _ _) Hv c Hc) as Hvc. cbn beta in Hvc. rewrite Ef in Hvc. rewrite (Hdet f (proj1 Hvc)).
    f_equal. unfold selected. clear -Er. induction cs as [|c cs IH]; [reflexivity|]. cbn [filter]. destruct (leqb f (column_occ D c)) eqn:E.
    + pose proof E as E'. apply leqb_spec in E'. rewrite <- E', Er. rewrite (proj2 (leqb_spec o o) eq_refl). cbn [filter]. rewrite E. f_equal. exact IH.
    + destruct (leqb o (readout opt (column_occ D c))); [|exact IH]. cbn [filter]. rewrite E. exact IH.
  - apply (group_by_nodup leqb leqb_spec).
  - apply NoDup_filter. apply tuples_nodup.
  - intros f Hf. apply Hkey in Hf. destruct Hf as [c [Hc [Ef Er]]]. apply filter_In. split; [|apply leqb_spec; exact Er]. apply tuples_in. pose proof (proj1 (Forall_forall _ _) Hv c Hc) as Hvc. cbn beta in Hvc. rewrite Ef in Hvc. exact Hvc.
  - intros f Hf Hnk. apply filter_In in Hf. destruct Hf as [Ht Hr]. apply leqb_spec in Hr. apply tuples_in in Ht. rewrite (Hdet f (proj1 Ht)).
    assert (E : filter (fun c => leqb f (column_occ D c)) cs = []).
    { destruct (filter _ cs) as [|c l] eqn:E; [reflexivity|]. exfalso. apply Hnk. apply Hkey. assert (Hin : In c (c :: l)) by (left; reflexivity). rewrite <- E in Hin. apply filter_In in Hin. destruct Hin as [H1 H2]. apply leqb_spec in H2.
      exists c. split; [exact H1|]. split; [symmetry; exact H2|exact Hr]. }
    rewrite E, list_probability_spec. cbn [map]. rewrite Csum_nil. apply Cmod_0.
Qed.

(** ** The columns of a resolved group can be measured *)
Lemma choice_nonzero D st x : lit D st -> In x (choices st) -> fst x <> RtoC 0.
Proof.
  intros [Hne [_ [_ Hc]]] Hx. unfold choices in Hx. destruct (s_comps st) as [|[n1 [a1 p1]] [|c2 cs]] eqn:E; [congruence| |].
  - destruct Hx as [<-|[]]. cbn [fst]. intro Z. apply RtoC_inj in Z. lra.
  - apply in_map_iff in Hx. destruct Hx as [d [<- Hd]]. cbn [fst]. destruct Hc as [Hc _]; [cbn; lia|]. exact (proj1 (Forall_forall _ _) Hc d Hd).
Qed.
Lemma Cmult_nonzero a b : a <> RtoC 0 -> b <> RtoC 0 -> (a * b)%C <> RtoC 0.
Proof. apply Cmult_neq_0. Qed.
Lemma assignments_nonzero ls t : Forall (fun l => forall x : C * nat, In x l -> fst x <> RtoC 0) ls -> In t (assignments ls) -> fst t <> RtoC 0.
Proof.
  revert t. induction ls as [|l r IH]; intros t H Ht; cbn [assignments] in Ht.
  - destruct Ht as [<-|[]]. cbn [fst]. intro Z. apply RtoC_inj in Z. lra.
  - apply in_flat_map in Ht. destruct Ht as [x [Hx Ht]]. apply in_map_iff in Ht. destruct Ht as [y [<- Hy]]. cbn [fst]. apply Cmult_nonzero; [exact (Forall_inv H x Hx)|apply IH; [exact (Forall_inv_tail H)|exact Hy]].
Qed.
Lemma ray_view_nonzero D eps ncl b r v : ray_ok D eps ncl b r -> In v (ray_views D r) -> v_amp v <> RtoC 0.
Proof.
  intros Hr Hv. unfold ray_views in Hv. apply in_map_iff in Hv. destruct Hv as [a [<- Ha]]. unfold v_amp; cbn [fst]. apply Cmult_nonzero; [apply Hr|].
  revert Ha. apply assignments_nonzero. apply Forall_map. apply Forall_forall. intros x Hx y Hy. unfold spectrum in Hy. apply in_map_iff in Hy. destruct Hy as [u [<- Hu]]. cbn [fst].
  apply filter_In in Hx. destruct Hx as [Hx Hb]. destruct (ray_state_facts D eps ncl b r x Hr Hx) as [_ [_ [[Hk _] _]]]. rewrite Hb in Hk. exact (choice_nonzero D _ u Hk Hu).
Qed.
Lemma ready_measurable D eps ncl b c : bundle_ok D eps ncl b -> In (view_of D c) (flat_map (ray_views D) (bd_rays b)) -> ready_column D eps ncl b c -> measurable D c /\ NamesSpec.photons (column_occ D c) < dL D.
Proof.
  intros [_ [_ Hrays]] Hv [Hne Hst]. apply in_flat_map in Hv. destruct Hv as [r [Hr Hv]]. pose proof (proj1 (Forall_forall _ _) Hrays r Hr) as Hro.
  assert (HL : NamesSpec.photons (column_occ D c) < dL D).
  { destruct (ray_view_channels D r _ Hv) as [El _]. pose proof (ray_view_bound D eps ncl b r _ Hro Hv) as Hb.
    pose proof (occupation_photons _ _ Hb) as Hp. change (occupation (dN D) (v_channels (view_of D c))) with (column_occ D c) in Hp. rewrite El in Hp.
    destruct Hro as [_ [_ [_ [HL _]]]]. rewrite ray_branch_length in HL. rewrite <- Hp in HL. exact HL. }
  split; [|exact HL]. split; [|split; [|split; [|split]]].
  - exact (ray_view_nonzero D eps ncl b r _ Hro Hv).
  - destruct (ray_view_channels D r _ Hv) as [_ [_ E]]. unfold v_boson, view_of in E; cbn [fst snd] in E. rewrite E. apply Hro.
  - exact Hne.
  - revert Hst. apply Forall_impl. intros s [[vs [a [p [H1 [_ H2]]]]] _]. rewrite (first_values_one D s vs a p H1 H2). exact (proj1 H1).
  - split; [apply occupation_length|]. clear -HL. revert HL. generalize (dL D). intros L HL. induction (column_occ D c) as [|x l IH]; [constructor|].
    cbn [NamesSpec.photons] in HL. constructor; [lia|apply IH; lia].
Qed.

(** ** The bundle after the measurement *)
Definition photon_state_of (D : dims) (s : state) : bool := 0 <? NamesSpec.photons (first_values D s).
Definition timing_of (s : state) : R * R := or_else (photon_of s) (0%R, 1%R).
Definition measured_ray (D : dims) (cl o : list nat) (P S : R) (n : nat) (w : R) (c : column) : ray :=
  Ray (col_id c) (col_amp c / RtoC (sqrt S))%C (new_boson D c)
    (map (fun s => (photon_state_of D s, stamp (col_id c) (col_amp c / RtoC (sqrt S))%C (new_boson D c) n w (record_outcome cl o P s), timing_of s)) (col_states c)).
Definition measured_bundle (D : dims) (opt cl : list nat) (i : ident) (g : group) (n : nat) (o : list nat) : bundle :=
  let cs := selected D opt o (group_columns g) in
  Bundle i n (g_cum g * outcome_p D cs)%R (map (measured_ray D cl o (outcome_p D cs) (amp_norm cs) n (g_cum g * outcome_p D cs)%R) cs).
Lemma measured_bundle_states D opt cl i g n o :
  group_states_of (group_with_id (measured_group D opt cl g o) n) = bundle_states (measured_bundle D opt cl i g n o).
Proof.
  unfold measured_group, measured_bundle, group_with_id, group_states_of, bundle_states, group_columns; cbv zeta; cbn [g_cols g_cum bd_rays].
  fold (group_columns g). set (cs := selected D opt o (group_columns g)). clearbody cs. rewrite !map_map. cbn [snd]. set (P := outcome_p D cs). set (S := amp_norm cs). clearbody P S.
  induction cs as [|c cs IH]; [reflexivity|]. cbn [map flat_map]. rewrite IH. f_equal. clear IH. unfold measured_column. rewrite make_group_again. unfold make_column; cbn [col_states measured_ray ry_states]. rewrite !map_map. reflexivity.
Qed.
Lemma small_kind D s : 1 <= dN D -> small_state D s -> if photon_state_of D s then lit D s else dark D s.
Proof.
  intros HN [vs [a [p [Hv [Hp Hs]]]]]. unfold photon_state_of. rewrite (first_values_one D s vs a p Hv Hs). destruct (0 <? NamesSpec.photons vs) eqn:E.
  - apply Nat.ltb_lt in E. unfold lit. rewrite Hs. cbn [map fst length]. split; [discriminate|]. split; [constructor; [intros []|constructor]|]. split; [|intro Z; lia].
    intros nm [<-|[]].
    assert (Hx : exists c, c < dN D /\ vs = one_photon (dN D) c).
    { destruct Hv as [Hl _]. rewrite <- Hl. clear -E Hp. 
      assert (G : exists c, c < length vs /\ photon_channels vs = [c]).
      { assert (H : NamesSpec.photons vs = 1) by lia. pose proof (pc_length 0 vs) as Hl. rewrite H in Hl. rewrite photon_channels_pc. destruct (pc 0 vs) as [|c [|d l]] eqn:Epc; try discriminate.
        assert (Hin : In c (pc 0 vs)) by (rewrite Epc; left; reflexivity). apply pc_in in Hin. exists c. split; [lia|reflexivity]. }
      destruct G as [c [H1 H2]]. exists c. split; [exact H1|]. rewrite <- one_photon_spec by exact H1. rewrite unit_occupation by exact H1. rewrite <- H2. symmetry. apply occupation_channels. reflexivity. }
    destruct Hx as [c [Hc ->]]. exists c. split; [exact Hc|reflexivity].
  - apply Nat.ltb_ge in E. exists (a, p). rewrite Hs. do 2 f_equal. f_equal. assert (Hz : photon_channels vs = []) by (apply length_zero_iff_nil; rewrite photon_channels_pc, pc_length; lia).
    rewrite <- (occupation_channels vs (dN D) (proj1 Hv)), Hz. apply (nth_ext_0 _ _ (dN D)); [apply occupation_length|apply repeat_length|]. intros i Hi. rewrite occupation_nth by exact Hi. rewrite nth_repeat_0. reflexivity.
Qed.
Lemma frame_fields a b : frame a = frame b -> s_init a = s_init b /\ s_classical a = s_classical b /\ s_results a = s_results b.
Proof. intro H. split; [exact (f_equal s_init H)|]. split; [exact (f_equal s_classical H)|exact (f_equal s_results H)]. Qed.
Lemma record_check eps ncl cl o P s : check_state eps ncl s = true -> check_state eps ncl (record_outcome cl o P s) = true.
Proof.
  rewrite !check_state_iff. unfold record_outcome; cbn [s_cum s_comps s_classical]. intros [H1 [H2 H3]]. split; [exact H1|]. split; [exact H2|]. rewrite write_classical_length. exact H3.
Qed.
Lemma bundle_label_states D eps ncl b x : bundle_ok D eps ncl b -> In x (bundle_states b) -> s_init x = bd_label b /\ length (s_classical x) = ncl.
Proof.
  intros [_ [_ Hr]] Hx. unfold bundle_states in Hx. apply in_flat_map in Hx. destruct Hx as [r [Hr1 Hx]]. apply in_map_iff in Hx. destruct Hx as [y [<- Hy]].
  destruct (ray_state_facts D eps ncl b r y (proj1 (Forall_forall _ _) Hr r Hr1) Hy) as [H1 [H2 _]]. split; [exact H2|]. apply check_state_iff in H1. apply H1.
Qed.
Lemma ready_lit_length D c : Forall (small_state D) (col_states c) -> length (filter (photon_state_of D) (col_states c)) = length (v_channels (view_of D c)).
Proof.
  intro H. unfold v_channels, v_photons, view_of, list_of_photons; cbn [snd]. induction H as [|s l [vs [a [p [Hv [Hp Hs]]]]] _ IH]; [reflexivity|]. cbn [filter flat_map]. rewrite map_app, app_length, <- IH. clear IH.
  rewrite !map_length. unfold photon_state_of. rewrite (first_values_one D s vs a p Hv Hs). rewrite photon_channels_pc, pc_length. destruct (NamesSpec.photons vs) as [|[|k]]; [reflexivity|reflexivity|lia].
Qed.
Lemma filter_map {A B} (f : A -> B) (p : B -> bool) l : filter p (map f l) = map f (filter (fun x => p (f x)) l).
Proof. induction l as [|x l IH]; [reflexivity|]. cbn [map filter]. rewrite IH. destruct (p (f x)); reflexivity. Qed.
Lemma measured_ray_ok D eps ncl b i opt cl o g n c : 1 <= dN D -> bundle_ok D eps ncl b -> bd_label b = i ->
  In c (selected D opt o (group_columns g)) -> NamesSpec.photons (column_occ D c) < dL D -> ready_column D eps ncl b c -> Forall (measurable D) (selected D opt o (group_columns g)) ->
  ray_ok D eps ncl (measured_bundle D opt cl i g n o) (measured_ray D cl o (outcome_p D (selected D opt o (group_columns g))) (amp_norm (selected D opt o (group_columns g))) n (g_cum g * outcome_p D (selected D opt o (group_columns g)))%R c).
Proof.
  intros HN Hb Hi Hc Hph [Hne Hst] Hmall. set (cs := selected D opt o (group_columns g)) in *. pose proof (proj1 (Forall_forall _ _) Hmall c Hc) as [Ha [Hbo [_ [Hl Hv]]]].
  assert (HS : (0 < amp_norm cs)%R).
  { unfold amp_norm. apply Rsum_pos; [intro Z; rewrite Z in Hc; destruct Hc|]. intros d Hd. apply Cnorm2_pos. apply (proj1 (Forall_forall _ _) Hmall d Hd). }
  assert (Hsq : RtoC (sqrt (amp_norm cs)) <> RtoC 0) by (intro Z; apply RtoC_inj in Z; pose proof (sqrt_lt_R0 _ HS); lra).
  assert (HX : (0 < self_overlap D c)%R) by (apply self_overlap_pos; exact Hl).
  assert (Hf : (0 < INR (factorials (column_occ D c)))%R) by (apply lt_0_INR; apply factorials_pos).
  split; [|split; [|split; [|split]]].
  - cbn [measured_ray ry_amplitude]. intro Z. apply Ha. replace (col_amp c) with (col_amp c / RtoC (sqrt (amp_norm cs)) * RtoC (sqrt (amp_norm cs)))%C by (field; exact Hsq). rewrite Z. ring.
  - cbn [measured_ray ry_boson]. apply sqrt_lt_R0. apply Rdiv_lt_0_compat; assumption.
  - cbn [measured_ray ry_states]. intro Z. apply map_eq_nil in Z. exact (Hne Z).
  - rewrite ray_branch_length. unfold lit_states, measured_ray; cbn [ry_states]. rewrite filter_map, map_length. rewrite (filter_ext _ (photon_state_of D)) by reflexivity.
    rewrite (ready_lit_length D c) by (revert Hst; apply Forall_impl; intros s Hs; apply Hs).
    pose proof (column_occ_channels D c Hl) as Hp. rewrite (Permutation_length Hp), photon_channels_pc, pc_length. exact Hph.
  - cbn [measured_ray ry_states]. apply Forall_map. revert Hst. apply Forall_impl. intros s [S1 [S2 [S3 [[tm S4] [x [S5 S6]]]]]]. cbn [fst snd].
    split; [|split; [|split; [|split]]].
    + exact (record_check eps ncl cl o _ s S2).
    + exact S3.
    + cbn [measured_bundle bd_label]. cbv zeta. cbn [bd_label]. rewrite <- Hi. destruct (frame_fields s x S6) as [E _]. destruct (bundle_label_states D eps ncl b x Hb S5) as [E' _]. rewrite <- E', <- E. reflexivity.
    + exact (small_kind D s HN S1).
    + pose proof (resolution_stamp (col_id c) (col_amp c / RtoC (sqrt (amp_norm cs)))%C (new_boson D c) n (g_cum g * outcome_p D cs)%R (record_outcome cl o (outcome_p D cs) s)) as Hr.
      unfold resolution_of in Hr. unfold measured_bundle; cbv zeta; cbn [ry_number ry_amplitude ry_boson bd_group bd_weight]. fold cs.
      destruct (dget aux_eqb AuxPhotonResolution _) as [[| |]|]; try discriminate. injection Hr as Hr. rewrite Hr. unfold timing_of. change (photon_of (record_outcome cl o (outcome_p D cs) s)) with (photon_of s). rewrite S4. reflexivity.
Qed.

(** ** What can be found after the measurement *)
Lemma assignments_single {A} (h : A -> nat) l : assignments (map (fun x => [(RtoC 1, h x)]) l) = [(RtoC 1, map h l)].
Proof.
  induction l as [|x l IH]; [reflexivity|]. cbn [map assignments]. rewrite IH. cbn [flat_map map app fst snd]. do 2 f_equal. apply C_eq; cbn; ring.
Qed.
Lemma small_photons D l : 1 <= dN D -> Forall (small_state D) l ->
  flat_map (fun s => map (fun ch => (ch, photon_of s)) (photon_channels (first_values D s))) l
  = map (fun s => (hd 0 (photon_channels (first_values D s)), photon_of s)) (filter (photon_state_of D) l).
Proof.
  intros HN H. induction H as [|s l [vs [a [p [Hv [Hp Hs]]]]] _ IH]; [reflexivity|]. cbn [flat_map filter]. rewrite IH. clear IH.
  assert (Ek : photon_state_of D s = (0 <? NamesSpec.photons vs)) by (unfold photon_state_of; rewrite (first_values_one D s vs a p Hv Hs); reflexivity).
  rewrite Ek, (first_values_one D s vs a p Hv Hs). pose proof (pc_length 0 vs) as Hl. rewrite <- photon_channels_pc in Hl.
  destruct (photon_channels vs) as [|c [|d r]] eqn:E; cbn [length] in Hl.
  - rewrite <- Hl. reflexivity.
  - rewrite <- Hl. change (0 <? 1) with true. cbv iota. cbn [map app]. rewrite (first_values_one D s vs a p Hv Hs), E. reflexivity.
  - lia.
Qed.
Lemma measured_ray_view D eps ncl b cl o P S n w c : 1 <= dN D -> ready_column D eps ncl b c ->
  ray_views D (measured_ray D cl o P S n w c) = [((col_amp c / RtoC (sqrt S) * RtoC 1)%C, new_boson D c, list_of_photons D c)].
Proof.
  intros HN [_ Hst]. unfold ray_views, measured_ray, lit_states; cbn [ry_amplitude ry_boson ry_states]. rewrite filter_map. rewrite (filter_ext _ (photon_state_of D)) by reflexivity. rewrite !map_map. cbn [snd].
  set (l := filter (photon_state_of D) (col_states c)).
  assert (Hl : forall s, In s l -> small_state D s /\ exists t, photon_of s = Some t).
  { intros s Hs. unfold l in Hs. apply filter_In in Hs. destruct (proj1 (Forall_forall _ _) Hst s (proj1 Hs)) as [H1 [_ [_ [H2 _]]]]. split; assumption. }
  assert (E1 : map (fun s => spectrum D (sp_state (photon_state_of D s, stamp (col_id c) (col_amp c / RtoC (sqrt S))%C (new_boson D c) n w (record_outcome cl o P s), timing_of s))) l
             = map (fun s => [(RtoC 1, hd 0 (photon_channels (first_values D s)))]) l).
  { apply map_ext_in. intros s Hs. destruct (Hl s Hs) as [[vs [a [p [Hv [_ Es]]]]] _]. unfold spectrum, sp_state; cbn [fst snd]. unfold choices.
    change (s_comps (stamp (col_id c) (col_amp c / RtoC (sqrt S))%C (new_boson D c) n w (record_outcome cl o P s))) with (s_comps s). rewrite Es. cbn [map fst snd]. unfold core_channel. rewrite core_values_of. reflexivity. }
  rewrite E1, assignments_single. cbn [map fst snd]. f_equal. f_equal. unfold list_of_photons. rewrite small_photons; [|exact HN|revert Hst; apply Forall_impl; intros s Hs; apply Hs]. fold l.
  clear -Hl. induction l as [|s l IH]; [reflexivity|]. cbn [map combine]. rewrite IH by (intros; apply Hl; right; assumption). f_equal. f_equal. destruct (Hl s (or_introl eq_refl)) as [_ [t Ht]]. unfold timing_of. rewrite Ht. reflexivity.
Qed.
Lemma measured_found D eps ncl b' opt o cs f (F : column -> ray) :
  bundle_ok D eps ncl b' -> bd_rays b' = map F cs -> (forall c, In c cs -> exists v, ray_views D (F c) = [v] /\ v_occ D v = column_occ D c /\ readout opt (column_occ D c) = o) ->
  length f = dN D -> detection (map (ray_branch D) (bd_rays b')) f <> 0%R -> readout opt f = o.
Proof.
  intros Hb E H Hf Hd. pose proof (views_detection D eps ncl b' f Hb Hf) as Hv. destruct (list_eq_dec Nat.eq_dec (readout opt f) o) as [Y|N]; [exact Y|]. exfalso. apply Hd.
  assert (Hnil : filter (fun v => leqb (v_occ D v) f) (flat_map (ray_views D) (bd_rays b')) = []).
  { destruct (filter _ _) as [|v l] eqn:Ev; [reflexivity|]. exfalso. apply N. assert (Hin : In v (v :: l)) by (left; reflexivity). rewrite <- Ev in Hin. apply filter_In in Hin. destruct Hin as [H1 H2].
    apply leqb_spec in H2. rewrite E in H1. apply in_flat_map in H1. destruct H1 as [r [Hr Hv1]]. apply in_map_iff in Hr. destruct Hr as [c [<- Hc]]. destruct (H c Hc) as [v' [K1 [K2 K3]]]. rewrite K1 in Hv1. destruct Hv1 as [<-|[]]. rewrite <- H2, K2. exact K3. }
  rewrite Hnil, Csum_nil in Hv. unfold detection.
  assert (Hfp : (0 < INR (factorials f))%R) by (apply lt_0_INR; apply factorials_pos).
  assert (Hz : interference (map (ray_branch D) (bd_rays b')) f = RtoC 0).
  { replace (interference (map (ray_branch D) (bd_rays b')) f) with (interference (map (ray_branch D) (bd_rays b')) f / RtoC (INR (factorials f)) * RtoC (INR (factorials f)))%C; [rewrite <- Hv; ring|].
    field. intro Z. apply RtoC_inj in Z. lra. }
  rewrite Hz, Cmod_0. unfold Rdiv. ring.
Qed.

(** ** Collections *)
Lemma Rsum_pick keys o (F : list nat -> R) : NoDup keys -> (~ In o keys -> F o = 0%R) -> Rsum keys (fun k => if leqb k o then F k else 0%R) = F o.
Proof.
  induction 1 as [|k keys Hk _ IH]; intro H; [symmetry; apply H; intros []|]. rewrite Rsum_cons. destruct (leqb k o) eqn:E.
  - apply leqb_spec in E. subst k. rewrite Rsum_zero; [ring|]. intros k Hin. destruct (leqb k o) eqn:E; [|reflexivity]. apply leqb_spec in E. subst k. contradiction.
  - rewrite IH; [ring|]. intro Z. apply H. intros [Y|Y]; [subst k; rewrite (proj2 (leqb_spec o o) eq_refl) in E; discriminate|contradiction].
Qed.
Definition resolves (D : dims) (eps : R) (ncl : nat) (b : bundle) (g : group) : Prop :=
  group_ok g /\ g_id g = bd_group b /\ g_cum g = bd_weight b /\
  Permutation (map (view_of D) (group_columns g)) (flat_map (ray_views D) (bd_rays b)) /\ Forall (ready_column D eps ncl b) (group_columns g).
Lemma bundles_resolved D eps ncl bs : 1 <= dN D -> (0 <= eps)%R -> Forall (bundle_ok D eps ncl) bs ->
  exists gs0 gs, split_groups eps ncl (map bundle_group bs) = Some gs0 /\ single_photon_groups D eps ncl gs0 = Some gs /\ Forall2 (resolves D eps ncl) bs gs.
Proof.
  intros HN He H. induction H as [|b bs Hb _ IH]; [exists [], []; split; [reflexivity|split; [reflexivity|constructor]]|].
  destruct IH as [gs0 [gs [E1 [E2 HF]]]]. destruct (bundle_resolved D eps ncl b HN He Hb) as [g0 [g [F1 [F2 [F3 [F4 [F5 [F6 F7]]]]]]]].
  exists (g0 :: gs0), (g :: gs). unfold split_groups, single_photon_groups in *. cbn [map option_list]. rewrite F1, E1, F2, E2. split; [reflexivity|]. split; [reflexivity|]. constructor; [|exact HF].
  split; [exact F3|]. split; [exact F4|]. split; [exact F5|]. split; assumption.
Qed.
Lemma resolves_measurable D eps ncl b g : bundle_ok D eps ncl b -> resolves D eps ncl b g ->
  Forall (fun c => measurable D c /\ NamesSpec.photons (column_occ D c) < dL D) (group_columns g).
Proof.
  intros Hb [_ [_ [_ [Hp Hr]]]]. apply Forall_forall. intros c Hc. apply (ready_measurable D eps ncl b c Hb); [|exact (proj1 (Forall_forall _ _) Hr c Hc)].
  apply (Permutation_in _ Hp). apply in_map. exact Hc.
Qed.
Lemma bundle_group_states b : group_states_of (bundle_group b) = bundle_states b.
Proof.
  unfold group_states_of, group_columns, bundle_group, bundle_states; cbn [g_cols]. rewrite map_map. cbn [snd]. induction (bd_rays b) as [|r l IH]; [reflexivity|]. cbn [map flat_map]. rewrite IH. reflexivity.
Qed.
Lemma measured_bundle_ok D eps ncl b g opt cl i n o : 1 <= dN D -> bundle_ok D eps ncl b -> resolves D eps ncl b g -> bd_label b = i ->
  In o (outcome_keys D opt (group_columns g)) -> bundle_ok D eps ncl (measured_bundle D opt cl i g n o).
Proof.
  intros HN Hb Hres Hi Ho. pose proof (resolves_measurable D eps ncl b g Hb Hres) as Hm. destruct Hres as [[Hnd Hok] [_ [_ [_ Hr]]]]. apply keys_selected in Ho. split; [|split].
  - unfold measured_bundle; cbv zeta; cbn [bd_rays]. intro Z. apply map_eq_nil in Z. exact (Ho Z).
  - unfold measured_bundle; cbv zeta; cbn [bd_rays]. rewrite map_map. cbn [measured_ray ry_number].
    assert (Hids : map col_id (group_columns g) = dkeys (g_cols g)).
    { unfold group_columns, dkeys. rewrite map_map. apply map_ext_in. intros kc Hkc. apply (proj1 (Forall_forall _ _) Hok kc Hkc). }
    rewrite <- Hids in Hnd. clear -Hnd. unfold selected. induction (group_columns g) as [|c l IH]; [constructor|]. cbn [map] in Hnd. inversion Hnd as [|? ? H1 H2]; subst. cbn [filter].
    destruct (leqb o _); [|apply IH; exact H2]. cbn [map]. constructor; [|apply IH; exact H2]. intro Z. apply H1. apply in_map_iff in Z. destruct Z as [x [<- Hx]]. apply filter_In in Hx. apply in_map. apply Hx.
  - unfold measured_bundle at 2; cbv zeta; cbn [bd_rays]. apply Forall_map. apply Forall_forall. intros c Hc. pose proof Hc as Hc'. unfold selected in Hc'. apply filter_In in Hc'. destruct Hc' as [Hc' _].
    apply (measured_ray_ok D eps ncl b i opt cl o g n c HN Hb Hi Hc); [apply (proj1 (Forall_forall _ _) Hm c Hc')|exact (proj1 (Forall_forall _ _) Hr c Hc')|].
    apply Forall_forall. intros d Hd. unfold selected in Hd. apply filter_In in Hd. apply (proj1 (Forall_forall _ _) Hm d (proj1 Hd)).
Qed.
Lemma measured_after D eps ncl b g opt cl n o : 1 <= dN D -> bundle_ok D eps ncl b -> resolves D eps ncl b g -> NoDup cl -> Forall (fun c => c < ncl) cl ->
  In o (outcome_keys D opt (group_columns g)) -> after_outcome D opt cl o b (measured_bundle D opt cl (bd_label b) g n o).
Proof.
  intros HN Hb Hres Hcl Hcl2 Ho. pose proof (resolves_measurable D eps ncl b g Hb Hres) as Hm. pose proof (measured_bundle_ok D eps ncl b g opt cl (bd_label b) n o HN Hb Hres eq_refl Ho) as Hbok.
  destruct Hres as [Hgok [_ [Hw [Hp Hr]]]].
  assert (HP : outcome_p D (selected D opt o (group_columns g)) = outcome_detection (dL D) (dN D) (map (ray_branch D) (bd_rays b)) opt o).
  { apply (outcome_detected D eps ncl b opt o (group_columns g) Hb Hp). revert Hm. apply Forall_impl. intros c [[_ [_ [_ [_ Hv]]]] _]. exact Hv. }
  split.
  - reflexivity.
  - unfold measured_bundle; cbv zeta; cbn [bd_weight]. rewrite HP, Hw. reflexivity.
  - intros st Hst. unfold measured_bundle, bundle_states in Hst; cbv zeta in Hst; cbn [bd_rays] in Hst. apply in_flat_map in Hst. destruct Hst as [r [Hr1 Hst]]. apply in_map_iff in Hr1. destruct Hr1 as [c [<- Hc]].
    cbn [measured_ray ry_states] in Hst. rewrite map_map in Hst. cbn [fst snd] in Hst. apply in_map_iff in Hst. destruct Hst as [s [<- Hs]]. unfold selected in Hc. apply filter_In in Hc. destruct Hc as [Hc _].
    destruct (proj1 (Forall_forall _ _) Hr c Hc) as [_ Hst]. destruct (proj1 (Forall_forall _ _) Hst s Hs) as [_ [Hck [_ [_ [x [Hx Hf]]]]]]. exists x. split; [exact Hx|].
    destruct (frame_fields s x Hf) as [_ [Ec Er]]. destruct (bundle_label_states D eps ncl b x Hb Hx) as [_ Hlen].
    split.
    + rewrite <- Ec. apply write_classical_written; [exact Hcl|]. intros k Hk. rewrite Ec, Hlen. exact (proj1 (Forall_forall _ _) Hcl2 k Hk).
    + rewrite <- Er, <- HP. reflexivity.
  - intros f Hf Hd. 
    apply (measured_found D eps ncl (measured_bundle D opt cl (bd_label b) g n o) opt o (selected D opt o (group_columns g)) f
            (measured_ray D cl o (outcome_p D (selected D opt o (group_columns g))) (amp_norm (selected D opt o (group_columns g))) n (g_cum g * outcome_p D (selected D opt o (group_columns g)))%R) Hbok eq_refl); [|exact Hf|exact Hd].
    intros c Hc. unfold selected in Hc. apply filter_In in Hc. destruct Hc as [Hc Ho']. apply leqb_spec in Ho'. eexists. split; [apply (measured_ray_view D eps ncl b); [exact HN|exact (proj1 (Forall_forall _ _) Hr c Hc)]|]. split; [reflexivity|symmetry; exact Ho'].
  - apply keys_selected in Ho. destruct (selected D opt o (group_columns g)) as [|c l] eqn:Es; [congruence|]. assert (Hc : In c (selected D opt o (group_columns g))) by (rewrite Es; now left).
    unfold selected in Hc. apply filter_In in Hc. destruct Hc as [Hc Ho']. apply leqb_spec in Ho'. exists (column_occ D c). split; [|now symmetry].
    destruct (proj1 (Forall_forall _ _) Hm c Hc) as [(_ & _ & _ & _ & Hv) _]. apply tuples_in. exact Hv.
  - unfold measured_bundle; cbv zeta; cbn [bd_rays]. rewrite Rsum_map. cbn [measured_ray ry_amplitude]. apply keys_selected in Ho.
    set (cs := selected D opt o (group_columns g)) in *.
    assert (HS : (0 < amp_norm cs)%R).
    { unfold amp_norm. apply Rsum_pos; [exact Ho|]. intros c Hc. apply Cnorm2_pos. unfold cs, selected in Hc. apply filter_In in Hc. destruct (proj1 (Forall_forall _ _) Hm c (proj1 Hc)) as [(K & _) _]. exact K. }
    rewrite (Rsum_ext _ _ (fun c => / amp_norm cs * Cnorm2 (col_amp c)))%R.
    + rewrite Rsum_scal_l. fold (amp_norm cs). apply Rinv_l. lra.
    + intros c _. unfold Cdiv. rewrite Cnorm2_mult, Rmult_comm. f_equal.
      assert (Hq : sqrt (amp_norm cs) <> 0%R) by (apply Rgt_not_eq; apply sqrt_lt_R0; exact HS).
      rewrite <- RtoC_inv by exact Hq. unfold Cnorm2, RtoC; cbn [fst snd]. rewrite <- (sqrt_sqrt (amp_norm cs)) at 3 by lra. field. exact Hq.
Qed.
Lemma forall2_combine {A B} (P : A -> B -> Prop) l l' : Forall2 P l l' -> forall x, In x (combine l l') -> P (fst x) (snd x) /\ In (fst x) l.
Proof.
  induction 1 as [|a b l l' H _ IH]; intros x Hx; [destruct Hx|]. cbn [combine] in Hx. destruct Hx as [<-|Hx]; [split; [exact H|left; reflexivity]|]. destruct (IH x Hx) as [H1 H2]. split; [exact H1|right; exact H2].
Qed.
Lemma forall2_len {A B} (P : A -> B -> Prop) l l' : Forall2 P l l' -> length l = length l'.
Proof. induction 1; cbn; congruence. Qed.
(** The measurement, once the groups have been split into columns of single photons. *)
Lemma measured_groups rnd opt cl cs bs2 gs : 1 <= dN (co_D cs) -> outcomes_clear (dL (co_D cs)) opt ->
  Forall2 (resolves (co_D cs) (co_eps cs) (co_ncl cs)) bs2 gs -> Forall (bundle_ok (co_D cs) (co_eps cs) (co_ncl cs)) bs2 ->
  Forall (fun it => check_state (co_eps cs) (co_ncl cs) (snd it) = true) (co_items cs) ->
  let T := flat_map (fun bg => map (pair bg) (outcome_keys (co_D cs) opt (group_columns (snd bg)))) (combine bs2 gs) in
  exists cs', measure_all_groups rnd opt cl cs gs = Some cs' /\ NoDup (map fst (co_items cs')) /\
    co_D cs' = co_D cs /\ co_eps cs' = co_eps cs /\ co_ncl cs' = co_ncl cs /\
    (forall x, In x T -> In (fst (fst x)) bs2 /\ resolves (co_D cs) (co_eps cs) (co_ncl cs) (fst (fst x)) (snd (fst x)) /\ In (snd x) (outcome_keys (co_D cs) opt (group_columns (snd (fst x))))) /\
    carries cs' (map (fun kx => measured_bundle (co_D cs) opt cl (bd_label (fst (fst (snd kx)))) (snd (fst (snd kx))) (fst kx) (snd (snd kx))) (combine (seq 0 (length T)) T)).
Proof.
  intros HN HL HF Hok2 Hck T. set (D := co_D cs) in *. set (eps := co_eps cs) in *. set (ncl := co_ncl cs) in *.
  assert (Hmg : forall g, In g gs -> measure_group D opt cl g = Some (map (measured_group D opt cl g) (outcome_keys D opt (group_columns g)))).
  { intros g Hg. destruct (Forall2_in_r_ex _ _ _ _ HF Hg) as [b [Hb Hres]]. apply measure_group_spec; [exact HL|apply Hres|].
    pose proof (resolves_measurable D eps ncl b g (proj1 (Forall_forall _ _) Hok2 b Hb) Hres) as Hm. revert Hm. apply Forall_impl. intros c Hc. apply Hc. }
  assert (HT : concat (map (fun g => map (measured_group D opt cl g) (outcome_keys D opt (group_columns g))) gs) = map (fun x => measured_group D opt cl (snd (fst x)) (snd x)) T).
  { unfold T. pose proof (forall2_len _ _ _ HF) as Hlen. clear -Hlen. revert gs Hlen. induction bs2 as [|b bs2 IH]; intros [|g gs] Hlen; try discriminate; [reflexivity|].
    cbn [map concat combine flat_map snd]. rewrite map_app, map_map. cbn [fst snd]. rewrite IH by (injection Hlen; auto). reflexivity. }
  assert (HTin : forall x, In x T -> In (fst (fst x)) bs2 /\ resolves D eps ncl (fst (fst x)) (snd (fst x)) /\ In (snd x) (outcome_keys D opt (group_columns (snd (fst x))))).
  { intros x Hx. unfold T in Hx. apply in_flat_map in Hx. destruct Hx as [bg [Hbg Hx]]. apply in_map_iff in Hx. destruct Hx as [o [<- Ho]]. cbn [fst snd]. destruct (forall2_combine _ _ _ HF bg Hbg) as [H1 H2]. split; [exact H2|]. split; [exact H1|exact Ho]. }
  set (bos := map (fun kx : nat * (bundle * group * list nat) => measured_bundle D opt cl (bd_label (fst (fst (snd kx)))) (snd (fst (snd kx))) (fst kx) (snd (snd kx))) (combine (seq 0 (length T)) T)).
  set (sts := flat_map bundle_states bos).
  exists (with_items cs (fst (add_states_random rnd 0 sts []))). split; [|split; [|split; [reflexivity|split; [reflexivity|split; [reflexivity|split]]]]].
  - unfold measure_all_groups. fold D eps ncl. rewrite (option_list_map_some _ (fun g => map (measured_group D opt cl g) (outcome_keys D opt (group_columns g)))) by exact Hmg.
    rewrite HT. rewrite map_length. unfold collect, copy_collection. rewrite copy_items_ok by exact Hck. cbn [option_map].
    assert (Es : forall U k, flat_map group_states_of (map (fun kg : nat * group => group_with_id (snd kg) (fst kg)) (combine (seq k (length U)) (map (fun x : bundle * group * list nat => measured_group D opt cl (snd (fst x)) (snd x)) U)))
      = flat_map bundle_states (map (fun kx : nat * (bundle * group * list nat) => measured_bundle D opt cl (bd_label (fst (fst (snd kx)))) (snd (fst (snd kx))) (fst kx) (snd (snd kx))) (combine (seq k (length U)) U))).
    { induction U as [|x U IH]; intro k; [reflexivity|]. cbn [length seq map combine flat_map fst snd]. rewrite IH. f_equal. apply measured_bundle_states. }
    rewrite Es. reflexivity.
  - cbn [with_items co_items]. apply states_random_nodup. constructor.
  - exact HTin.
  - split; [|split].
    + cbn [with_items co_items]. rewrite states_random_map. reflexivity.
    + unfold bos. rewrite map_map. unfold measured_bundle; cbv zeta; cbn [bd_label bd_group].
      apply (NoDup_map_inv snd). rewrite map_map. cbn [snd].
      assert (E : map (fun kx : nat * (bundle * group * list nat) => fst kx) (combine (seq 0 (length T)) T) = seq 0 (length T)) by (apply map_fst_combine'; apply seq_length).
      rewrite E. apply seq_NoDup.
    + unfold bos. apply Forall_map. apply Forall_forall. intros [k x] Hkx. cbn [fst snd with_items co_D co_eps co_ncl]. apply in_combine_r in Hkx. destruct (HTin x Hkx) as [H1 [H2 H3]].
      apply (measured_bundle_ok D eps ncl (fst (fst x)) (snd (fst x)) opt cl _ k (snd x) HN (proj1 (Forall_forall _ _) Hok2 _ H1) H2 eq_refl H3).
Qed.
(** A collection that carries groups is read and split as they say. *)
Lemma carried_resolved cs bs : 1 <= dN (co_D cs) -> (0 <= co_eps cs)%R -> carries cs bs ->
  exists bs2 gs, Permutation bs bs2 /\ resolved_groups cs = Some gs /\ Forall2 (resolves (co_D cs) (co_eps cs) (co_ncl cs)) bs2 gs /\
    Forall (bundle_ok (co_D cs) (co_eps cs) (co_ncl cs)) bs2 /\ Forall (fun it => check_state (co_eps cs) (co_ncl cs) (snd it) = true) (co_items cs).
Proof.
  intros HN He [Hst [Hnd Hok]]. set (D := co_D cs) in *. set (eps := co_eps cs) in *. set (ncl := co_ncl cs) in *.
  set (igs := map (fun b => (bd_label b, bundle_group b)) bs).
  destruct (regroup (co_items cs) igs) as [cc [E1 Hp]].
  { rewrite Hst. unfold igs. rewrite flat_map_concat_map, flat_map_concat_map, map_map. cbn [snd]. f_equal. apply map_ext. intro b. symmetry. apply bundle_group_states. }
  { unfold igs. apply Forall_map. revert Hok. apply Forall_impl. intros b Hb. apply (bundle_readable D eps ncl b Hb). }
  { unfold igs. rewrite map_map. exact Hnd. }
  unfold igs in Hp. rewrite map_map in Hp. cbn [fst snd] in Hp. apply Permutation_sym in Hp. apply Permutation_sym in Hp. destruct (Permutation_map_inv _ _ Hp) as [bs2 [El Hp2]].
  assert (Hag : all_groups cc = map bundle_group bs2) by (rewrite all_groups_labelled, El, map_map; reflexivity).
  assert (Hok2 : Forall (bundle_ok D eps ncl) bs2) by (apply Forall_forall; intros b Hb; apply (proj1 (Forall_forall _ _) Hok); apply (Permutation_in _ (Permutation_sym Hp2)); exact Hb).
  destruct (bundles_resolved D eps ncl bs2 HN He Hok2) as [gs0 [gs [E2 [E3 HF]]]].
  assert (Hck : Forall (fun it => check_state eps ncl (snd it) = true) (co_items cs)).
  { apply Forall_forall. intros it Hit. assert (Hin : In (snd it) (flat_map bundle_states bs)) by (rewrite <- Hst; apply in_map; exact Hit). apply in_flat_map in Hin. destruct Hin as [b [Hb Hin]].
    destruct (proj1 (Forall_forall _ _) Hok b Hb) as [_ [_ Hr]]. unfold bundle_states in Hin. apply in_flat_map in Hin. destruct Hin as [r [Hr1 Hin]]. apply in_map_iff in Hin. destruct Hin as [y [Ey Hy]]. rewrite <- Ey.
    apply (ray_state_facts D eps ncl b r y (proj1 (Forall_forall _ _) Hr r Hr1) Hy). }
  exists bs2, gs. split; [exact Hp2|]. split; [|split; [exact HF|split; [exact Hok2|exact Hck]]]. unfold resolved_groups. rewrite E1, Hag. fold D eps ncl. rewrite E2. exact E3.
Qed.
