(** Proofs about histograms of photon-resolved collections. *)
From Coq Require Import Reals List Arith Lia Lra Bool Permutation.
From Coquelicot Require Import Complex.
From Verif Require Import Prelude NamesModel NamesSpec NamesProofs FockModel FockProofs StateModel StateSpec StateProofs ApplyProofs MeasureSpec MeasureProofs
  CollectionModel EvalModel PropMeasure PropCollection PropEval PropBridge PropPRMeasure OperatorModel ColumnModel ColumnSpec ColumnProofs PropColumn
  GroupProofs TemporalSpec TemporalProofs ResolvedProofs InterferenceSpec ArrangementProofs InterferenceProofs MeasuredProofs PlotModel.
Import ListNotations.

(** ** Splitting the columns of a group *)
Definition splits (D : dims) (eps : R) (ncl : nat) (b : bundle) (g : group) : Prop :=
  (forall c, In c (group_columns g) -> col_cum c = bd_weight b) /\
  Permutation (map (view_of D) (group_columns g)) (flat_map (ray_views D) (bd_rays b)) /\
  Forall (ready_column D eps ncl b) (group_columns g).
Lemma bundle_split D eps ncl b : 1 <= dN D -> (0 <= eps)%R -> bundle_ok D eps ncl b ->
  exists g, split_columns eps ncl (bundle_group b) = Some g /\ splits D eps ncl b g.
Proof.
  intros HN He Hb. destruct (bundle_readable D eps ncl b Hb) as [[Hok _] Hfine]. cbn [fst snd] in Hok. destruct Hb as [Hne [Hnd Hr]].
  destruct (split_columns_spec eps ncl (bundle_group b) He Hok Hfine) as [g0 [E [E1 [E2 [E3 [E4 [E5 E6]]]]]]].
  assert (Hcol : forall c, In c (group_columns g0) -> exists r t, In r (bd_rays b) /\ In t (terms (map sp_state (ry_states r))) /\ map core_of (col_states c) = snd t).
  { intros c Hc. apply (in_map column_ess) in Hc. apply (Permutation_in _ E6) in Hc. unfold group_terms in Hc. apply in_flat_map in Hc. destruct Hc as [d [Hd Hc]].
    unfold group_columns, bundle_group in Hd; cbn [g_cols] in Hd. rewrite map_map in Hd. cbn [snd] in Hd. apply in_map_iff in Hd. destruct Hd as [r [<- Hr1]].
    unfold expand in Hc. apply in_map_iff in Hc. destruct Hc as [t [Et Ht]]. exists r, t. split; [exact Hr1|]. split; [exact Ht|]. exact (eq_sym (f_equal snd Et)). }
  exists g0. split; [exact E|]. split; [|split].
  - intros c Hc. apply in_map_iff in Hc. destruct Hc as [kc [<- Hc]]. destruct (proj1 (Forall_forall _ _) (proj2 E3) kc Hc) as [_ [_ [K _]]].
    rewrite K, E2. reflexivity.
  - apply (Permutation_map (fun e : ess => (ess_amp e, snd (fst (fst e)), core_photons D (snd e)) : view)) in E6. rewrite map_map in E6.
    etransitivity; [|etransitivity; [exact E6|]].
    + apply Permutation_refl'. apply map_ext_in. intros c Hc. unfold view_of, column_ess, ess_amp. cbn [fst snd].
      rewrite photons_core. reflexivity.
    + assert (Hgt : group_terms (bundle_group b) = flat_map expand (map (ray_column b) (bd_rays b))).
      { unfold group_terms, group_columns, bundle_group. cbn [g_cols]. rewrite map_map. reflexivity. }
      rewrite Hgt. clear Hgt. assert (Hall : map (fun e : ess => (ess_amp e, snd (fst (fst e)), core_photons D (snd e)) : view) (flat_map expand (map (ray_column b) (bd_rays b))) = flat_map (ray_views D) (bd_rays b)); [|rewrite Hall; reflexivity]. clear -Hr. induction Hr as [|r l Hro _ IH]; [reflexivity|].
      change (flat_map expand (map (ray_column b) (r :: l))) with (expand (ray_column b r) ++ flat_map expand (map (ray_column b) l)).
      change (flat_map (ray_views D) (r :: l)) with (ray_views D r ++ flat_map (ray_views D) l). rewrite map_app, IH. f_equal. unfold expand, ray_views. rewrite map_map. cbn [ray_column col_amp col_boson col_cum col_states]. destruct (ray_L D eps ncl b r Hro) as [L1 L2].
      assert (Hkind : Forall (state_kind D) (ry_states r)) by (apply Forall_forall; intros x Hx; apply (ray_state_facts D eps ncl b r x Hro Hx)).
      pose proof (terms_photons D (ry_states r) L1 L2 Hkind) as Ht.
      transitivity (map (fun y : C * list (nat * option (R * R)) => ((ry_amplitude r * fst y)%C, ry_boson r, snd y)) (map (fun t => (fst t, core_photons D (snd t))) (terms (map sp_state (ry_states r))))).
      * rewrite map_map. reflexivity.
      * rewrite Ht, map_map. reflexivity.
  - apply Forall_forall. intros c Hc. destruct (Hcol c Hc) as [r [t [Hr1 [Ht Hs]]]]. pose proof (proj1 (Forall_forall _ _) Hr r Hr1) as Hro. destruct (ray_L D eps ncl b r Hro) as [L1 L2].
    assert (Hkind : Forall (state_kind D) (ry_states r)) by (apply Forall_forall; intros x Hx; apply (ray_state_facts D eps ncl b r x Hro Hx)). split.
    + intro Z. pose proof (terms_length _ _ Ht) as Hl. rewrite <- Hs, !map_length, Z in Hl. cbn in Hl. destruct Hro as [_ [_ [K _]]]. apply K. apply length_zero_iff_nil. symmetry. exact Hl.
    + apply Forall_forall. intros s Hin. pose proof (proj1 (Forall_forall _ _) E4 c Hc) as Hsp. apply splittable_check in Hsp. pose proof (proj1 (Forall_forall _ _) Hsp s Hin) as Hck. apply (in_map core_of) in Hin. rewrite Hs in Hin. destruct (term_states D (ry_states r) t (core_of s) L1 L2 Hkind Ht Hin) as [x [Hx [K1 [K2 [K3 K4]]]]].
      split; [|split; [|split; [|split]]].
      * destruct K1 as [vs [a [p [M1 [M2 M3]]]]]. exists vs, a, p. split; [exact M1|]. split; [exact M2|exact M3].
      * exact Hck.
      * exact (K4 (ray_state_probs D eps ncl b r x Hro Hx)).
      * exists (snd x). cbn [core_of snd] in K3. rewrite K3. apply (ray_state_facts D eps ncl b r x Hro Hx).
      * exists (sp_state x). split; [unfold bundle_states; apply in_flat_map; exists r; split; [exact Hr1|apply in_map_iff; exists x; split; [reflexivity|exact Hx]]|]. rewrite <- K2. symmetry. apply frame_drop.
Qed.

(** ** The weights of the columns *)
Lemma spectrum_norm D st : lit D st -> Rsum (spectrum D st) (fun x => Cnorm2 (fst x)) = 1%R.
Proof.
  intros [Hne [_ [_ Hn]]]. unfold spectrum. rewrite Rsum_map. cbn [fst]. unfold choices.
  destruct (s_comps st) as [|c1 [|c2 cs]] eqn:E; [congruence| |].
  - rewrite Rsum_cons. cbn [fst]. unfold Cnorm2, Rsum. cbn. ring.
  - destruct Hn as [_ Hn]; [cbn [length]; lia|]. rewrite Rsum_map. cbn [fst]. rewrite <- Hn. unfold state_norm2. rewrite E. reflexivity.
Qed.
Lemma assignments_norm ls : Forall (fun l => Rsum l (fun x : C * nat => Cnorm2 (fst x)) = 1%R) ls ->
  Rsum (assignments ls) (fun a => Cnorm2 (fst a)) = 1%R.
Proof.
  induction 1 as [|l ls Hl _ IH]; cbn [assignments].
  - rewrite Rsum_cons. cbn [fst]. unfold Cnorm2, Rsum. cbn. ring.
  - rewrite Rsum_flat_map. rewrite <- Hl. apply Rsum_ext. intros x _. rewrite Rsum_map. cbn [fst].
    transitivity (Rsum (assignments ls) (fun y => Cnorm2 (fst x) * Cnorm2 (fst y)))%R.
    + apply Rsum_ext. intros y _. apply Cnorm2_mult.
    + rewrite Rsum_scal_l, IH. ring.
Qed.
Lemma ray_views_norm D eps ncl b r : ray_ok D eps ncl b r ->
  Rsum (ray_views D r) (fun v => Cnorm2 (v_amp v)) = Cnorm2 (ry_amplitude r).
Proof.
  intros Hro. unfold ray_views. rewrite Rsum_map. unfold v_amp. cbn [fst].
  transitivity (Rsum (assignments (map (fun x => spectrum D (sp_state x)) (lit_states (ry_states r)))) (fun a => Cnorm2 (ry_amplitude r) * Cnorm2 (fst a)))%R.
  - apply Rsum_ext. intros a _. apply Cnorm2_mult.
  - rewrite Rsum_scal_l, assignments_norm; [ring|]. apply Forall_map. apply Forall_forall. intros x Hx. unfold lit_states in Hx. apply filter_In in Hx. destruct Hx as [Hx Ef].
    apply spectrum_norm. destruct (ray_state_facts D eps ncl b r x Hro Hx) as (_ & _ & [Hk _] & _). rewrite Ef in Hk. exact Hk.
Qed.
Lemma split_norm D eps ncl b g : bundle_ok D eps ncl b -> splits D eps ncl b g ->
  Rsum (group_columns g) (fun c => Cnorm2 (col_amp c)) = Rsum (bd_rays b) (fun r => Cnorm2 (ry_amplitude r)).
Proof.
  intros (_ & _ & Hr) (_ & Hp & _).
  transitivity (Rsum (map (view_of D) (group_columns g)) (fun v => Cnorm2 (v_amp v))); [rewrite Rsum_map; reflexivity|].
  rewrite (Rsum_perm _ _ _ Hp), Rsum_flat_map. apply Rsum_ext. intros r Hin. exact (ray_views_norm D eps ncl b r (proj1 (Forall_forall _ _) Hr r Hin)).
Qed.

(** ** One state for every column *)
Lemma column_plotted D eps ncl b g c : bundle_ok D eps ncl b -> splits D eps ncl b g -> In c (group_columns g) ->
  (0 <= bd_weight b <= 1)%R -> Rsum (bd_rays b) (fun r => Cnorm2 (ry_amplitude r)) = 1%R ->
  exists st x, column_state D eps ncl true c = Some st /\ s_init st = bd_label b /\ In x (bundle_states b) /\ s_classical st = s_classical x /\
    s_cum st = (bd_weight b * Cnorm2 (col_amp c))%R.
Proof.
  intros Hb Hs Hc Hw Hn. pose proof (split_norm D eps ncl b g Hb Hs) as Hsum. rewrite Hn in Hsum. destruct Hs as (Hcum & Hp & Hr).
  pose proof (proj1 (Forall_forall _ _) Hr c Hc) as Hrc.
  destruct (ready_measurable D eps ncl b c Hb ltac:(apply (Permutation_in _ Hp); now apply in_map) Hrc) as [(_ & _ & _ & _ & Hv) _].
  destruct Hrc as [Hne Hst]. destruct (exists_last Hne) as [l [x Hx]].
  assert (Hin : In x (col_states c)) by (rewrite Hx; apply in_app_iff; right; left; reflexivity).
  destruct (proj1 (Forall_forall _ _) Hst x Hin) as (_ & _ & _ & _ & x0 & Hx0 & Hf). apply frame_fields in Hf. destruct Hf as (F1 & F2 & _).
  assert (Ha : (Cnorm2 (col_amp c) <= 1)%R).
  { rewrite <- Hsum. apply (Rsum_le_term (group_columns g) (fun c => Cnorm2 (col_amp c)) c); [|exact Hc]. intros y _. apply Cnorm2_nonneg. }
  pose proof (Cnorm2_nonneg (col_amp c)) as Ha0.
  assert (Hcs : column_state D eps ncl true c = Some (with_cum (with_comps (drop_resolution x) (unit_comp (name_string D (column_occ D c)))) (col_cum c * Cnorm2 (col_amp c)))).
  { apply (column_state_spec D eps ncl c x (rev l)).
    - rewrite Hx, rev_app_distr. reflexivity.
    - revert Hst. apply Forall_impl. intros s Hs. apply Hs.
    - revert Hst. apply Forall_impl. intros s Hs. apply small_one. apply Hs.
    - exact Hv.
    - rewrite (Hcum c Hc). split; [apply Rmult_le_pos; lra|]. apply Rle_trans with (1 * 1)%R; [|lra]. apply Rmult_le_compat; lra. }
  eexists. exists x0. split; [exact Hcs|]. split; [|split; [exact Hx0|split]].
  - cbn [with_cum with_comps drop_resolution with_aux s_init]. rewrite F1. exact (proj1 (bundle_label_states D eps ncl b x0 Hb Hx0)).
  - cbn [with_cum with_comps drop_resolution with_aux s_classical]. exact F2.
  - cbn [with_cum s_cum]. now rewrite (Hcum c Hc).
Qed.

Definition plotted (D : dims) (eps : R) (ncl : nat) (b : bundle) (sts : list state) : Prop :=
  sts <> [] /\ Forall (fun st => s_init st = bd_label b /\ exists x, In x (bundle_states b) /\ s_classical st = s_classical x) sts /\
  Rsum sts s_cum = bd_weight b.
Lemma bundle_plotted D eps ncl b g : bundle_ok D eps ncl b -> splits D eps ncl b g ->
  (0 <= bd_weight b <= 1)%R -> Rsum (bd_rays b) (fun r => Cnorm2 (ry_amplitude r)) = 1%R ->
  exists sts, option_list (map (column_state D eps ncl true) (group_columns g)) = Some sts /\ plotted D eps ncl b sts.
Proof.
  intros Hb Hs Hw Hn. pose proof (split_norm D eps ncl b g Hb Hs) as Hsum. rewrite Hn in Hsum.
  assert (H : forall cs, incl cs (group_columns g) -> exists sts, option_list (map (column_state D eps ncl true) cs) = Some sts /\
    length sts = length cs /\ Forall (fun st => s_init st = bd_label b /\ exists x, In x (bundle_states b) /\ s_classical st = s_classical x) sts /\
    Rsum sts s_cum = (bd_weight b * Rsum cs (fun c => Cnorm2 (col_amp c)))%R).
  { induction cs as [|c cs IH]; intros Hi.
    - exists []. split; [reflexivity|]. split; [reflexivity|]. split; [constructor|]. unfold Rsum. cbn. ring.
    - destruct IH as (sts & E & El & HF & ES); [intros y Hy; apply Hi; now right|].
      destruct (column_plotted D eps ncl b g c Hb Hs (Hi c (or_introl eq_refl)) Hw Hn) as (st & x & E1 & E2 & E3 & E4 & E5).
      exists (st :: sts). cbn [map option_list length]. rewrite E1, E. split; [reflexivity|]. split; [now rewrite El|]. split.
      + constructor; [|exact HF]. split; [exact E2|]. exists x. now split.
      + rewrite !Rsum_cons, E5, ES. ring. }
  destruct (H (group_columns g) (incl_refl _)) as (sts & E & El & HF & ES). exists sts. split; [exact E|]. split; [|split; [exact HF|]].
  - intros ->. destruct (group_columns g) eqn:Eg; [|discriminate]. unfold Rsum in Hsum. cbn in Hsum. lra.
  - rewrite ES, Hsum. ring.
Qed.

(** ** Several groups *)
Lemma option_list_concat {A} (ls : list (list (option A))) vss :
  Forall2 (fun l vs => option_list l = Some vs) ls vss -> option_list (concat ls) = Some (concat vss).
Proof.
  induction 1 as [|l vs ls vss H _ IH]; [reflexivity|]. cbn [concat]. revert vs H. induction l as [|[a|] l IHl]; intros vs H; cbn [option_list app] in *.
  - injection H as <-. exact IH.
  - destruct (option_list l) as [us|] eqn:E; [|discriminate]. injection H as <-. rewrite (IHl us eq_refl). reflexivity.
  - discriminate.
Qed.
Lemma pre_plot_spec rnd cs bs : 1 <= dN (co_D cs) -> (0 <= co_eps cs)%R -> carries cs bs ->
  Forall (fun b => (0 <= bd_weight b <= 1)%R /\ Rsum (bd_rays b) (fun r => Cnorm2 (ry_amplitude r)) = 1%R) bs ->
  exists c bs2 stss, pre_plot rnd cs = Some c /\ Permutation bs bs2 /\
    Forall2 (plotted (co_D cs) (co_eps cs) (co_ncl cs)) bs2 stss /\ map snd (co_items c) = concat stss.
Proof.
  intros HN He [Hst [Hnd Hok]] Hw.
  set (igs := map (fun b => (bd_label b, bundle_group b)) bs).
  destruct (regroup (co_items cs) igs) as [cc [E1 Hp]].
  { rewrite Hst. unfold igs. rewrite flat_map_concat_map, flat_map_concat_map, map_map. cbn [snd]. f_equal. apply map_ext. intro b. symmetry. apply bundle_group_states. }
  { unfold igs. apply Forall_map. revert Hok. apply Forall_impl. intros b Hb. apply (bundle_readable _ _ _ b Hb). }
  { unfold igs. rewrite map_map. exact Hnd. }
  unfold igs in Hp. rewrite map_map in Hp. cbn [fst snd] in Hp. destruct (Permutation_map_inv _ _ Hp) as [bs2 [El Hp2]].
  assert (Hag : all_groups cc = map bundle_group bs2) by (rewrite all_groups_labelled, El, map_map; reflexivity).
  assert (Hboth : Forall (fun b => bundle_ok (co_D cs) (co_eps cs) (co_ncl cs) b /\ (0 <= bd_weight b <= 1)%R /\ Rsum (bd_rays b) (fun r => Cnorm2 (ry_amplitude r)) = 1%R) bs2).
  { apply Forall_forall. intros b Hb. apply (Permutation_in _ (Permutation_sym Hp2)) in Hb. split; [exact (proj1 (Forall_forall _ _) Hok b Hb)|exact (proj1 (Forall_forall _ _) Hw b Hb)]. }
  assert (Hgs : exists gs stss, split_groups (co_eps cs) (co_ncl cs) (map bundle_group bs2) = Some gs /\
     option_list (map (column_state (co_D cs) (co_eps cs) (co_ncl cs) true) (flat_map group_columns gs)) = Some (concat stss) /\
     Forall2 (plotted (co_D cs) (co_eps cs) (co_ncl cs)) bs2 stss).
  { clear -HN He Hboth. induction Hboth as [|b bs2 (Hb & Hw & Hn) _ IH]; [exists [], []; split; [reflexivity|split; [reflexivity|constructor]]|].
    destruct IH as (gs & stss & F1 & F2 & F3). destruct (bundle_split _ _ _ b HN He Hb) as (g & G1 & G2). destruct (bundle_plotted _ _ _ b g Hb G2 Hw Hn) as (sts & G3 & G4).
    exists (g :: gs), (sts :: stss). unfold split_groups in *. cbn [map option_list flat_map]. rewrite G1, F1. split; [reflexivity|]. split; [|now constructor].
    rewrite map_app. pose proof (option_list_concat [map (column_state (co_D cs) (co_eps cs) (co_ncl cs) true) (group_columns g); map (column_state (co_D cs) (co_eps cs) (co_ncl cs) true) (flat_map group_columns gs)] [sts; concat stss]) as K.
    cbn [concat] in K. rewrite !app_nil_r in K. apply K. repeat constructor; assumption. }
  destruct Hgs as (gs & stss & F1 & F2 & F3).
  assert (Hck : Forall (fun it => check_state (co_eps cs) (co_ncl cs) (snd it) = true) (co_items cs)).
  { apply Forall_forall. intros it Hit. assert (Hin : In (snd it) (flat_map bundle_states bs)) by (rewrite <- Hst; apply in_map; exact Hit). apply in_flat_map in Hin. destruct Hin as [b [Hb Hin]].
    destruct (proj1 (Forall_forall _ _) Hok b Hb) as [_ [_ Hr]]. unfold bundle_states in Hin. apply in_flat_map in Hin. destruct Hin as [r [Hr1 Hin]]. apply in_map_iff in Hin. destruct Hin as [y [Ey Hy]]. rewrite <- Ey.
    apply (ray_state_facts _ _ _ b r y (proj1 (Forall_forall _ _) Hr r Hr1) Hy). }
  exists (with_items cs (fst (add_states_random rnd 0 (concat stss) []))), bs2, stss. split; [|split; [exact Hp2|split; [exact F3|]]].
  - unfold pre_plot. rewrite E1, Hag, F1, F2. unfold collect, copy_collection. rewrite copy_items_ok by exact Hck. reflexivity.
  - cbn [with_items co_items]. apply states_random_map.
Qed.
