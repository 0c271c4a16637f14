(** Proofs about the measurement of photon-resolved collections. *)
From Coq Require Import Reals List Arith Lia Lra Bool Permutation.
From Coquelicot Require Import Complex.
From Verif Require Import Prelude NamesModel NamesSpec NamesProofs FockModel FockProofs StateModel StateSpec StateProofs ApplyProofs MeasureSpec
  CollectionModel EvalModel PropMeasure PropCollection PropEval PropBridge PropPRMeasure OperatorModel ColumnModel ColumnSpec ColumnProofs PropColumn
  GroupProofs TemporalSpec TemporalProofs ResolvedProofs InterferenceSpec ArrangementProofs.
Import ListNotations.

(** ** The photons of the terms of a column *)
Definition core_channel (D : dims) (k : core) : nat := hd 0 (photon_channels (core_values D k)).
Definition spectrum (D : dims) (st : state) : list (C * nat) := map (fun x => (fst x, core_channel D (snd x))) (choices st).
Lemma one_photon_valid D c : 2 <= dL D -> c < dN D -> valid D (one_photon (dN D) c).
Proof. intros HL Hc. rewrite <- one_photon_spec by exact Hc. apply unit_valid. exact HL. Qed.
Lemma zero_valid D : 1 <= dL D -> valid D (repeat 0 (dN D)).
Proof. intro HL. split; [apply repeat_length|]. apply Forall_forall. intros x Hx. apply repeat_spec in Hx. lia. Qed.
Lemma lit_choice D st x : 2 <= dL D -> lit D st -> In x (choices st) ->
  exists c nm, c < dN D /\ nm = name_string D (one_photon (dN D) c) /\ core_values D (snd x) = one_photon (dN D) c /\ snd (snd x) = photon_of st /\
    In (nm, fst x) (weighted_components st).
Proof.
  intros HL [Hne [Hnd [Hn _]]] Hx. unfold choices in Hx. unfold weighted_components. destruct (s_comps st) as [|[n1 [a1 p1]] [|c2 cs]] eqn:E.
  - congruence.
  - destruct Hx as [<-|[]]. cbn [fst snd core_of]. destruct (Hn n1) as [c [Hc En]]; [left; reflexivity|]. exists c, n1. split; [exact Hc|]. split; [exact En|]. split.
    + change (core_values D (core_of st) = one_photon (dN D) c). rewrite core_values_of. apply (first_values_one D st _ a1 p1); [apply one_photon_valid; assumption|]. rewrite E, En. reflexivity.
    + split; [reflexivity|]. left. reflexivity.
  - apply in_map_iff in Hx. destruct Hx as [d [<- Hd]]. cbn [fst snd]. destruct (Hn (fst d)) as [c [Hc En]]; [apply in_map; exact Hd|]. exists c, (fst d). split; [exact Hc|]. split; [exact En|]. split.
    + unfold core_values, core_with, unit_comp, first_values. cbn [fst snd with_comps s_comps]. rewrite En. apply values_of_name_string. apply one_photon_valid; assumption.
    + split; [reflexivity|]. apply in_map_iff. exists d. split; [reflexivity|exact Hd].
Qed.
Lemma lit_photons D st x : 2 <= dL D -> lit D st -> In x (choices st) -> core_photons D [snd x] = [(core_channel D (snd x), photon_of st)] /\ core_channel D (snd x) < dN D.
Proof.
  intros HL Hl Hx. destruct (lit_choice D st x HL Hl Hx) as [c [nm [Hc [_ [Hv [Hp _]]]]]]. unfold core_photons, core_channel. cbn [flat_map]. rewrite Hv, Hp.
  rewrite <- one_photon_spec by exact Hc. rewrite channels_of_unit by exact Hc. cbn. split; [reflexivity|exact Hc].
Qed.
Lemma dark_choices D st : 1 <= dL D -> dark D st -> choices st = [(RtoC 1, core_of st)] /\ core_photons D [core_of st] = [].
Proof.
  intros HL [[a p] E]. split; [unfold choices; rewrite E; reflexivity|]. unfold core_photons. cbn [flat_map]. rewrite core_values_of.
  rewrite (first_values_one D st (repeat 0 (dN D)) a p (zero_valid D HL) E). rewrite channels_zero. reflexivity.
Qed.
Lemma spectrum_wave D st c : 2 <= dL D -> lit D st -> c < dN D -> weight_in (spectrum D st) c = wave D st c.
Proof.
  intros HL Hl Hc. unfold weight_in, spectrum, wave. rewrite Csum_map. cbn [fst snd].
  assert (Hw : wf_state D st).
  { destruct Hl as [_ [Hnd [Hn _]]]. split; [exact Hnd|]. intros nm Hin. destruct (Hn nm Hin) as [k [Hk ->]]. exists (one_photon (dN D) k). split; [apply one_photon_valid; assumption|reflexivity]. }
  pose proof (choices_names D st Hw) as Hcn.
  transitivity (Csum (map (fun x : C * (state * option (R * R)) => (first_values D (fst (snd x)), fst x)) (choices st)) (fun y => if leqb (fst y) (one_photon (dN D) c) then snd y else RtoC 0)).
  - rewrite Csum_map. cbn [fst snd]. apply Csum_ext. intros x Hx. destruct (lit_choice D st x HL Hl Hx) as [k [nm [Hk [_ [Hv _]]]]].
    assert (E : (core_channel D (snd x) =? c) = leqb (first_values D (fst (snd x))) (one_photon (dN D) c)).
    { change (first_values D (fst (snd x))) with (core_values D (snd x)). unfold core_channel. rewrite Hv. rewrite <- one_photon_spec by exact Hk. rewrite channels_of_unit by exact Hk. cbn [hd].
      apply Bool.eq_iff_eq_true. rewrite Nat.eqb_eq, leqb_spec. split; [intros ->; apply one_photon_spec; exact Hk|].
      intro E. rewrite <- one_photon_spec in E by exact Hc. apply (f_equal photon_channels) in E. rewrite !channels_of_unit in E by assumption. congruence. }
    rewrite E. reflexivity.
  - rewrite Hcn, Csum_map. cbn [fst snd]. apply Csum_ext. intros x Hx.
    assert (Hin : exists k, k < dN D /\ fst x = name_string D (one_photon (dN D) k)).
    { destruct Hl as [_ [_ [Hn _]]]. apply Hn. unfold weighted_components in Hx. destruct (s_comps st) as [|[n1 q1] [|c2 cs]]; [destruct Hx|destruct Hx as [<-|[]]; left; reflexivity|].
      apply in_map_iff in Hx. destruct Hx as [d [<- Hd]]. cbn [fst]. apply in_map. exact Hd. }
    destruct Hin as [k [Hk ->]]. rewrite values_of_name_string by (apply one_photon_valid; assumption).
    assert (E : leqb (one_photon (dN D) k) (one_photon (dN D) c) = leqb (name_string D (one_photon (dN D) k)) (name_string D (one_photon (dN D) c))).
    { apply Bool.eq_iff_eq_true. rewrite !leqb_spec. split; [intros ->; reflexivity|]. apply name_string_inj; apply one_photon_valid; assumption. }
    rewrite E. reflexivity.
Qed.

Definition lit_states (l : list (bool * state * (R * R))) := filter (fun x => fst (fst x)) l.
Definition sp_state (x : bool * state * (R * R)) : state := snd (fst x).
Definition state_kind (D : dims) (x : bool * state * (R * R)) : Prop :=
  (if fst (fst x) then lit D (sp_state x) else dark D (sp_state x)) /\ photon_of (sp_state x) = Some (snd x).
(** The terms of the states of a column, as photons: an assignment of channels. *)
Lemma terms_photons D l : 1 <= dL D -> (lit_states l <> [] -> 2 <= dL D) -> Forall (state_kind D) l ->
  map (fun t => (fst t, core_photons D (snd t))) (terms (map sp_state l))
  = map (fun a => (fst a, combine (snd a) (map (fun x => Some (snd x)) (lit_states l)))) (assignments (map (fun x => spectrum D (sp_state x)) (lit_states l))).
Proof.
  intros HL1 HL H. induction l as [|x l IH]; [reflexivity|]. cbn [map terms]. pose proof (Forall_inv H) as [Hk Hp].
  assert (Hstep : map (fun t => (fst t, core_photons D (snd t))) (flat_map (fun u => map (fun y => ((fst u * fst y)%C, snd u :: snd y)) (terms (map sp_state l))) (choices (sp_state x)))
    = flat_map (fun u => map (fun y => ((fst u * fst y)%C, core_photons D [snd u] ++ snd y)) (map (fun t => (fst t, core_photons D (snd t))) (terms (map sp_state l)))) (choices (sp_state x))).
  { generalize (choices (sp_state x)). intro L. induction L as [|u L IHL]; [reflexivity|]. cbn [flat_map]. rewrite map_app, IHL. f_equal. rewrite !map_map. apply map_ext. intros [a t]. cbn [fst snd].
    change (snd u :: t) with ([snd u] ++ t). rewrite core_photons_app. reflexivity. }
  rewrite Hstep. clear Hstep. unfold lit_states in *. cbn [filter] in *. destruct (fst (fst x)) eqn:Ef.
  - assert (HL2 : 2 <= dL D) by (apply HL; discriminate).
    rewrite IH; [|intros _; exact HL2|exact (Forall_inv_tail H)]. clear IH. cbn [map assignments].
    change (spectrum D (sp_state x)) with (map (fun u => (fst u, core_channel D (snd u))) (choices (sp_state x))).
    assert (Hc : forall u, In u (choices (sp_state x)) -> core_photons D [snd u] = [(core_channel D (snd u), Some (snd x))]).
    { intros u Hu. destruct (lit_photons D (sp_state x) u HL2 Hk Hu) as [E _]. rewrite E, Hp. reflexivity. }
    revert Hc. generalize (choices (sp_state x)). intros L Hc. induction L as [|u L IHL]; [reflexivity|]. cbn [map flat_map]. rewrite map_app. rewrite IHL by (intros; apply Hc; right; assumption). f_equal.
    rewrite (Hc u (or_introl eq_refl)). rewrite !map_map. apply map_ext. intros [a t]. cbn [fst snd app combine]. reflexivity.
  - destruct (dark_choices D (sp_state x) HL1 Hk) as [E1 E2]. rewrite E1. cbn [flat_map snd fst]. rewrite app_nil_r, E2. cbn [app]. rewrite IH; [|exact HL|exact (Forall_inv_tail H)].
    rewrite map_map. apply map_ext. intros [a t]. cbn [fst snd]. f_equal. apply C_eq; cbn; ring.
Qed.

(** ** The groups of a collection *)
Definition ray_column (b : bundle) (r : ray) : column :=
  Column (ry_number r) (ry_amplitude r) (ry_boson r) (bd_group b) (bd_weight b) (map sp_state (ry_states r)).
Definition bundle_group (b : bundle) : group :=
  Group (bd_group b) (bd_weight b) (map (fun r => (ry_number r, ray_column b r)) (bd_rays b)).
Lemma ray_state_facts D eps ncl b r x : ray_ok D eps ncl b r -> In x (ry_states r) ->
  check_state eps ncl (sp_state x) = true /\ s_init (sp_state x) = bd_label b /\ state_kind D x /\
  resolution_of (sp_state x) = Some (Resolution (Some (ry_number r)) (Some (ry_amplitude r)) (Some (ry_boson r)) (Some (bd_group b)) (Some (bd_weight b)) (Some (snd x))) /\
  photon_of (sp_state x) = Some (snd x).
Proof.
  intros [_ [_ [_ [_ H]]]] Hx. pose proof (proj1 (Forall_forall _ _) H x Hx) as [H1 [H0 [H2 [H3 H4]]]]. fold (sp_state x) in *.
  assert (Hr : resolution_of (sp_state x) = Some (Resolution (Some (ry_number r)) (Some (ry_amplitude r)) (Some (ry_boson r)) (Some (bd_group b)) (Some (bd_weight b)) (Some (snd x)))) by (unfold resolution_of; rewrite H4; reflexivity).
  assert (Hp : photon_of (sp_state x) = Some (snd x)) by (unfold photon_of; rewrite Hr; reflexivity).
  split; [exact H1|]. split; [exact H2|]. split; [split; [exact H3|exact Hp]|]. split; [exact Hr|exact Hp].
Qed.
Lemma ray_state_probs D eps ncl b r x : ray_ok D eps ncl b r -> In x (ry_states r) -> probs_ok (sp_state x).
Proof. intros [_ [_ [_ [_ H]]]] Hx. pose proof (proj1 (Forall_forall _ _) H x Hx) as [_ [H0 _]]. exact H0. Qed.
Lemma kind_splittable D eps ncl x : check_state eps ncl (sp_state x) = true -> state_kind D x -> splittable eps ncl (sp_state x).
Proof.
  intros Hck [Hk _]. split; [exact Hck|]. destruct (fst (fst x)).
  - destruct Hk as [H1 [_ [_ H2]]]. split; [exact H1|exact H2].
  - destruct Hk as [q E]. rewrite E. split; [discriminate|]. cbn. lia.
Qed.
Lemma bundle_readable D eps ncl b : bundle_ok D eps ncl b -> readable (bd_label b, bundle_group b) /\ group_fine eps ncl (bundle_group b).
Proof.
  intros [Hne [Hnd Hr]]. unfold readable, bundle_group, group_ok, group_fine, group_columns; cbn [fst snd g_cols g_id g_cum]. split; [split; [split|split; [|split]]|].
  - unfold dkeys. rewrite map_map. cbn [fst]. exact Hnd.
  - apply Forall_map. revert Hr. apply Forall_impl. intros r H. cbn [fst snd ray_column col_id col_group col_cum]. split; [reflexivity|]. split; [reflexivity|]. split; [reflexivity|].
    unfold stamped. cbn [ray_column col_states col_id col_amp col_boson col_group col_cum]. apply Forall_map. apply Forall_forall. intros x Hx.
    destruct (ray_state_facts D eps ncl b r x H Hx) as [_ [_ [_ [E1 E2]]]]. rewrite E1, E2. reflexivity.
  - intro Z. apply map_eq_nil in Z. exact (Hne Z).
  - apply Forall_map. revert Hr. apply Forall_impl. intros r H. cbn [fst snd ray_column col_states]. intro Z. apply map_eq_nil in Z. exact (proj1 (proj2 (proj2 H)) Z).
  - apply Forall_map. revert Hr. apply Forall_impl. intros r H. cbn [fst snd ray_column col_states]. apply Forall_map. apply Forall_forall. intros x Hx.
    apply (ray_state_facts D eps ncl b r x H Hx).
  - rewrite map_map. cbn [snd]. apply Forall_map. revert Hr. apply Forall_impl. intros r H. unfold col_ok. cbn [ray_column col_states]. apply Forall_map. apply Forall_forall. intros x Hx.
    destruct (ray_state_facts D eps ncl b r x H Hx) as [K1 [_ [K2 _]]]. apply (kind_splittable D eps ncl x K1 K2).
Qed.
Lemma ddel_ddel {K V} (keq : K -> K -> bool) k (d : list (K * V)) : ddel keq k (ddel keq k d) = ddel keq k d.
Proof. unfold ddel. induction d as [|x d IH]; [reflexivity|]. cbn [filter]. destruct (negb (keq k (fst x))) eqn:E; [|exact IH]. cbn [filter]. rewrite E, IH. reflexivity. Qed.
Lemma frame_drop st : frame (drop_resolution st) = frame st.
Proof. unfold frame, drop_resolution. cbn [with_aux s_aux]. rewrite ddel_ddel. reflexivity. Qed.
(** The states of the terms. *)
Definition small_state (D : dims) (st : state) : Prop := exists vs a p, valid D vs /\ NamesSpec.photons vs <= 1 /\ s_comps st = [(name_string D vs, (a, p))].
Definition small_core_of (D : dims) (k : core) (st : state) : Prop :=
  small_state D (fst k) /\ frame (fst k) = frame st /\ snd k = photon_of st /\ (probs_ok st -> probs_ok (fst k)).
Lemma lit_choice_small D st x : 2 <= dL D -> lit D st -> In x (choices st) -> small_core_of D (snd x) st.
Proof.
  intros HL [Hne [Hnd [Hn _]]] Hx. unfold choices in Hx. destruct (s_comps st) as [|[n1 [a1 p1]] [|c2 cs]] eqn:E.
  - congruence.
  - destruct Hx as [<-|[]]. unfold small_core_of. cbn [fst snd core_of]. destruct (Hn n1) as [c [Hc En]]; [left; reflexivity|]. split; [|split; [apply frame_drop|split; [reflexivity|intro H; exact H]]].
    exists (one_photon (dN D) c), a1, p1. split; [apply one_photon_valid; assumption|]. split; [rewrite <- one_photon_spec by exact Hc; rewrite photons_unit by exact Hc; lia|].
    cbn [drop_resolution with_aux s_comps]. rewrite E, En. reflexivity.
  - apply in_map_iff in Hx. destruct Hx as [d [<- Hd]]. unfold small_core_of. cbn [fst snd core_with core_of]. destruct (Hn (fst d)) as [c [Hc En]]; [apply in_map; exact Hd|].
    split; [|split; [exact (frame_drop st)|split; [reflexivity|]]].
    + exists (one_photon (dN D) c), (RtoC 1), 1%R. split; [apply one_photon_valid; assumption|]. split; [rewrite <- one_photon_spec by exact Hc; rewrite photons_unit by exact Hc; lia|].
      cbn [with_comps s_comps unit_comp]. unfold unit_comp. rewrite En. reflexivity.
    + intros _ nm a p [Z|[]]. apply (f_equal snd) in Z. cbn [snd unit_comp] in Z. pose proof (f_equal fst Z) as Z1. pose proof (f_equal snd Z) as Z2. cbn [fst snd] in Z1, Z2. rewrite <- Z1, <- Z2. unfold Cnorm2. cbn. ring.
Qed.
Lemma term_states D l t k : 1 <= dL D -> (lit_states l <> [] -> 2 <= dL D) -> Forall (state_kind D) l -> In t (terms (map sp_state l)) -> In k (snd t) ->
  exists x, In x l /\ small_core_of D k (sp_state x).
Proof.
  intros HL1 HL H. revert t. induction l as [|x l IH]; intros t Ht Hk; cbn [map terms] in Ht; [destruct Ht as [<-|[]]; destruct Hk|].
  apply in_flat_map in Ht. destruct Ht as [u [Hu Ht]]. apply in_map_iff in Ht. destruct Ht as [y [<- Hy]]. cbn [snd] in Hk. pose proof (Forall_inv H) as [Hkind _].
  assert (HLr : lit_states l <> [] -> 2 <= dL D) by (intro Z; apply HL; unfold lit_states in *; cbn [filter]; destruct (fst (fst x)); [discriminate|exact Z]).
  destruct Hk as [<-|Hk].
  - exists x. split; [left; reflexivity|]. destruct (fst (fst x)) eqn:Ef.
    + assert (HL2 : 2 <= dL D) by (apply HL; unfold lit_states; cbn [filter]; rewrite Ef; discriminate). apply (lit_choice_small D _ u HL2 Hkind Hu).
    + destruct (dark_choices D (sp_state x) HL1 Hkind) as [E _]. rewrite E in Hu. destruct Hu as [<-|[]]. unfold small_core_of. cbn [fst snd core_of]. split; [|split; [apply frame_drop|split; [reflexivity|intro K; exact K]]].
      destruct Hkind as [[a p] Hs]. exists (repeat 0 (dN D)), a, p. split; [apply zero_valid; exact HL1|]. split; [rewrite photons_zero; lia|exact Hs].
  - destruct (IH HLr (Forall_inv_tail H) y Hy Hk) as [x' [H1 H2]]. exists x'. split; [right; exact H1|exact H2].
Qed.
Lemma terms_length l t : In t (terms l) -> length (snd t) = length l.
Proof.
  revert t. induction l as [|x l IH]; intros t Ht; cbn [terms] in Ht; [destruct Ht as [<-|[]]; reflexivity|].
  apply in_flat_map in Ht. destruct Ht as [u [_ Ht]]. apply in_map_iff in Ht. destruct Ht as [y [<- Hy]]. cbn [snd length]. f_equal. apply IH. exact Hy.
Qed.

Definition view := (C * R * list (nat * option (R * R)))%type.
Definition view_of (D : dims) (c : column) : view := (col_amp c, col_boson c, list_of_photons D c).
Definition ray_views (D : dims) (r : ray) : list view :=
  map (fun a => ((ry_amplitude r * fst a)%C, ry_boson r, combine (snd a) (map (fun x => Some (snd x)) (lit_states (ry_states r)))))
      (assignments (map (fun x => spectrum D (sp_state x)) (lit_states (ry_states r)))).
(** What the measurement gets to see of one group. *)
Definition ready_column (D : dims) (eps : R) (ncl : nat) (b : bundle) (c : column) : Prop :=
  col_states c <> [] /\ Forall (fun s => small_state D s /\ check_state eps ncl s = true /\ probs_ok s /\ (exists t, photon_of s = Some t) /\ exists x, In x (bundle_states b) /\ frame s = frame x) (col_states c).
Lemma small_one D st : small_state D st -> one_component D st.
Proof. intros [vs [a [p [H1 [_ H2]]]]]. exists vs, a, p. split; assumption. Qed.
Lemma small_core D a b : core_of a = core_of b -> small_state D a -> small_state D b.
Proof. intros H [vs [z [p [H1 [H2 H3]]]]]. exists vs, z, p. split; [exact H1|]. split; [exact H2|]. rewrite <- (core_comps _ _ H). exact H3. Qed.
Lemma small_factorials D st : small_state D st -> factorials (first_values D st) = 1.
Proof.
  intros [vs [a [p [H1 [H2 H3]]]]]. rewrite (first_values_one D st vs a p H1 H3). apply factorials_small. clear -H2. induction vs as [|v vs IH]; constructor; cbn in H2; [lia|apply IH; lia].
Qed.
Lemma ray_L D eps ncl b r : ray_ok D eps ncl b r -> 1 <= dL D /\ (lit_states (ry_states r) <> [] -> 2 <= dL D).
Proof.
  intros [_ [_ [_ [Hl _]]]]. unfold ray_branch in Hl; cbn [br_photons] in Hl. rewrite map_length in Hl. unfold lit_states. split; [lia|]. intro Z.
  destruct (filter _ (ry_states r)); [congruence|]. cbn in Hl. lia.
Qed.
Lemma parts_photon D st : Forall (fun s => photon_of s = photon_of st) (parts_of D st).
Proof.
  unfold parts_of, parts. destruct (0 <? _).
  - apply Forall_map. apply Forall_forall. intros c _. reflexivity.
  - apply Forall_cons; [reflexivity|constructor].
Qed.
Lemma parts_probs D st : Forall probs_ok (parts_of D st).
Proof.
  assert (G : forall nm a, probs_ok (with_comps st [(nm, (a, Cnorm2 a))])).
  { intros nm a nm' a' p' [Z|[]]. cbn [with_comps s_comps] in Z. apply (f_equal snd) in Z. cbn [snd] in Z. pose proof (f_equal fst Z) as Z1. pose proof (f_equal snd Z) as Z2. cbn [fst snd] in Z1, Z2. rewrite <- Z1, <- Z2. reflexivity. }
  unfold parts_of, parts. destruct (0 <? _).
  - apply Forall_map. apply Forall_forall. intros c _. apply G.
  - apply Forall_cons; [apply G|constructor].
Qed.
Lemma bundle_resolved D eps ncl b : 1 <= dN D -> (0 <= eps)%R -> bundle_ok D eps ncl b ->
  exists g0 g, split_columns eps ncl (bundle_group b) = Some g0 /\ single_photon_group D eps ncl g0 = Some g /\
    group_ok g /\ g_id g = bd_group b /\ g_cum g = bd_weight b /\
    Permutation (map (view_of D) (group_columns g)) (flat_map (ray_views D) (bd_rays b)) /\
    Forall (ready_column D eps ncl b) (group_columns g).
Proof.
  intros HN He Hb. destruct (bundle_readable D eps ncl b Hb) as [[Hok _] Hfine]. cbn [fst snd] in Hok. destruct Hb as [Hne [Hnd Hr]].
  destruct (split_columns_spec eps ncl (bundle_group b) He Hok Hfine) as [g0 [E [E1 [E2 [E3 [E4 [E5 E6]]]]]]].
  assert (Hcol : forall c, In c (group_columns g0) -> exists r t, In r (bd_rays b) /\ In t (terms (map sp_state (ry_states r))) /\ map core_of (col_states c) = snd t).
  { intros c Hc. apply (in_map column_ess) in Hc. apply (Permutation_in _ E6) in Hc. unfold group_terms in Hc. apply in_flat_map in Hc. destruct Hc as [d [Hd Hc]].
    unfold group_columns, bundle_group in Hd; cbn [g_cols] in Hd. rewrite map_map in Hd. cbn [snd] in Hd. apply in_map_iff in Hd. destruct Hd as [r [<- Hr1]].
    unfold expand in Hc. apply in_map_iff in Hc. destruct Hc as [t [Et Ht]]. exists r, t. split; [exact Hr1|]. split; [exact Ht|]. exact (eq_sym (f_equal snd Et)). }
  assert (Hsmall : forall c, In c (group_columns g0) -> Forall (fun s => small_state D s /\ (exists x, In x (bundle_states b) /\ frame s = frame x) /\ probs_ok s /\ exists t, photon_of s = Some t) (col_states c) /\ col_states c <> []).
  { intros c Hc. destruct (Hcol c Hc) as [r [t [Hr1 [Ht Hs]]]]. pose proof (proj1 (Forall_forall _ _) Hr r Hr1) as Hro. destruct (ray_L D eps ncl b r Hro) as [L1 L2].
    assert (Hkind : Forall (state_kind D) (ry_states r)) by (apply Forall_forall; intros x Hx; apply (ray_state_facts D eps ncl b r x Hro Hx)). split.
    - apply Forall_forall. intros s Hin. apply (in_map core_of) in Hin. rewrite Hs in Hin. destruct (term_states D (ry_states r) t (core_of s) L1 L2 Hkind Ht Hin) as [x [Hx [K1 [K2 [K3 K4]]]]].
      split; [|split; [|split]].
      + destruct K1 as [vs [a [p [M1 [M2 M3]]]]]. exists vs, a, p. split; [exact M1|]. split; [exact M2|exact M3].
      + exists (sp_state x). split; [unfold bundle_states; apply in_flat_map; exists r; split; [exact Hr1|apply in_map_iff; exists x; split; [reflexivity|exact Hx]]|]. rewrite <- K2. symmetry. apply frame_drop.
      + exact (K4 (ray_state_probs D eps ncl b r x Hro Hx)).
      + exists (snd x). cbn [core_of snd] in K3. rewrite K3. apply (ray_state_facts D eps ncl b r x Hro Hx).
    - intro Z. pose proof (terms_length _ _ Ht) as Hl. rewrite <- Hs, !map_length, Z in Hl. cbn in Hl. destruct Hro as [_ [_ [K _]]]. apply K. apply length_zero_iff_nil. symmetry. exact Hl. }
  assert (Hone : Forall (fun c => Forall (fun st => check_state eps ncl st = true) (col_states c) /\ Forall (one_component D) (col_states c)) (group_columns g0)).
  { apply Forall_forall. intros c Hc. split; [apply splittable_check; exact (proj1 (Forall_forall _ _) E4 c Hc)|]. destruct (Hsmall c Hc) as [K _]. revert K. apply Forall_impl. intros s [K _]. apply small_one. exact K. }
  pose proof (single_photon_group_spec D eps ncl g0 HN Hone) as Hsp.
  exists g0, (Group (g_id g0) (g_cum g0) (map (fun kc => (fst kc, resolved_column D (snd kc))) (g_cols g0))).
  split; [exact E|]. split; [exact Hsp|]. split; [apply resolved_group_ok; exact E3|]. cbn [g_id g_cum]. split; [exact E1|]. split; [exact E2|].
  assert (Hgc : group_columns (Group (g_id g0) (g_cum g0) (map (fun kc => (fst kc, resolved_column D (snd kc))) (g_cols g0))) = map (resolved_column D) (group_columns g0)).
  { unfold group_columns. cbn [g_cols]. rewrite !map_map. reflexivity. }
  rewrite Hgc. split.
  - apply (Permutation_map (fun e : ess => (ess_amp e, snd (fst (fst e)), core_photons D (snd e)) : view)) in E6. rewrite map_map in E6. rewrite map_map.
    etransitivity; [|etransitivity; [exact E6|]].
    + apply Permutation_refl'. apply map_ext_in. intros c Hc. unfold view_of, column_ess, ess_amp. cbn [fst snd]. rewrite resolved_photons; [|exact HN|apply (proj1 (Forall_forall _ _) Hone c Hc)].
      rewrite photons_core. destruct (Hsmall c Hc) as [K _].
      assert (H1 : product (map (fun st => factorials (first_values D st)) (col_states c)) = 1).
      { clear -K. induction K as [|st l [H _] _ IH]; [reflexivity|]. cbn [map product fold_right]. unfold product in IH. rewrite IH, (small_factorials D st H). reflexivity. }
      unfold resolved_column, make_column; cbn [col_amp col_boson]. rewrite H1. cbn [INR]. rewrite sqrt_1, Rmult_1_r. reflexivity.
    + assert (Hgt : group_terms (bundle_group b) = flat_map expand (map (ray_column b) (bd_rays b))).
      { unfold group_terms, group_columns, bundle_group. cbn [g_cols]. rewrite map_map. reflexivity. }
      rewrite Hgt. clear Hgt. assert (Hall : map (fun e : ess => (ess_amp e, snd (fst (fst e)), core_photons D (snd e)) : view) (flat_map expand (map (ray_column b) (bd_rays b))) = flat_map (ray_views D) (bd_rays b)); [|rewrite Hall; reflexivity]. clear -Hr. induction Hr as [|r l Hro _ IH]; [reflexivity|].
      change (flat_map expand (map (ray_column b) (r :: l))) with (expand (ray_column b r) ++ flat_map expand (map (ray_column b) l)).
      change (flat_map (ray_views D) (r :: l)) with (ray_views D r ++ flat_map (ray_views D) l). rewrite map_app, IH. f_equal. unfold expand, ray_views. rewrite map_map. cbn [ray_column col_amp col_boson col_cum col_states]. destruct (ray_L D eps ncl b r Hro) as [L1 L2].
      assert (Hkind : Forall (state_kind D) (ry_states r)) by (apply Forall_forall; intros x Hx; apply (ray_state_facts D eps ncl b r x Hro Hx)).
      pose proof (terms_photons D (ry_states r) L1 L2 Hkind) as Ht.
      transitivity (map (fun y : C * list (nat * option (R * R)) => ((ry_amplitude r * fst y)%C, ry_boson r, snd y)) (map (fun t => (fst t, core_photons D (snd t))) (terms (map sp_state (ry_states r))))).
      * rewrite map_map. reflexivity.
      * rewrite Ht, map_map. reflexivity.
  - apply Forall_map. apply Forall_forall. intros c Hc. destruct (Hsmall c Hc) as [K1 K2]. unfold ready_column, resolved_column, make_column; cbn [col_states]. split.
    + intro Z. apply map_eq_nil in Z. destruct (col_states c) as [|s l]; [congruence|]. cbn [flat_map] in Z. apply app_eq_nil in Z. apply (parts_nonempty D s HN); [apply small_one; apply (Forall_inv K1)|apply Z].
    + apply Forall_map. apply Forall_forall. intros s Hs. apply in_flat_map in Hs. destruct Hs as [s0 [Hs0 Hs]]. destruct (proj1 (Forall_forall _ _) K1 s0 Hs0) as [L1 [[x [L2 L3]] [L4 [tm L5]]]].
      pose proof (small_one D s0 L1) as L6. pose proof (proj1 (Forall_forall _ _) (proj1 (proj1 (Forall_forall _ _) Hone c Hc)) s0 Hs0) as L7. split; [|split; [|split; [|split]]].
      * exact (proj1 (Forall_forall _ _) (parts_small D s0 HN L6) s Hs).
      * exact (proj1 (Forall_forall _ _) (parts_check D eps ncl s0 L7 L6 L4) s Hs).
      * exact (proj1 (Forall_forall _ _) (parts_probs D s0) s Hs).
      * exists tm. rewrite photon_stamp, <- L5. exact (proj1 (Forall_forall _ _) (parts_photon D s0) s Hs).
      * exists x. split; [exact L2|]. rewrite <- L3. pose proof (proj1 (Forall_forall _ _) (parts_frame D s0) s Hs) as Hf. rewrite <- Hf. unfold frame. rewrite drop_stamp. reflexivity.
Qed.

(** ** Probabilities *)
Definition v_amp (v : view) : C := fst (fst v).
Definition v_boson (v : view) : R := snd (fst v).
Definition v_photons (v : view) : list (nat * option (R * R)) := snd v.
Definition v_channels (v : view) : list nat := map fst (v_photons v).
Definition seq_overlap (v v' : view) (s t : list nat) : R :=
  Rprod (combine s t) (fun x => overlap (snd (nth (fst x) (v_photons v) (0, None))) (snd (nth (snd x) (v_photons v') (0, None)))).
Definition pair_value (proj : list nat) (pb : R) (v v' : view) : C :=
  (Cconj (v_amp v') * v_amp v / RtoC (pb * pb) / RtoC (v_boson v' * v_boson v)
   * RtoC (Rsum (valid_combinations proj (v_channels v)) (fun s => Rsum (valid_combinations proj (v_channels v')) (fun t => seq_overlap v v' s t))))%C.
Lemma fold_Rmult l : forall z, fold_left Rmult l z = (z * fold_right Rmult 1 l)%R.
Proof. induction l as [|x l IH]; intro z; cbn [fold_left fold_right]; [ring|]. rewrite IH. ring. Qed.
Lemma fold_Rplus l : forall z, fold_left Rplus l z = (z + fold_right Rplus 0 l)%R.
Proof. induction l as [|x l IH]; intro z; cbn [fold_left fold_right]; [ring|]. rewrite IH. ring. Qed.
Lemma Rsum_fold {A} (l : list A) f : fold_right Rplus 0%R (map f l) = Rsum l f.
Proof. induction l as [|x l IH]; [reflexivity|]. cbn [map fold_right]. rewrite IH. reflexivity. Qed.
Lemma seq_probability_spec D c c' s t : sequence_probability (list_of_photons D c) (list_of_photons D c') (combine s t) = seq_overlap (view_of D c) (view_of D c') s t.
Proof.
  unfold sequence_probability, seq_overlap. rewrite fold_Rmult, Rmult_1_l. unfold Rprod. induction (combine s t) as [|x l IH]; [reflexivity|]. cbn [map fold_right]. rewrite IH. reflexivity.
Qed.
Lemma pairs_sum D c c' vb vk :
  fold_left Rplus (map (sequence_probability (list_of_photons D c) (list_of_photons D c')) (flat_map (fun b => map (fun k => combine b k) vk) vb)) 0%R
  = Rsum vb (fun s => Rsum vk (fun t => seq_overlap (view_of D c) (view_of D c') s t)).
Proof.
  rewrite fold_Rplus, Rplus_0_l, Rsum_fold, Rsum_flat_map. apply Rsum_ext. intros s _. rewrite Rsum_map. apply Rsum_ext. intros t _. apply seq_probability_spec.
Qed.
Lemma pair_probability_spec D proj pb c c' :
  (match pair_probability D proj pb c c' with Some p => p | None => RtoC 0 end) = pair_value proj pb (view_of D c) (view_of D c').
Proof.
  unfold pair_probability, pair_value. unfold v_channels, v_amp, v_boson; cbn [view_of fst snd v_photons].
  set (vb := valid_combinations proj (map fst (list_of_photons D c))). set (vk := valid_combinations proj (map fst (list_of_photons D c'))).
  pose proof (pairs_sum D c c' vb vk) as Hs. change (map fst (v_photons (view_of D c))) with (map fst (list_of_photons D c)). change (map fst (v_photons (view_of D c'))) with (map fst (list_of_photons D c')).
  fold vb vk. destruct (flat_map (fun b => map (fun k => combine b k) vk) vb) as [|p ps] eqn:E.
  - cbn in Hs. rewrite <- Hs. apply C_eq; cbn; ring.
  - rewrite Hs. reflexivity.
Qed.
Lemma list_probability_spec D f cs :
  column_list_probability D f cs = Cmod (Csum (map (view_of D) cs) (fun v => Csum (map (view_of D) cs) (fun v' => pair_value (photon_channels f) (boson_fold 1 f) v v'))).
Proof.
  unfold column_list_probability, projection_of. f_equal.
  assert (H : forall l z, fold_left (fun acc (bk : column * column) => match pair_probability D (photon_channels f) (boson_fold 1 f) (fst bk) (snd bk) with Some p => (acc + p)%C | None => acc end) l z
     = (z + Csum l (fun bk => pair_value (photon_channels f) (boson_fold 1 f) (view_of D (fst bk)) (view_of D (snd bk))))%C).
  { induction l as [|bk l IH]; intro z; cbn [fold_left]; [rewrite Csum_nil; ring|]. rewrite IH, Csum_cons, <- pair_probability_spec. destruct (pair_probability _ _ _ _ _); ring. }
  rewrite H. rewrite Csum_map.
  assert (Hp : forall l l' (g : column * column -> C), Csum (list_prod l l') g = Csum l (fun x => Csum l' (fun y => g (x, y)))).
  { induction l as [|x l IH]; intros l' g; [reflexivity|]. cbn [list_prod]. rewrite Csum_app, Csum_map, IH. reflexivity. }
  rewrite Hp. cbn [fst snd]. rewrite Cplus_0_l. apply Csum_ext. intros c _. rewrite Csum_map. reflexivity.
Qed.
Definition matching (proj : list nat) (v : view) (s : list nat) : C :=
  if leqb (pickn (v_channels v) s) proj then (v_amp v / RtoC (v_boson v))%C else RtoC 0.
Lemma pair_value_orders f v v' : (v_boson v <> 0)%R -> (v_boson v' <> 0)%R -> length (v_channels v) = NamesSpec.photons f -> length (v_channels v') = NamesSpec.photons f ->
  pair_value (photon_channels f) (boson_fold 1 f) v v'
  = (Csum (permutations (seq 0 (NamesSpec.photons f))) (fun s => Csum (permutations (seq 0 (NamesSpec.photons f))) (fun t =>
       matching (photon_channels f) v s * Cconj (matching (photon_channels f) v' t) * RtoC (seq_overlap v v' s t))) / RtoC (INR (factorials f)))%C.
Proof.
  intros Hb Hb' H1 H2.
  assert (Hn : length (photon_channels f) = NamesSpec.photons f) by (rewrite photon_channels_pc; apply pc_length).
  assert (Hpb : (boson_fold 1 f * boson_fold 1 f = INR (factorials f))%R) by (rewrite boson_fold_spec, Rmult_1_l; apply sqrt_sqrt; apply pos_INR).
  assert (Hfp : INR (factorials f) <> 0%R) by (apply not_0_INR; pose proof (factorials_pos f); lia).
  unfold pair_value. rewrite Hpb.
  rewrite (Rsum_perm _ _ _ (valid_combinations_spec (photon_channels f) (v_channels v) (eq_trans H1 (eq_sym Hn)))).
  rewrite Rsum_filter. rewrite Hn.
  rewrite (Rsum_ext _ _ (fun s => if leqb (pickn (v_channels v) s) (photon_channels f) then Rsum (permutations (seq 0 (NamesSpec.photons f))) (fun t => if leqb (pickn (v_channels v') t) (photon_channels f) then seq_overlap v v' s t else 0%R) else 0%R)).
  2:{ intros s _. destruct (leqb _ _); [|reflexivity]. rewrite (Rsum_perm _ _ _ (valid_combinations_spec (photon_channels f) (v_channels v') (eq_trans H2 (eq_sym Hn)))). rewrite Rsum_filter, Hn. reflexivity. }
  assert (HE : forall (z : C) (X : R), (z / RtoC (INR (factorials f)) / RtoC (v_boson v' * v_boson v) * RtoC X)%C = (z / RtoC (v_boson v' * v_boson v) * RtoC X / RtoC (INR (factorials f)))%C).
  { intros z X. field. split; intro Z; apply RtoC_inj in Z; [apply Rmult_integral in Z; tauto|contradiction]. }
  rewrite HE. f_equal. rewrite <- Csum_RtoC, <- Csum_scal_l. apply Csum_ext. intros s _. unfold matching. destruct (leqb (pickn (v_channels v) s) (photon_channels f)).
  - rewrite <- Csum_RtoC, <- Csum_scal_l. apply Csum_ext. intros t _. destruct (leqb (pickn (v_channels v') t) (photon_channels f)).
    + rewrite RtoC_mult. unfold Cdiv. rewrite Cconj_mult. rewrite <- (RtoC_inv (v_boson v') Hb'). rewrite Cconj_RtoC. rewrite (RtoC_inv (v_boson v') Hb').
      field. split; intro Z; apply RtoC_inj in Z; contradiction.
    + rewrite Cconj_RtoC. ring.
  - rewrite Csum_zero by (intros; ring). ring.
Qed.

(** ** The detection probability of a group *)
Lemma quad_sum {A B S} (V : list A) (W : list B) (P Q : list S) (a : A -> S -> C) (b : B -> S -> C) (k : S -> S -> C) :
  Csum V (fun v => Csum W (fun w => Csum P (fun s => Csum Q (fun t => a v s * Cconj (b w t) * k s t))))%C
  = Csum P (fun s => Csum Q (fun t => Csum V (fun v => a v s) * Cconj (Csum W (fun w => b w t)) * k s t))%C.
Proof.
  transitivity (Csum V (fun v => Csum P (fun s => Csum Q (fun t => a v s * Cconj (Csum W (fun w => b w t)) * k s t))))%C.
  - apply Csum_ext. intros v _. rewrite Csum_swap. apply Csum_ext. intros s _. rewrite Csum_swap. apply Csum_ext. intros t _.
    rewrite Csum_conj, <- Csum_scal_l, <- Csum_scal_r. reflexivity.
  - rewrite Csum_swap. apply Csum_ext. intros s _. rewrite Csum_swap. apply Csum_ext. intros t _. rewrite <- !Csum_scal_r. reflexivity.
Qed.
Lemma overlap_pulse a b : overlap (Some a) (Some b) = pulse_overlap a b.
Proof.
  destruct a as [d1 w1], b as [d2 w2]. unfold overlap, pulse_overlap; cbn [fst snd]. f_equal.
  assert (H : (((d1 - d2) / sqrt (w1 ^ 2 + w2 ^ 2)) ^ 2 = (d1 - d2) ^ 2 / (w1 ^ 2 + w2 ^ 2))%R).
  { unfold Rdiv. rewrite Rpow_mult_distr, pow_inv. rewrite pow2_sqrt; [reflexivity|]. pose proof (pow2_ge_0 w1). pose proof (pow2_ge_0 w2). lra. }
  rewrite H. ring.
Qed.
Lemma orders_bound n s j : In s (permutations (seq 0 n)) -> In j s -> j < n.
Proof. intros Hs Hj. apply permutations_in in Hs. apply (Permutation_in _ (Permutation_sym Hs)) in Hj. apply in_seq in Hj. lia. Qed.
Lemma orders_length n s : In s (permutations (seq 0 n)) -> length s = n.
Proof. intros Hs. apply permutations_in in Hs. rewrite <- (Permutation_length Hs). apply seq_length. Qed.
Lemma Rprod_ext {A} (l : list A) f g : (forall x, In x l -> f x = g x) -> Rprod l f = Rprod l g.
Proof. induction l as [|x l IH]; intro H; [reflexivity|]. unfold Rprod in *. cbn [fold_right]. rewrite (H x (or_introl eq_refl)), IH; [reflexivity|]. intros y Hy. apply H. right. exact Hy. Qed.
Lemma ray_view_channels D r v : In v (ray_views D r) -> length (v_channels v) = length (lit_states (ry_states r)) /\
  (forall j, j < length (lit_states (ry_states r)) -> snd (nth j (v_photons v) (0, None)) = Some (ph_timing (nth_photon (ray_branch D r) j))) /\ v_boson v = ry_boson r.
Proof.
  intro H. unfold ray_views in H. apply in_map_iff in H. destruct H as [a [<- Ha]]. pose proof (assignments_length _ _ Ha) as Hl. rewrite map_length in Hl.
  unfold v_channels, v_photons, v_boson; cbn [fst snd]. split; [rewrite map_length, combine_length, map_length, Hl; apply Nat.min_id|]. split; [|reflexivity].
  intros j Hj. rewrite combine_nth by (rewrite map_length; exact Hl). cbn [snd]. unfold nth_photon, ray_branch, lit_states in *; cbn [br_photons].
  rewrite (nth_indep _ no_photon ((fun x : bool * state * (R * R) => Photon (wave D (snd (fst x))) (snd x)) (false, State [] 0 [] [] [] [], (0%R, 1%R)))) by (rewrite map_length; exact Hj).
  rewrite (map_nth (fun x : bool * state * (R * R) => Photon (wave D (snd (fst x))) (snd x))). cbn [ph_timing].
  rewrite (nth_indep _ None ((fun x : bool * state * (R * R) => Some (snd x)) (false, State [] 0 [] [] [] [], (0%R, 1%R)))) by (rewrite map_length; exact Hj).
  rewrite (map_nth (fun x : bool * state * (R * R) => Some (snd x))). reflexivity.
Qed.
Lemma views_overlap D r r' v v' n s t : In v (ray_views D r) -> In v' (ray_views D r') -> length (lit_states (ry_states r)) = n -> length (lit_states (ry_states r')) = n ->
  In s (permutations (seq 0 n)) -> In t (permutations (seq 0 n)) -> seq_overlap v v' s t = indistinct (ray_branch D r) (ray_branch D r') s t.
Proof.
  intros Hv Hv' Hn Hn' Hs Ht. unfold seq_overlap, indistinct. apply Rprod_ext. intros [i j] Hx. cbn [fst snd]. pose proof (in_combine_l _ _ _ _ Hx) as Hi. pose proof (in_combine_r _ _ _ _ Hx) as Hj.
  apply (orders_bound n) in Hi; [|exact Hs]. apply (orders_bound n) in Hj; [|exact Ht].
  rewrite (proj1 (proj2 (ray_view_channels D r v Hv))) by lia. rewrite (proj1 (proj2 (ray_view_channels D r' v' Hv'))) by lia. apply overlap_pulse.
Qed.
Lemma map_fst_combine' {A B} (l : list A) (m : list B) : length l = length m -> map fst (combine l m) = l.
Proof. revert m. induction l as [|x l IH]; intros [|y m] H; try discriminate; [reflexivity|]. cbn [combine map fst]. f_equal. apply IH. injection H as H. exact H. Qed.
Lemma pc_channels f : photon_channels f = channels_of f.
Proof. apply channels_of_spec. Qed.
Lemma ray_path D eps ncl b r f s : ray_ok D eps ncl b r -> length f = dN D -> length (lit_states (ry_states r)) = NamesSpec.photons f -> In s (permutations (seq 0 (NamesSpec.photons f))) ->
  Csum (ray_views D r) (fun v => matching (photon_channels f) v s) = path (ray_branch D r) (channels_of f) s.
Proof.
  intros Hr Hf Hn Hs. unfold ray_views, path, matching. rewrite Csum_map. unfold v_channels, v_amp, v_boson, v_photons; cbn [fst snd].
  assert (Hpn : length (photon_channels f) = NamesSpec.photons f) by (rewrite photon_channels_pc; apply pc_length).
  set (ls := map (fun x => spectrum D (sp_state x)) (lit_states (ry_states r))).
  assert (Hls : length ls = NamesSpec.photons f) by (unfold ls; rewrite map_length; exact Hn).
  transitivity (Csum (assignments ls) (fun a => ry_amplitude r / RtoC (ry_boson r) * (if leqb (pickn (snd a) s) (photon_channels f) then fst a else RtoC 0)))%C.
  - apply Csum_ext. intros a Ha. pose proof (assignments_length _ _ Ha) as Hl.
    assert (E : map fst (combine (snd a) (map (fun x => Some (snd x)) (lit_states (ry_states r)))) = snd a).
    { apply map_fst_combine'. rewrite map_length. lia. }
    rewrite E. destruct (leqb (pickn (snd a) s) (photon_channels f)); [|ring]. unfold Cdiv. ring.
  - rewrite Csum_scal_l. f_equal. rewrite assignments_order; [|lia|rewrite Hls; exact Hs]. rewrite pc_channels. apply Cprod_ext. intros [j c] Hx. cbn [fst snd].
    pose proof (in_combine_l _ _ _ _ Hx) as Hj. pose proof (in_combine_r _ _ _ _ Hx) as Hc. apply (orders_bound _ _ _ Hs) in Hj.
    assert (HcN : c < dN D). { rewrite <- pc_channels, photon_channels_pc in Hc. apply pc_in in Hc. lia. }
    destruct (ray_L D eps ncl b r Hr) as [_ HL]. assert (H2 : 2 <= dL D) by (apply HL; intro Z; rewrite Z in Hn; cbn in Hn; lia).
    unfold ls, nth_photon, ray_branch; cbn [br_photons]. fold (lit_states (ry_states r)).
    set (d := (false, State [] 0 [] [] [] [], (0%R, 1%R)) : bool * state * (R * R)).
    rewrite (nth_indep _ no_photon ((fun x : bool * state * (R * R) => Photon (wave D (snd (fst x))) (snd x)) d)) by (rewrite map_length; lia).
    rewrite (map_nth (fun x : bool * state * (R * R) => Photon (wave D (snd (fst x))) (snd x))). cbn [ph_wave].
    rewrite (nth_indep _ [] ((fun x : bool * state * (R * R) => spectrum D (sp_state x)) d)) by (rewrite map_length; lia).
    rewrite (map_nth (fun x : bool * state * (R * R) => spectrum D (sp_state x))).
    apply spectrum_wave; [exact H2| |exact HcN].
    assert (Hin : In (nth j (lit_states (ry_states r)) d) (lit_states (ry_states r))) by (apply nth_In; lia). unfold lit_states in Hin at 2. apply filter_In in Hin. destruct Hin as [Hin Hb].
    destruct (ray_state_facts D eps ncl b r _ Hr Hin) as [_ [_ [[Hk _] _]]]. rewrite Hb in Hk. exact Hk.
Qed.
Lemma ray_branch_length D r : length (br_photons (ray_branch D r)) = length (lit_states (ry_states r)).
Proof. unfold ray_branch; cbn [br_photons]. apply map_length. Qed.
Definition v_occ (D : dims) (v : view) : values := occupation (dN D) (v_channels v).
Lemma occupation_photons n l : Forall (fun c => c < n) l -> NamesSpec.photons (occupation n l) = length l.
Proof.
  intro H. assert (Hn : NoDup (seq 0 n)) by apply seq_NoDup.
  assert (G : forall k, length l = length l -> NamesSpec.photons (map (fun i => count_occ Nat.eq_dec l i) (seq 0 k)) = length (filter (fun c => c <? k) l)).
  { clear. intros k _. induction k as [|k IH].
    - cbn. induction l as [|x l IH]; [reflexivity|]. cbn [filter]. exact IH.
    - rewrite seq_S, map_app, photons_app. cbn [map NamesSpec.photons plus]. rewrite Nat.add_0_r.
      rewrite IH. clear. induction l as [|x l IH]; [reflexivity|]. cbn [count_occ filter length]. destruct (Nat.eq_dec x k) as [->|Hx].
      + rewrite Nat.ltb_irrefl. assert (E : (k <? S k) = true) by (apply Nat.ltb_lt; lia). rewrite E. cbn [length]. lia.
      + destruct (x <? k) eqn:E1; destruct (x <? S k) eqn:E2; cbn [length]; try lia; [apply Nat.ltb_lt in E1; apply Nat.ltb_ge in E2; lia|apply Nat.ltb_ge in E1; apply Nat.ltb_lt in E2; lia]. }
  unfold occupation. rewrite G by reflexivity. f_equal. clear -H. induction H as [|x l Hx _ IH]; [reflexivity|]. cbn [filter]. rewrite (proj2 (Nat.ltb_lt _ _) Hx), IH. reflexivity.
Qed.
Lemma occupation_perm n l l' : Permutation l l' -> occupation n l = occupation n l'.
Proof. intro H. unfold occupation. apply map_ext. intro i. apply (Permutation_count_occ Nat.eq_dec l l'). exact H. Qed.
Lemma assignments_in (ls : list (list (C * nat))) t c : In t (assignments ls) -> In c (snd t) -> exists l, In l ls /\ In c (map snd l).
Proof.
  revert t. induction ls as [|l r IH]; intros t Ht Hc; cbn [assignments] in Ht; [destruct Ht as [<-|[]]; destruct Hc|].
  apply in_flat_map in Ht. destruct Ht as [x [Hx Ht]]. apply in_map_iff in Ht. destruct Ht as [y [<- Hy]]. cbn [snd] in Hc. destruct Hc as [<-|Hc].
  - exists l. split; [left; reflexivity|apply in_map; exact Hx].
  - destruct (IH y Hy Hc) as [l' [H1 H2]]. exists l'. split; [right; exact H1|exact H2].
Qed.
Lemma ray_view_bound D eps ncl b r v : ray_ok D eps ncl b r -> In v (ray_views D r) -> Forall (fun c => c < dN D) (v_channels v).
Proof.
  intros Hr Hv. apply Forall_forall. intros c Hc. unfold ray_views in Hv. apply in_map_iff in Hv. destruct Hv as [a [<- Ha]]. unfold v_channels, v_photons in Hc; cbn [snd] in Hc.
  apply in_map_iff in Hc. destruct Hc as [[c' q] [Ec Hc]]. cbn [fst] in Ec. subst c'. apply in_combine_l in Hc. destruct (assignments_in _ _ _ Ha Hc) as [l [Hl Hcl]].
  apply in_map_iff in Hl. destruct Hl as [x [<- Hx]]. unfold spectrum in Hcl. rewrite map_map in Hcl. cbn [snd] in Hcl. apply in_map_iff in Hcl. destruct Hcl as [u [<- Hu]].
  destruct (ray_L D eps ncl b r Hr) as [_ HL]. assert (H2 : 2 <= dL D) by (apply HL; intro Z; rewrite Z in Hx; destruct Hx).
  apply filter_In in Hx. destruct Hx as [Hx Hb]. destruct (ray_state_facts D eps ncl b r x Hr Hx) as [_ [_ [[Hk _] _]]]. rewrite Hb in Hk. apply (lit_photons D (sp_state x) u H2 Hk Hu).
Qed.
Lemma views_detection D eps ncl b f : bundle_ok D eps ncl b -> length f = dN D ->
  Csum (filter (fun v => leqb (v_occ D v) f) (flat_map (ray_views D) (bd_rays b)))
    (fun v => Csum (filter (fun v => leqb (v_occ D v) f) (flat_map (ray_views D) (bd_rays b))) (fun v' => pair_value (photon_channels f) (boson_fold 1 f) v v'))
  = (interference (map (ray_branch D) (bd_rays b)) f / RtoC (INR (factorials f)))%C.
Proof.
  intros [_ [_ Hr]] Hf. set (V := flat_map (ray_views D) (bd_rays b)). set (n := NamesSpec.photons f).
  assert (HV : forall v, In v V -> exists r, In r (bd_rays b) /\ In v (ray_views D r) /\ ray_ok D eps ncl b r).
  { intros v Hv. apply in_flat_map in Hv. destruct Hv as [r [H1 H2]]. exists r. split; [exact H1|]. split; [exact H2|]. exact (proj1 (Forall_forall _ _) Hr r H1). }
  assert (Hocc : forall v, In v V -> leqb (v_occ D v) f = true -> (length (v_channels v) =? n) = true).
  { intros v Hv E. apply leqb_spec in E. destruct (HV v Hv) as [r [_ [H2 H3]]]. apply Nat.eqb_eq. unfold n. rewrite <- E. symmetry. apply occupation_photons. apply (ray_view_bound D eps ncl b r v H3 H2). }
  assert (Hpb : forall v, In v V -> v_boson v <> 0%R).
  { intros v Hv. destruct (HV v Hv) as [r [_ [H2 H3]]]. rewrite (proj2 (proj2 (ray_view_channels D r v H2))). destruct H3 as [_ [H3 _]]. lra. }
  assert (Hno : forall v s, In v V -> leqb (v_occ D v) f = false -> (length (v_channels v) =? n) = true -> In s (permutations (seq 0 n)) -> matching (photon_channels f) v s = RtoC 0).
  { intros v s Hv E El Hs. unfold matching. destruct (leqb (pickn (v_channels v) s) (photon_channels f)) eqn:Em; [|reflexivity]. apply leqb_spec in Em. apply Nat.eqb_eq in El.
    pose proof (pick_permutation _ _ _ n El Hs Em) as Hp. apply (occupation_perm (dN D)) in Hp. rewrite (occupation_channels f (dN D) Hf) in Hp. unfold v_occ in E. rewrite Hp in E.
    rewrite (proj2 (leqb_spec f f) eq_refl) in E. discriminate. }
  set (T := fun v v' => Csum (permutations (seq 0 n)) (fun s => Csum (permutations (seq 0 n)) (fun t =>
       matching (photon_channels f) v s * Cconj (matching (photon_channels f) v' t) * RtoC (seq_overlap v v' s t)))%C).
  transitivity (Csum (filter (fun v => length (v_channels v) =? n) V) (fun v => Csum (filter (fun v => length (v_channels v) =? n) V) (fun v' => T v v')) / RtoC (INR (factorials f)))%C.
  - unfold Cdiv. rewrite <- Csum_scal_r. rewrite !Csum_filter. apply Csum_ext. intros v Hv. destruct (leqb (v_occ D v) f) eqn:E.
    + rewrite (Hocc v Hv E). rewrite <- Csum_scal_r, !Csum_filter. apply Csum_ext. intros v' Hv'. destruct (leqb (v_occ D v') f) eqn:E'.
      * rewrite (Hocc v' Hv' E'). apply pair_value_orders; [apply Hpb; exact Hv|apply Hpb; exact Hv'|apply Nat.eqb_eq, (Hocc v Hv E)|apply Nat.eqb_eq, (Hocc v' Hv' E')].
      * destruct (length (v_channels v') =? n) eqn:El; [|reflexivity]. unfold T. rewrite Csum_zero; [symmetry; apply Cmult_0_l|]. intros s Hs. apply Csum_zero. intros t Ht.
        rewrite (Hno v' t Hv' E' El Ht), Cconj_RtoC. ring.
    + destruct (length (v_channels v) =? n) eqn:El; [|reflexivity]. rewrite Csum_zero; [symmetry; apply Cmult_0_l|]. intros v' Hv'. unfold T. apply Csum_zero. intros s Hs. apply Csum_zero. intros t Ht.
      rewrite (Hno v s Hv E El Hs). ring.
  - f_equal. unfold interference. unfold fitting. rewrite !Csum_filter. unfold V. rewrite Csum_flat_map, Csum_map. apply Csum_ext. intros r Hr1.
    pose proof (proj1 (Forall_forall _ _) Hr r Hr1) as Hro. rewrite (ray_branch_length D r). fold n.
    rewrite (Csum_ext (ray_views D r) _ (fun v => if length (lit_states (ry_states r)) =? n then Csum (filter (fun v0 => length (v_channels v0) =? n) (flat_map (ray_views D) (bd_rays b))) (fun v' => T v v') else RtoC 0)).
    2:{ intros v Hv. rewrite (proj1 (ray_view_channels D r v Hv)). reflexivity. }
    destruct (length (lit_states (ry_states r)) =? n) eqn:El; [|apply Csum_zero; reflexivity]. apply Nat.eqb_eq in El.
    rewrite (Csum_ext (ray_views D r) _ (fun v => Csum (bd_rays b) (fun r' => if length (lit_states (ry_states r')) =? n then Csum (ray_views D r') (fun v' => T v v') else RtoC 0))).
    2:{ intros v Hv. rewrite Csum_filter, Csum_flat_map. apply Csum_ext. intros r' Hr1'.
        rewrite (Csum_ext (ray_views D r') _ (fun v' => if length (lit_states (ry_states r')) =? n then T v v' else RtoC 0)); [destruct (_ =? n); [reflexivity|apply Csum_zero; reflexivity]|].
        intros v' Hv'. rewrite (proj1 (ray_view_channels D r' v' Hv')). reflexivity. }
    rewrite Csum_swap. rewrite Csum_filter, Csum_map. apply Csum_ext. intros r' Hr1'. rewrite (ray_branch_length D r'). fold n.
    destruct (length (lit_states (ry_states r')) =? n) eqn:El'; [|apply Csum_zero; reflexivity]. apply Nat.eqb_eq in El'. pose proof (proj1 (Forall_forall _ _) Hr r' Hr1') as Hro'.
    transitivity (Csum (ray_views D r) (fun v => Csum (ray_views D r') (fun v' => Csum (permutations (seq 0 n)) (fun s => Csum (permutations (seq 0 n)) (fun t =>
       matching (photon_channels f) v s * Cconj (matching (photon_channels f) v' t) * RtoC (indistinct (ray_branch D r) (ray_branch D r') s t)))))%C).
    + apply Csum_ext. intros v Hv. apply Csum_ext. intros v' Hv'. unfold T. apply Csum_ext. intros s Hs. apply Csum_ext. intros t Ht. rewrite (views_overlap D r r' v v' n s t) by assumption. reflexivity.
    + rewrite quad_sum. apply Csum_ext. intros s Hs. apply Csum_ext. intros t Ht. rewrite (ray_path D eps ncl b r f s Hro Hf El Hs). rewrite (ray_path D eps ncl b r' f t Hro' Hf El' Ht). reflexivity.
Qed.
