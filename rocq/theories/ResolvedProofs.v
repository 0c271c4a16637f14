(** Proofs about collections of single-photon states: they are read back as they are. *)
From Coq Require Import Reals List Arith Lia Lra Bool Permutation.
From Coquelicot Require Import Complex.
From Verif Require Import Prelude NamesModel NamesSpec NamesProofs FockModel FockProofs StateModel StateSpec StateProofs ApplyProofs
  CollectionModel EvalModel PropMeasure PropCollection PropEval PropBridge PropPRMeasure OperatorModel ColumnModel ColumnSpec ColumnProofs PropColumn
  GroupProofs TemporalSpec TemporalProofs.
Import ListNotations.

Lemma split_singles eps ncl g : Forall (fun c => Forall single (col_states c)) (group_columns g) -> split_columns eps ncl g = Some g.
Proof.
  intro H. assert (Hs : forall cols, Forall (fun c => Forall single (col_states c)) (map snd cols) -> split_one eps ncl cols = Some None).
  { clear. induction cols as [|[k c] r IH]; intro H; [reflexivity|]. cbn [split_one].
    assert (Hn : split_first (col_states c) = Some None).
    { pose proof (Forall_inv H) as H1. cbn [snd] in H1. induction H1 as [|s l [d Hd] _ IHl]; [reflexivity|]. cbn [split_first]. rewrite Hd, IHl. reflexivity. }
    unfold split_column. rewrite Hn, (IH (Forall_inv_tail H)). reflexivity. }
  unfold split_columns. specialize (Hs (g_cols g) H). destruct (fold_right Nat.add 0 _); cbn [split_loop]; rewrite Hs; reflexivity.
Qed.
Definition photon_state (D : dims) (eps : R) (ncl : nat) (st : state) : Prop :=
  check_state eps ncl st = true /\ (0 <= s_cum st <= 1)%R /\
  exists vs a, valid D vs /\ NamesSpec.photons vs <= 1 /\ s_comps st = [(name_string D vs, (a, Cnorm2 a))].
Lemma photon_state_one D eps ncl st : photon_state D eps ncl st -> one_component D st.
Proof. intros [_ [_ [vs [a [H1 [_ H2]]]]]]. exists vs, a, (Cnorm2 a). split; assumption. Qed.
Lemma with_comps_same st cs : s_comps st = cs -> with_comps st cs = st.
Proof. intros <-. destruct st. reflexivity. Qed.
Lemma photon_parts D eps ncl st : 1 <= dN D -> photon_state D eps ncl st -> parts_of D st = [st] /\ factorials (first_values D st) = 1.
Proof.
  intros HN [_ [_ [vs [a [Hv [Hp Hs]]]]]]. unfold parts_of. rewrite (first_values_one D st vs a _ Hv Hs). split.
  - unfold first_amp. rewrite Hs. unfold parts. pose proof (occupation_channels vs (dN D) (proj1 Hv)) as Hocc. destruct (0 <? sum_values vs) eqn:E.
    + apply Nat.ltb_lt in E. rewrite sum_values_photons in E.
      assert (Hl : length (photon_channels vs) = 1) by (rewrite photon_channels_pc, pc_length; lia).
      destruct (photon_channels vs) as [|c [|? ?]] eqn:Ec; try discriminate. cbn [map].
      assert (Hc : c < dN D) by (assert (Hin : In c (photon_channels vs)) by (rewrite Ec; left; reflexivity); rewrite photon_channels_pc in Hin; apply pc_in in Hin; rewrite (proj1 Hv) in Hin; lia).
      rewrite (unit_occupation (dN D) c Hc), Hocc. rewrite with_comps_same by exact Hs. reflexivity.
    + apply Nat.ltb_ge in E. rewrite sum_values_photons in E.
      assert (Hl : photon_channels vs = []) by (apply length_zero_iff_nil; rewrite photon_channels_pc, pc_length; lia).
      assert (Hz : vs = repeat 0 (dN D)).
      { rewrite <- Hocc, Hl. apply (nth_ext_0 _ _ (dN D)); [apply occupation_length|apply repeat_length|]. intros i Hi. rewrite occupation_nth by exact Hi. rewrite nth_repeat_0. reflexivity. }
      rewrite <- Hz, with_comps_same by exact Hs. reflexivity.
  - apply factorials_small. clear -Hp. induction vs as [|v vs IH]; constructor; cbn in Hp; [lia|apply IH; lia].
Qed.
Definition photon_group (D : dims) (eps : R) (ncl : nat) (ig : ident * group) : Prop :=
  readable ig /\ Forall (fun c => Forall (photon_state D eps ncl) (col_states c)) (group_columns (snd ig)).
Lemma resolved_same D eps ncl c : 1 <= dN D -> stamped c -> Forall (photon_state D eps ncl) (col_states c) -> resolved_column D c = c.
Proof.
  intros HN Hs Hp. unfold resolved_column.
  assert (H1 : product (map (fun st => factorials (first_values D st)) (col_states c)) = 1).
  { clear Hs. induction Hp as [|st l H _ IH]; [reflexivity|]. cbn [map product fold_right]. unfold product in IH. rewrite IH, (proj2 (photon_parts D eps ncl st HN H)). reflexivity. }
  assert (H2 : flat_map (parts_of D) (col_states c) = col_states c).
  { clear Hs H1. induction Hp as [|st l H _ IH]; [reflexivity|]. cbn [flat_map]. rewrite IH, (proj1 (photon_parts D eps ncl st HN H)). reflexivity. }
  rewrite H1, H2. cbn [INR]. rewrite sqrt_1, Rmult_1_r, make_stamped by exact Hs. destruct c. reflexivity.
Qed.
Lemma photon_group_resolved D eps ncl ig : 1 <= dN D -> photon_group D eps ncl ig ->
  split_columns eps ncl (snd ig) = Some (snd ig) /\ single_photon_group D eps ncl (snd ig) = Some (snd ig).
Proof.
  intros HN [[Hok _] Hp]. split.
  - apply split_singles. revert Hp. apply Forall_impl. intros c H. revert H. apply Forall_impl. intros st H. apply (one_component_single D). apply (photon_state_one D eps ncl). exact H.
  - rewrite (single_photon_group_spec D eps ncl (snd ig) HN).
    + f_equal. destruct (snd ig) as [n p cols]. cbn [g_id g_cum g_cols] in *. f_equal. unfold group_columns in Hp; cbn [g_cols] in Hp.
      destruct Hok as [_ Hok]. cbn [g_cols g_id g_cum] in Hok. rewrite <- (map_id cols) at 2. apply map_ext_in. intros kc Hkc.
      destruct (proj1 (Forall_forall _ _) Hok kc Hkc) as [_ [_ [_ Hst]]]. rewrite (resolved_same D eps ncl (snd kc) HN Hst) by exact (proj1 (Forall_forall _ _) Hp (snd kc) (in_map snd _ _ Hkc)).
      destruct kc. reflexivity.
    + revert Hp. apply Forall_impl. intros c H. split; (revert H; apply Forall_impl; intros st H); [apply H|apply (photon_state_one D eps ncl); exact H].
Qed.
Lemma option_list_same {A} (f : A -> option A) l : (forall x, In x l -> f x = Some x) -> option_list (map f l) = Some l.
Proof. induction l as [|x l IH]; intro H; [reflexivity|]. cbn [map option_list]. rewrite (H x (or_introl eq_refl)), IH by (intros; apply H; right; assumption). reflexivity. Qed.
(** A collection made of the states of single-photon groups. *)
Lemma resolved_again cs igs : 1 <= dN (co_D cs) -> map snd (co_items cs) = flat_map (fun ig => group_states_of (snd ig)) igs ->
  Forall (photon_group (co_D cs) (co_eps cs) (co_ncl cs)) igs -> NoDup (map (fun ig => (fst ig, g_id (snd ig))) igs) ->
  exists igs', resolved_groups cs = Some (map snd igs') /\ Permutation igs' igs.
Proof.
  intros HN E Hp Hnd. destruct (regroup (co_items cs) igs E) as [cc [Ecc Hcc]]; [revert Hp; apply Forall_impl; intros ig H; apply H|exact Hnd|].
  pose proof (Permutation_map (fun x : ident * nat * group => (fst (fst x), snd x)) Hcc) as Hcc2. rewrite map_map in Hcc2. cbn [fst snd] in Hcc2.
  assert (Hid : map (fun x : ident * group => (fst x, snd x)) igs = igs) by (rewrite <- (map_id igs) at 2; apply map_ext; intros [a b]; reflexivity). rewrite Hid in Hcc2.
  exists (map (fun x : ident * nat * group => (fst (fst x), snd x)) (labelled cc)). split; [|exact Hcc2].
  unfold resolved_groups. rewrite Ecc. assert (Hg : all_groups cc = map snd (map (fun x : ident * nat * group => (fst (fst x), snd x)) (labelled cc))).
  { rewrite all_groups_labelled, map_map. reflexivity. }
  assert (Hall : forall g, In g (all_groups cc) -> split_columns (co_eps cs) (co_ncl cs) g = Some g /\ single_photon_group (co_D cs) (co_eps cs) (co_ncl cs) g = Some g).
  { intros g Hin. rewrite Hg in Hin. apply in_map_iff in Hin. destruct Hin as [ig [<- Hin]]. apply (Permutation_in _ Hcc2) in Hin.
    apply (photon_group_resolved _ _ _ ig HN). exact (proj1 (Forall_forall _ _) Hp ig Hin). }
  unfold split_groups. rewrite (option_list_same (split_columns (co_eps cs) (co_ncl cs))) by (intros; apply Hall; assumption).
  unfold single_photon_groups. rewrite (option_list_same (single_photon_group (co_D cs) (co_eps cs) (co_ncl cs))) by (intros; apply Hall; assumption).
  rewrite Hg. reflexivity.
Qed.

(** A plain collection gives single-photon groups. *)
Lemma resolved_plain cs : 1 <= dN (co_D cs) -> (0 <= co_eps cs)%R -> Forall (fun it => good_state (co_D cs) (co_eps cs) (co_ncl cs) (snd it) /\ probs_ok (snd it)) (co_items cs) ->
  exists igs, resolved_groups cs = Some (map snd igs) /\ Forall (photon_group (co_D cs) (co_eps cs) (co_ncl cs)) igs /\ NoDup (map (fun ig => (fst ig, g_id (snd ig))) igs).
Proof.
  intros HN He H. assert (Hgood : Forall (fun it => good_state (co_D cs) (co_eps cs) (co_ncl cs) (snd it)) (co_items cs)) by (revert H; apply Forall_impl; intros it K; apply K).
  destruct (plain_groups (co_D cs) (co_eps cs) (co_ncl cs) (co_items cs) He Hgood) as [cc [sks [gs [E1 [E2 [Hp [Hnd HF]]]]]]].
  assert (Hg2 : Forall (fun sk => good_state (co_D cs) (co_eps cs) (co_ncl cs) (fst sk) /\ probs_ok (fst sk)) sks).
  { apply Forall_forall. intros sk Hin. apply (in_map fst) in Hin. apply (Permutation_in _ Hp) in Hin. apply in_map_iff in Hin. destruct Hin as [it [<- Hin]]. exact (proj1 (Forall_forall _ _) H it Hin). }
  assert (Hg3 : Forall (fun sk => good_state (co_D cs) (co_eps cs) (co_ncl cs) (fst sk)) sks) by (revert Hg2; apply Forall_impl; intros sk K; apply K).
  set (res := fun g => Group (g_id g) (g_cum g) (map (fun kc => (fst kc, resolved_column (co_D cs) (snd kc))) (g_cols g))).
  exists (map (fun sg : (state * nat) * group => (s_init (fst (fst sg)), res (snd sg))) (combine sks gs)).
  assert (Hlen : length sks = length gs) by (clear -HF; induction HF; [reflexivity|cbn; congruence]).
  assert (Hgs : map snd (combine sks gs) = gs).
  { clear -Hlen. revert gs Hlen. induction sks as [|x l IH]; intros [|y l'] Hl; try discriminate; [reflexivity|]. cbn [combine map snd]. f_equal. apply IH. cbn in Hl. lia. }
  assert (Hsk : map fst (combine sks gs) = sks).
  { clear -Hlen. revert gs Hlen. induction sks as [|x l IH]; intros [|y l'] Hl; try discriminate; [reflexivity|]. cbn [combine map fst]. f_equal. apply IH. cbn in Hl. lia. }
  assert (Hc : Forall (fun sg => (good_state (co_D cs) (co_eps cs) (co_ncl cs) (fst (fst sg)) /\ probs_ok (fst (fst sg))) /\ split_facts (co_eps cs) (co_ncl cs) (fst sg) (snd sg)) (combine sks gs)).
  { clear -HF Hg2. induction HF as [|sk g sks gs Hs _ IH]; [constructor|]. cbn [combine]. apply Forall_cons; [split; [exact (Forall_inv Hg2)|exact Hs]|apply IH; exact (Forall_inv_tail Hg2)]. }
  split; [|split].
  - unfold resolved_groups. rewrite E1, E2, (resolved_groups_plain _ _ _ sks gs HN He Hg3 HF). f_equal. rewrite map_map. cbn [snd]. rewrite <- (map_map snd res), Hgs. reflexivity.
  - apply Forall_map. revert Hc. apply Forall_impl. intros [sk g] [[Hg Hpr] Hsf]. cbn [fst snd] in *.
    destruct (split_reads _ _ _ sk g He Hg Hsf) as [Hr _]. pose proof (split_facts_nonempty _ _ _ sk g Hg Hsf) as Hne.
    assert (Hps : Forall (fun c => Forall (photon_state (co_D cs) (co_eps cs) (co_ncl cs)) (col_states (resolved_column (co_D cs) c)) /\
        Forall (fun st => s_init st = s_init (fst sk)) (col_states (resolved_column (co_D cs) c)) /\ col_states (resolved_column (co_D cs) c) <> []) (group_columns g)).
    { apply Forall_forall. intros c Hcin. pose proof (proj1 (Forall_forall _ _) Hr c Hcin) as Hcr.
      destruct Hcr as [s [vs [a [p [K1 [K2 [K3 [K4 [K5 [K6 [K7 [K8 [K9 _]]]]]]]]]]]]].
      assert (Ho : one_component (co_D cs) s) by (exists vs, a, p; split; assumption).
      assert (Hps : probs_ok s).
      { destruct Hsf as [_ [_ [_ [_ Hperm]]]]. assert (Hin' := in_map column_ess _ _ Hcin). apply (Permutation_in _ Hperm) in Hin'. apply in_map_iff in Hin'.
        destruct Hin' as [x [Hx1 Hx2]]. pose proof (f_equal snd Hx1) as Hs. unfold column_ess in Hs; cbn [snd] in Hs. rewrite K1 in Hs. cbn [map] in Hs. assert (Hs' : snd x = core_of s) by congruence.
        unfold choices in Hx2. destruct (s_comps (fst sk)) as [|c1 [|c2 cs0]] eqn:Ec; [destruct Hx2| |].
        - destruct Hx2 as [<-|[]]. cbn [snd] in Hs'. intros nm z q Hin. apply (Hpr nm). rewrite (core_comps _ _ Hs'). exact Hin.
        - apply in_map_iff in Hx2. destruct Hx2 as [c0 [<- _]]. cbn [snd] in Hs'.
          intros nm z q Hin. assert (Hcs : s_comps s = unit_comp (fst c0)) by exact (eq_sym (f_equal (fun k => s_comps (fst k)) Hs')). rewrite Hcs in Hin. destruct Hin as [Z|[]].
          assert (z = RtoC 1 /\ q = 1%R) as [-> ->] by (split; congruence). rewrite Cnorm2_RtoC. ring. }
      unfold resolved_column, make_column; cbn [col_states]. rewrite K1. cbn [flat_map]. rewrite app_nil_r.
      split; [|split].
      - apply Forall_map. apply Forall_forall. intros x Hx. pose proof (proj1 (Forall_forall _ _) (parts_check (co_D cs) _ _ s K9 Ho Hps) x Hx) as L1.
        pose proof (proj1 (Forall_forall _ _) (parts_small (co_D cs) s HN Ho) x Hx) as L2. pose proof (proj1 (Forall_forall _ _) (parts_frame (co_D cs) s) x Hx) as L3.
        split; [rewrite stamp_check; exact L1|]. split.
        + assert (Hxs : s_cum x = s_cum s).
          { clear -Hx. unfold parts_of, parts in Hx. destruct (0 <? _); [apply in_map_iff in Hx; destruct Hx as [z [<- _]]; reflexivity|destruct Hx as [<-|[]]; reflexivity]. }
          change (0 <= s_cum x <= 1)%R. rewrite Hxs, K6. apply Hg.
        + destruct L2 as [vs' [a' [p' [M1 [M2 M3]]]]]. exists vs', a'. split; [exact M1|]. split; [exact M2|]. rewrite stamp_comps, M3. do 3 f_equal.
          clear -Hx M3. unfold parts_of, parts in Hx. destruct (0 <? _).
          * apply in_map_iff in Hx. destruct Hx as [z [<- _]]. cbn [s_comps with_comps] in M3. congruence.
          * destruct Hx as [<-|[]]. cbn [s_comps with_comps] in M3. congruence.
      - apply Forall_map. apply Forall_forall. intros x Hx. rewrite <- K4. clear -Hx.
        unfold parts_of, parts in Hx. destruct (0 <? _); [apply in_map_iff in Hx; destruct Hx as [z [<- _]]; reflexivity|destruct Hx as [<-|[]]; reflexivity].
      - intro Z. apply map_eq_nil in Z. exact (parts_nonempty (co_D cs) s HN Ho Z). }
    split; [split|].
    + cbn [snd]. unfold res. apply resolved_group_ok. apply Hsf.
    + unfold res; cbn [snd fst g_cols]. split; [|split].
      * intro Z. apply map_eq_nil in Z. apply Hne. unfold group_columns. rewrite Z. reflexivity.
      * apply Forall_map. cbn [snd]. unfold group_columns in Hps. rewrite Forall_map in Hps. revert Hps. apply Forall_impl. intros kc [_ [_ K]]. exact K.
      * apply Forall_map. cbn [snd]. unfold group_columns in Hps. rewrite Forall_map in Hps. revert Hps. apply Forall_impl. intros kc [_ [K _]]. exact K.
    + unfold res, group_columns; cbn [snd g_cols]. rewrite map_map. cbn [snd]. apply Forall_map. unfold group_columns in Hps. rewrite Forall_map in Hps. revert Hps. apply Forall_impl. intros kc [K _]. exact K.
  - rewrite map_map. cbn [fst snd]. unfold res; cbn [g_id].
    assert (Q : map (fun sg : (state * nat) * group => (s_init (fst (fst sg)), g_id (snd sg))) (combine sks gs) = map (fun sk => (s_init (fst sk), snd sk)) sks).
    { transitivity (map (fun sg : (state * nat) * group => (s_init (fst (fst sg)), snd (fst sg))) (combine sks gs)).
      - apply map_ext_in. intros sg Hin. destruct (proj1 (Forall_forall _ _) Hc sg Hin) as [_ [Hid _]]. rewrite Hid. reflexivity.
      - rewrite <- (map_map fst (fun sk => (s_init (fst sk), snd sk))), Hsk. reflexivity. }
    rewrite Q. exact Hnd.
Qed.

(** ** Delays of single-photon groups *)
Definition delay_result (D : dims) (chs : list nat) (d : delay) (w : R) (st : state) : state :=
  let i := or_else (photon_of st) (0%R, w) in
  with_photon st ((if touches D chs st then fst i - delay_in d st else fst i)%R, w).
Definition delayed_group (D : dims) (chs : list nat) (d : delay) (w : R) (g : group) : group :=
  Group (g_id g) (g_cum g) (map (fun kc => (fst kc, sub_column (snd kc) (map (delay_result D chs d w) (col_states (snd kc))))) (g_cols g)).
Lemma delayed_state_result D eps ncl chs d w st : check_state eps ncl st = true -> delay_exists d ncl -> Forall (fun c => c < dN D) chs ->
  delayed_state D chs d w st = Some (delay_result D chs d w st).
Proof.
  intros Hck Hd Hchs. unfold delayed_state, delay_result.
  assert (Hall : forallb (fun ch => ch <? dN D) chs = true).
  { apply forallb_forall. intros x Hx. apply Nat.ltb_lt. exact (proj1 (Forall_forall _ _) Hchs x Hx). }
  rewrite Hall. assert (Hdl : delay_of d st = Some (delay_in d st)).
  { destruct d as [t|c]; [reflexivity|]. cbn in *. apply nth_error_nth'. apply check_state_iff in Hck. destruct Hck as [_ [_ ->]]. exact Hd. }
  rewrite Hdl. do 3 f_equal. destruct (touches D chs st); ring.
Qed.
Lemma delayed_group_states D chs d w g : group_states_of (delayed_group D chs d w g) = map (delay_result D chs d w) (group_states_of g).
Proof.
  unfold group_states_of, delayed_group, group_columns; cbn [g_cols]. rewrite map_map. cbn [snd]. induction (g_cols g) as [|kc l IH]; [reflexivity|].
  cbn [map flat_map]. rewrite IH, map_app. reflexivity.
Qed.
Lemma delayed_group_photon D eps ncl chs d w ig : photon_group D eps ncl ig -> photon_group D eps ncl (fst ig, delayed_group D chs d w (snd ig)).
Proof.
  intros [[Hok [Hne [Hns Hi]]] Hp]. destruct Hok as [Hk1 Hk2]. unfold photon_group, readable, group_ok. cbn [fst snd]. unfold delayed_group; cbn [g_cols g_id g_cum].
  split; [split; [split|split; [|split]]|].
  - unfold dkeys. rewrite map_map. cbn [fst]. exact Hk1.
  - apply Forall_map. revert Hk2. apply Forall_impl. intros kc [K1 [K2 [K3 K4]]]. cbn [fst snd sub_column col_id col_group col_cum].
    split; [exact K1|]. split; [exact K2|]. split; [exact K3|]. unfold stamped in *. cbn [sub_column col_states col_id col_amp col_boson col_group col_cum].
    apply Forall_map. revert K4. apply Forall_impl. intros st Hst. unfold delay_result. rewrite photon_with. unfold with_photon. rewrite resolution_with, Hst. reflexivity.
  - intro Z. apply map_eq_nil in Z. exact (Hne Z).
  - apply Forall_map. revert Hns. apply Forall_impl. intros kc K. cbn [snd sub_column col_states]. intro Z. apply map_eq_nil in Z. exact (K Z).
  - apply Forall_map. revert Hi. apply Forall_impl. intros kc K. cbn [snd sub_column col_states]. apply Forall_map. revert K. apply Forall_impl. intros st K. exact K.
  - unfold group_columns in *; cbn [g_cols]. rewrite map_map. cbn [snd]. apply Forall_map. rewrite Forall_map in Hp. revert Hp. apply Forall_impl. intros kc K. cbn [sub_column col_states].
    apply Forall_map. revert K. apply Forall_impl. intros st K. exact K.
Qed.
(** The delay gate on a collection with given single-photon groups. *)
Lemma delay_groups rnd cs igs chs d w : delay_exists d (co_ncl cs) -> Forall (fun c => c < dN (co_D cs)) chs ->
  Forall (fun it => check_state (co_eps cs) (co_ncl cs) (snd it) = true) (co_items cs) ->
  resolved_groups cs = Some (map snd igs) -> Forall (photon_group (co_D cs) (co_eps cs) (co_ncl cs)) igs -> NoDup (map (fun ig => (fst ig, g_id (snd ig))) igs) ->
  exists cs', add_time_delay rnd chs d w cs = Some cs' /\ co_D cs' = co_D cs /\ co_eps cs' = co_eps cs /\ co_ncl cs' = co_ncl cs /\ NoDup (dkeys (co_items cs')) /\
    let igs' := map (fun ig => (fst ig, delayed_group (co_D cs) chs d w (snd ig))) igs in
    map snd (co_items cs') = flat_map (fun ig => group_states_of (snd ig)) igs' /\
    Forall (photon_group (co_D cs) (co_eps cs) (co_ncl cs)) igs' /\ NoDup (map (fun ig => (fst ig, g_id (snd ig))) igs').
Proof.
  intros Hd Hchs Hck E Hp Hnd. unfold add_time_delay. rewrite E.
  assert (Hall : forall st, In st (flat_map group_states_of (map snd igs)) -> check_state (co_eps cs) (co_ncl cs) st = true).
  { intros st Hst. apply in_flat_map in Hst. destruct Hst as [g [Hg Hst]]. apply in_map_iff in Hg. destruct Hg as [ig [<- Hig]].
    destruct (proj1 (Forall_forall _ _) Hp ig Hig) as [_ Hps]. unfold group_states_of in Hst. apply in_flat_map in Hst. destruct Hst as [c [Hc Hst]].
    exact (proj1 (proj1 (Forall_forall _ _) (proj1 (Forall_forall _ _) Hps c Hc) st Hst)). }
  rewrite (option_list_map_some _ (delay_result (co_D cs) chs d w)) by (intros st Hst; apply (delayed_state_result _ (co_eps cs) (co_ncl cs)); [apply Hall; exact Hst|exact Hd|exact Hchs]).
  unfold collect, copy_collection. rewrite copy_items_ok by exact Hck. eexists. split; [reflexivity|]. cbn [with_items co_items co_D co_eps co_ncl].
  split; [reflexivity|]. split; [reflexivity|]. split; [reflexivity|]. split; [apply states_random_nodup; constructor|]. cbv zeta. split; [|split].
  - rewrite states_random_map. cbn [map app]. clear. induction igs as [|ig l IH]; [reflexivity|]. cbn [map flat_map snd]. rewrite map_app, IH, delayed_group_states. reflexivity.
  - apply Forall_map. revert Hp. apply Forall_impl. intros ig H. apply delayed_group_photon. exact H.
  - rewrite map_map. cbn [fst snd]. exact Hnd.
Qed.
Lemma photon_items_check D eps ncl (its : list (ident * state)) igs : map snd its = flat_map (fun ig => group_states_of (snd ig)) igs -> Forall (photon_group D eps ncl) igs ->
  Forall (fun it => check_state eps ncl (snd it) = true) its.
Proof.
  intros E Hp. apply Forall_forall. intros it Hit. apply (in_map snd) in Hit. rewrite E in Hit. apply in_flat_map in Hit. destruct Hit as [ig [Hig Hst]].
  destruct (proj1 (Forall_forall _ _) Hp ig Hig) as [_ Hps]. unfold group_states_of in Hst. apply in_flat_map in Hst. destruct Hst as [c [Hc Hst]].
  exact (proj1 (proj1 (Forall_forall _ _) (proj1 (Forall_forall _ _) Hps c Hc) _ Hst)).
Qed.
