(** C56: creating, changing and comparing states; collections from dictionaries. *)
From Coq Require Import Reals List Arith Lia Lra Bool Permutation.
From Coquelicot Require Import Complex.
From Coq Require Import List.
From Verif Require Import Prelude NamesModel NamesSpec NamesProofs FockModel StateModel StateSpec StateProofs ApplyProofs CollectionModel EvalModel EvalProofs
  FockProofs ColumnProofs PropCollection SettersModel SettersSpec.
Import ListNotations.
Local Open Scope nat_scope.

(** ** Names *)

Lemma known_valid D nm : names_component D nm -> known_name D nm = true.
Proof.
  intros [vs [Hv ->]]. unfold known_name. rewrite values_of_name_string by apply Hv. now apply contains_values_spec.
Qed.

Lemma pad_parse l : Forall (fun d => d < 10) l -> pad (length l) (parse l) = l.
Proof.
  induction l as [|d l IH] using rev_ind; intro H; [reflexivity|].
  apply Forall_app in H. destruct H as [H1 H2]. pose proof (Forall_inv H2) as Hd. cbn beta in Hd.
  rewrite app_length. cbn [length]. rewrite Nat.add_1_r, pad_S, parse_app.
  replace ((10 * parse l + d) / 10) with (parse l) by (apply Nat.div_unique with d; lia).
  replace ((10 * parse l + d) mod 10) with d by (apply Nat.mod_unique with (parse l); lia).
  now rewrite IH.
Qed.

Lemma chunks_exact w : 0 < w -> forall k fuel l, length l = k * w -> length l <= fuel ->
  concat (chunks_aux fuel w l) = l /\ Forall (fun c => length c = w /\ incl c l) (chunks_aux fuel w l).
Proof.
  intros Hw. induction k as [|k IH]; intros fuel l Hl Hf.
  - destruct l; [|discriminate]. destruct fuel; split; constructor.
  - destruct fuel as [|fuel]; [cbn in Hl; lia|]. cbn [chunks_aux]. destruct l as [|x l]; [cbn in Hl; lia|].
    set (m := x :: l) in *. assert (Hm : w <= length m) by (rewrite Hl; cbn; lia).
    destruct (IH fuel (skipn w m)) as [E F].
    + rewrite skipn_length, Hl. cbn. lia.
    + rewrite skipn_length. lia.
    + cbn [concat]. rewrite E. split; [apply firstn_skipn|]. constructor.
      * split; [apply firstn_length_le; exact Hm|]. intros y Hy. rewrite <- (firstn_skipn w m). apply in_or_app. now left.
      * eapply Forall_impl; [|exact F]. intros c [H1 H2]. split; [exact H1|]. intros y Hy. rewrite <- (firstn_skipn w m). apply in_or_app. right. now apply H2.
Qed.

(** A string of digits of the right length that passes the check is a component name. *)
Lemma known_exact D nm : Forall (fun d => d < 10) nm -> length nm = dN D * digits_per_channel D -> known_name D nm = true -> names_component D nm.
Proof.
  intros Hd Hl Hk. apply contains_values_spec in Hk. exists (values_of_name D nm). split; [exact Hk|].
  pose proof (ndigits_pos (dL D - 1)) as Hw. fold (digits_per_channel D) in Hw.
  destruct (chunks_exact (digits_per_channel D) ltac:(lia) (dN D) (length nm) nm Hl (Nat.le_refl _)) as [E F].
  unfold name_string, values_of_name, chunks. set (cs := chunks_aux (length nm) (digits_per_channel D) nm) in *.
  assert (G : concat (map (pad (digits_per_channel D)) (map parse cs)) = nm).
  { rewrite map_map. transitivity (concat cs); [|exact E]. f_equal. rewrite <- (map_id cs) at 2. apply map_ext_in. intros c Hc.
    rewrite Forall_forall in F. destruct (F c Hc) as [F1 F2]. rewrite <- F1. apply pad_parse.
    apply Forall_forall. intros d Hin. rewrite Forall_forall in Hd. apply Hd, F2, Hin. }
  destruct (dLeft D); [symmetry; exact G|]. rewrite rev_involutive. symmetry; exact G.
Qed.

Lemma chunks1_length : forall fuel l, length l <= fuel -> length (chunks_aux fuel 1 l) = length l.
Proof.
  induction fuel as [|fuel IH]; intros l Hl; [destruct l; [reflexivity|cbn in Hl; lia]|].
  destruct l as [|x l]; [reflexivity|]. cbn [chunks_aux length firstn skipn]. rewrite IH by (cbn in Hl; lia). reflexivity.
Qed.

Lemma known_single D nm : dL D <= 10 -> Forall (fun d => d < 10) nm -> known_name D nm = true -> names_component D nm.
Proof.
  intros HL Hd Hk. apply known_exact; [exact Hd| |exact Hk]. apply contains_values_spec in Hk. destruct Hk as [Hk _].
  unfold digits_per_channel in *. rewrite ndigits_small by lia. rewrite Nat.mul_1_r.
  unfold values_of_name, digits_per_channel, chunks in Hk. rewrite ndigits_small in Hk by lia.
  rewrite <- Hk. destruct (dLeft D); [|rewrite rev_length]; rewrite map_length, chunks1_length; auto.
Qed.

(** ** The list setter *)

Lemma superpose_none D l : fold_left (superpose_step D) l None = None.
Proof. induction l as [|x l IH]; [reflexivity|]. exact IH. Qed.

Lemma superpose_ok D l : Forall (fun na => known_name D (fst na) = true) l -> forall d, NoDup (map fst d) ->
  (forall nm a p, In (nm, (a, p)) d -> p = Cnorm2 a) ->
  exists d', fold_left (superpose_step D) l (Some d) = Some d' /\ NoDup (map fst d') /\
    (forall nm a p, In (nm, (a, p)) d' -> p = Cnorm2 a) /\
    (forall nm, In nm (map fst d') <-> In nm (map fst d) \/ In nm (map fst l)) /\
    (forall nm, match dget leqb nm d' with Some ap => fst ap | None => RtoC 0 end =
       (match dget leqb nm d with Some ap => fst ap | None => RtoC 0 end + total_amplitude l nm)%C).
Proof.
  induction l as [|[n a] l IH]; intros HF d ND HP.
  - exists d. split; [reflexivity|]. split; [exact ND|]. split; [exact HP|]. split; [intro nm; cbn; tauto|].
    intro nm. unfold total_amplitude. cbn. apply C_eq; cbn; ring.
  - pose proof (Forall_inv HF) as Hn. cbn in Hn. apply Forall_inv_tail in HF.
    cbn [fold_left]. unfold superpose_step at 2. cbn [fst snd]. rewrite Hn.
    assert (STEP : forall b, (b = (match dget leqb n d with Some ap => fst ap | None => RtoC 0 end + a))%C ->
       exists d', fold_left (superpose_step D) l (Some (dset leqb n (b, Cnorm2 b) d)) = Some d' /\ NoDup (map fst d') /\
        (forall nm a p, In (nm, (a, p)) d' -> p = Cnorm2 a) /\
        (forall nm, In nm (map fst d') <-> In nm (map fst d) \/ In nm (map fst ((n, a) :: l))) /\
        (forall nm, match dget leqb nm d' with Some ap => fst ap | None => RtoC 0 end =
           (match dget leqb nm d with Some ap => fst ap | None => RtoC 0 end + total_amplitude ((n, a) :: l) nm)%C)).
    { intros b Hb. destruct (IH HF (dset leqb n (b, Cnorm2 b) d)) as [d' [E [ND' [HP' [HK HA]]]]].
      - exact (dset_NoDup leqb leqb_spec n (b, Cnorm2 b) d ND).
      - intros nm x p Hin. apply (in_dset leqb leqb_spec) in Hin. destruct Hin as [[_ E]|Hin]; [injection E as -> ->; reflexivity|exact (HP _ _ _ Hin)].
      - exists d'. split; [exact E|]. split; [exact ND'|]. split; [exact HP'|]. split.
        + intro nm. rewrite HK. change (map fst (dset leqb n (b, Cnorm2 b) d)) with (dkeys (dset leqb n (b, Cnorm2 b) d)).
          rewrite (dkeys_dset leqb). unfold dmem. destruct (dget leqb n d) eqn:G.
          * assert (In n (map fst d)) by (apply (dget_some_in leqb leqb_spec) in G; apply in_map_iff; eexists; split; [|exact G]; reflexivity).
            cbn [map fst In]. unfold dkeys. split; [tauto|]. intros [H1|[<-|H1]]; auto.
          * cbn [map fst In]. rewrite in_app_iff. unfold dkeys. cbn [In]. tauto.
        + intro nm. rewrite HA. unfold total_amplitude. rewrite Csum_cons. cbn [fst snd].
          destruct (leqb n nm) eqn:El.
          * apply leqb_spec in El. subst nm. rewrite (dget_dset_same leqb leqb_spec). cbn [fst]. rewrite Hb. apply C_eq; cbn; ring.
          * rewrite (dget_dset_other leqb leqb_spec) by (intro X; subst; rewrite (keq_refl leqb leqb_spec) in El; discriminate).
            apply C_eq; cbn; ring. }
    destruct (dget leqb n d) as [ap|] eqn:G.
    + apply STEP. reflexivity.
    + apply STEP. apply C_eq; cbn; ring.
Qed.

Theorem C56_superposition D st l : Forall (fun na => names_component D (fst na)) l ->
  exists st', set_components_list D l st = Some st' /\ same_but_components st st' /\ wf_state D st' /\ probs_ok st' /\
    (forall nm, In nm (map fst (s_comps st')) <-> In nm (map fst l)) /\
    (forall nm, amplitude st' nm = total_amplitude l nm).
Proof.
  intros HF. destruct (superpose_ok D l) with (d := @nil (name * (C * R))) as [d [E [ND [HP [HK HA]]]]].
  - eapply Forall_impl; [|exact HF]. intros na. apply known_valid.
  - constructor.
  - intros nm a p [].
  - exists (with_comps st d). unfold set_components_list. rewrite E. split; [reflexivity|].
    split; [repeat split|]. split; [split; [exact ND|]|].
    + intros nm Hin. apply HK in Hin. cbn in Hin. destruct Hin as [[]|Hin]. apply in_map_iff in Hin. destruct Hin as [na [<- Hna]].
      rewrite Forall_forall in HF. exact (HF na Hna).
    + split; [exact HP|]. split; [intro nm; rewrite HK; cbn; tauto|].
      intro nm. unfold amplitude. cbn [s_comps with_comps]. rewrite HA. cbn. apply C_eq; cbn; ring.
Qed.

Lemma superpose_unknown D l : Exists (fun na => known_name D (fst na) = false) l -> forall acc, fold_left (superpose_step D) l acc = None.
Proof.
  induction 1 as [na l H|na l H IH]; intro acc; cbn [fold_left].
  - unfold superpose_step at 2. rewrite H. destruct acc; apply superpose_none.
  - apply IH.
Qed.

(** A name that does not exist raises (fewer than 11 photon numbers: one digit per channel). *)
Theorem C56_unknown_component D st l : dL D <= 10 -> Forall (fun na => Forall (fun d => d < 10) (fst na)) l ->
  Exists (fun na => ~ names_component D (fst na)) l -> set_components_list D l st = None.
Proof.
  intros HL HD HE. unfold set_components_list. rewrite superpose_unknown; [reflexivity|].
  apply Exists_exists in HE. destruct HE as [na [Hin Hn]]. apply Exists_exists. exists na. split; [exact Hin|].
  destruct (known_name D (fst na)) eqn:E; [|reflexivity]. exfalso. apply Hn. apply known_single; auto.
  rewrite Forall_forall in HD. exact (HD na Hin).
Qed.

(** With two digits per channel the check accepts strings that are no component names: '001' is
    taken for '0001', but the two are different components of the state. *)
Theorem C56_unknown_component_refuted : exists D st l st', Forall (fun na => Forall (fun d => d < 10) (fst na)) l /\
  Exists (fun na => ~ names_component D (fst na)) l /\ set_components_list D l st = Some st' /\
  exists nm, ~ names_component D nm /\ values_of_name D nm = [0; 1] /\ amplitude st' nm = RtoC 1 /\ amp_of D st' [0; 1] = RtoC 0.
Proof.
  set (D := Dims 12 2 true).
  assert (Hno : ~ names_component D [0;0;1]).
  { intros [vs [[H1 _] H2]]. apply (f_equal (@length nat)) in H2. unfold name_string in H2. cbn [dLeft D] in H2.
    destruct vs as [|a [|b [|]]]; discriminate. }
  exists D, (initialized_state D 0), [([0;0;1], RtoC 1)]. eexists. split; [|split; [|split]].
  - repeat constructor.
  - constructor. exact Hno.
  - unfold set_components_list, superpose_step. cbn [fold_left fst snd]. replace (known_name D [0;0;1]) with true by reflexivity. reflexivity.
  - exists [0;0;1]. split; [exact Hno|]. split; [reflexivity|]. split; reflexivity.
Qed.

(** ** The dictionary setter and the other setters *)

Lemma complete_spec l : (forall cs, complete l = Some cs <-> map (fun c => (fst c, (Some (fst (snd c)), Some (snd (snd c))))) cs = l) /\
  (complete l = None <-> Exists (fun e => fst (snd e) = None \/ snd (snd e) = None) l).
Proof.
  induction l as [|[nm [oa op]] l [IH1 IH2]].
  - split; [intro cs|split; [discriminate|intro H; inversion H]].
    cbn. split; [intros [= <-]; reflexivity|destruct cs; [reflexivity|discriminate]].
  - cbn [complete]. destruct oa as [a|].
    2:{ split; [intro cs; split; [discriminate|]|split; [intros _; constructor; left; reflexivity|reflexivity]].
        destruct cs as [|[n [x y]] cs]; discriminate. }
    destruct op as [p|].
    2:{ split; [intro cs; split; [discriminate|]|split; [intros _; constructor; right; reflexivity|reflexivity]].
        destruct cs as [|[n [x y]] cs]; discriminate. }
    destruct (complete l) as [cs0|] eqn:E; cbn [option_map]; split.
    + intro cs. split.
      * intros [= <-]. cbn [map fst snd]. f_equal. now apply IH1.
      * destruct cs as [|[n [x y]] cs]; [discriminate|]. cbn [map fst snd]. intro H. injection H as -> -> -> H. apply IH1 in H. congruence.
    + split; [discriminate|]. intro H. inversion H as [? ? [X|X]|? ? X]; try discriminate. apply IH2 in X. discriminate.
    + intro cs. split; [discriminate|]. destruct cs as [|[n [x y]] cs]; [discriminate|]. cbn [map fst snd]. intro H. injection H as -> -> -> H.
      apply IH1 in H. discriminate.
    + split; [|reflexivity]. intros _. apply Exists_cons_tl. now apply IH2.
Qed.

Theorem C56_dictionary D st l :
  (Forall (fun e => names_component D (fst e) /\ fst (snd e) <> None /\ snd (snd e) <> None) l ->
   exists st', set_components_dict D l st = Some st' /\ same_but_components st st' /\
     map (fun c => (fst c, (Some (fst (snd c)), Some (snd (snd c))))) (s_comps st') = l) /\
  (Exists (fun e => fst (snd e) = None \/ snd (snd e) = None) l -> set_components_dict D l st = None) /\
  (dL D <= 10 -> Exists (fun e => Forall (fun d => d < 10) (fst e) /\ ~ names_component D (fst e)) l -> set_components_dict D l st = None).
Proof.
  unfold set_components_dict. destruct (complete_spec l) as [C1 C2]. split; [|split].
  - intros HF. replace (forallb _ l) with true.
    2:{ symmetry. apply forallb_forall. intros e He. rewrite Forall_forall in HF. apply known_valid, HF, He. }
    destruct (complete l) as [cs|] eqn:E.
    + exists (with_comps st cs). split; [reflexivity|]. split; [repeat split|]. apply C1. reflexivity.
    + exfalso. destruct (proj1 C2 eq_refl) as [e r [X|X]|e r X]; [| |].
      * pose proof (Forall_inv HF) as [_ [Y _]]. contradiction.
      * pose proof (Forall_inv HF) as [_ [_ Y]]. contradiction.
      * apply Exists_exists in X. destruct X as [e' [H1 H2]]. rewrite Forall_forall in HF. destruct (HF e' (or_intror H1)) as [_ [Y1 Y2]]. tauto.
  - intro H. apply C2 in H. rewrite H. destruct (forallb _ l); reflexivity.
  - intros HL H. replace (forallb _ l) with false; [reflexivity|]. symmetry.
    apply Exists_exists in H. destruct H as [e [H1 [H2 H3]]]. destruct (forallb _ l) eqn:E; [|reflexivity].
    rewrite forallb_forall in E. exfalso. apply H3. apply known_single; auto.
Qed.

Theorem C56_classical_values ncl st l : 
  (length l = ncl -> exists st', set_classical_values ncl l st = Some st' /\ s_classical st' = l /\ s_init st' = s_init st /\ s_cum st' = s_cum st /\
     s_comps st' = s_comps st /\ s_results st' = s_results st /\ s_aux st' = s_aux st) /\
  (length l <> ncl -> set_classical_values ncl l st = None).
Proof.
  unfold set_classical_values. split; intro H.
  - rewrite (proj2 (Nat.eqb_eq _ _) H). eexists. repeat split.
  - rewrite (proj2 (Nat.eqb_neq _ _) H). reflexivity.
Qed.

Theorem C56_probability st p :
  ((0 <= p <= 1)%R -> exists st', set_cumulative st p = Some st' /\ s_cum st' = p /\ s_init st' = s_init st /\ s_comps st' = s_comps st /\
     s_classical st' = s_classical st /\ s_results st' = s_results st /\ s_aux st' = s_aux st) /\
  (~ (0 <= p <= 1)%R -> set_cumulative st p = None).
Proof.
  unfold set_cumulative. split; intro H.
  - destruct (Rle_dec 0 p); [|lra]. destruct (Rle_dec p 1); [|lra]. eexists. repeat split.
  - destruct (Rle_dec 0 p); [|reflexivity]. destruct (Rle_dec p 1); [|reflexivity]. exfalso. apply H. lra.
Qed.

(** ** Validity *)

Lemma valid_state_iff eps ncl st : state_bool eps ncl st = true <-> valid_state eps ncl st.
Proof.
  unfold state_bool, valid_state. rewrite check_state_iff, Forall_forall. split.
  - intros [H1 [H2 H3]]. split; [exact H1|]. split; [|exact H3]. intros nm a p Hin. exact (H2 _ Hin).
  - intros [H1 [H2 H3]]. split; [exact H1|]. split; [|exact H3]. intros [nm [a p]] Hin. exact (H2 _ _ _ Hin).
Qed.

(** bool(state) says whether the state is valid. *)
Theorem C56_bool_state eps ncl st : (state_bool eps ncl st = true -> valid_state eps ncl st) /\ (valid_state eps ncl st -> state_bool eps ncl st = true).
Proof. split; apply valid_state_iff. Qed.

(** The constructor: exactly the valid states, with the given keys and defaults for the others. *)
Theorem C56_constructor D eps ncl d st : 1 <= dL D ->
  (state_from_dict D eps ncl d = Some st <-> built_from D ncl d st /\ valid_state eps ncl st).
Proof.
  intros HL. unfold state_from_dict, built_from. cbv zeta.
  assert (Hc : forall comps, (match d_comps d with None => Some (s_comps (initialized_state D ncl)) | Some raw => complete raw end = Some comps <->
     key_is (d_comps d) [(name_string D (repeat 0 (dN D)), (Some (RtoC 1), Some 1%R))]
       (map (fun c => (fst c, (Some (fst (snd c)), Some (snd (snd c))))) comps))).
  { intro comps. unfold key_is. destruct (d_comps d) as [raw|].
    - exact (proj1 (complete_spec raw) comps).
    - unfold initialized_state. cbn [s_comps]. rewrite at_index_of, values_from_index_0. split.
      + intros [= <-]. reflexivity.
      + intro H. destruct comps as [|[n [x y]] [|]]; try discriminate. cbn in H. injection H as H1 H2 H3.
        rewrite H1, H2, H3. reflexivity. }
  assert (Hk : forall A (o : option A) dflt v, key_is o dflt v <-> v = or_default o dflt) by (intros A [x|] dflt v; reflexivity).
  assert (Hi : s_init (initialized_state D ncl) = map (fun k => 48 + k) (name_string D (repeat 0 (dN D)))).
  { unfold initialized_state. cbn [s_init]. rewrite at_index_of, values_from_index_0. reflexivity. }
  destruct (match d_comps d with None => Some (s_comps (initialized_state D ncl)) | Some raw => complete raw end) as [comps|].
  - pose proof (proj1 (Hc comps) eq_refl) as Hc1. unfold make_state.
    match goal with |- context [check_state _ _ ?s] => set (s0 := s) end.
    assert (Hb : forall s, (key_is (d_init d) (map (fun k => 48 + k) (name_string D (repeat 0 (dN D)))) (s_init s) /\
        key_is (d_cum d) 1%R (s_cum s) /\
        key_is (d_comps d) [(name_string D (repeat 0 (dN D)), (Some (RtoC 1), Some 1%R))]
         (map (fun c => (fst c, (Some (fst (snd c)), Some (snd (snd c))))) (s_comps s)) /\
        key_is (d_classical d) (repeat 0%R ncl) (s_classical s) /\ key_is (d_results d) [] (s_results s) /\ key_is (d_aux d) [] (s_aux s)) <-> s = s0).
    { intros [i w cs cl rs ax]. cbn [s_init s_cum s_comps s_classical s_results s_aux]. rewrite <- Hc, !Hk. unfold s0. rewrite Hi.
      split.
      - intros (-> & -> & [= ->] & -> & -> & ->). reflexivity.
      - intro E. injection E as -> -> -> -> -> ->. repeat split. }
    rewrite Hb. destruct (check_state eps ncl s0) eqn:E.
    + split.
      * intros [= <-]. split; [reflexivity|]. now apply valid_state_iff.
      * intros [-> _]. reflexivity.
    + split; [discriminate|]. intros [-> H]. apply valid_state_iff in H. unfold state_bool in H. congruence.
  - split; [discriminate|]. intros [(_ & _ & H & _) _]. apply Hc in H. discriminate.
Qed.

(** The constructor does not look at the component names. *)
Theorem C56_constructor_unknown_component_refuted : exists D d st, state_from_dict D (1 / 10000) 0 d = Some st /\ ~ wf_state D st /\
  exists l, d_comps d = Some l /\ forall s, set_components_dict D l s = None.
Proof.
  exists (Dims 2 2 true), (SDict None None (Some [([5;5], (Some (RtoC 1), Some 1%R))]) None None None). eexists.
  split; [|split].
  - unfold state_from_dict. cbn [d_comps complete option_map]. unfold make_state.
    match goal with |- context [check_state ?e ?n ?s] => assert (E : check_state e n s = true) end; [|rewrite E; reflexivity].
    apply check_state_iff. cbn. repeat split; try lra. repeat constructor; cbn; lra.
  - intros [_ H]. destruct (H [5;5]) as [vs [[H1 H2] H3]]; [left; reflexivity|].
    assert (K : values_of_name (Dims 2 2 true) [5;5] = vs) by (rewrite H3; now apply values_of_name_string).
    assert (K2 : vs = [5;5]) by (rewrite <- K; reflexivity). rewrite K2 in H2. pose proof (Forall_inv H2) as X. cbn in X. lia.
  - eexists. split; [reflexivity|]. intro s. reflexivity.
Qed.

(** The setters keep a state valid: the classical values and the probability always, the components
    when the resulting probabilities are at most 1. *)
Theorem C56_setters_keep_valid D eps ncl st : (0 <= eps)%R -> valid_state eps ncl st ->
  (forall l st', set_classical_values ncl l st = Some st' -> valid_state eps ncl st') /\
  (forall p st', set_cumulative st p = Some st' -> valid_state eps ncl st') /\
  (forall l st', set_components_list D l st = Some st' -> (forall nm, In nm (map fst l) -> Cnorm2 (total_amplitude l nm) <= 1 + eps)%R -> valid_state eps ncl st').
Proof.
  intros He [H1 [H2 H3]]. split; [|split].
  - intros l st' E. unfold set_classical_values in E. destruct (length l =? ncl) eqn:El; [|discriminate]. injection E as <-.
    apply Nat.eqb_eq in El. split; [exact H1|]. split; [exact H2|exact El].
  - intros p st' E. unfold set_cumulative in E. destruct (Rle_dec 0 p); [|discriminate]. destruct (Rle_dec p 1); [|discriminate]. injection E as <-.
    split; [cbn; lra|]. split; [exact H2|exact H3].
  - intros l st' E Hp. unfold set_components_list in E.
    destruct (fold_left (superpose_step D) l (Some [])) as [d|] eqn:Ed; [|discriminate]. cbn in E. injection E as <-.
    assert (HF : Forall (fun na => known_name D (fst na) = true) l).
    { apply Forall_forall. intros na Hna. destruct (known_name D (fst na)) eqn:Ek; [reflexivity|].
      rewrite superpose_unknown in Ed; [discriminate|]. apply Exists_exists. exists na. split; auto. }
    destruct (superpose_ok D l HF []) as [d' [E' [ND [HP [HK HA]]]]]; [constructor|intros nm a p []|].
    assert (d' = d) by congruence. subst d'.
    split; [exact H1|]. split; [|exact H3]. cbn [s_comps with_comps]. intros nm a p Hin. rewrite (HP _ _ _ Hin).
    assert (Hn : In nm (map fst l)) by (assert (X : In nm (map fst d)) by (apply in_map_iff; exists (nm, (a, p)); auto); apply HK in X; cbn in X; tauto).
    pose proof (HA nm) as Ha. rewrite (dget_in leqb leqb_spec nm (a, p) d ND Hin) in Ha. cbn [fst dget] in Ha.
    assert (Ea : a = total_amplitude l nm) by (rewrite Ha; apply C_eq; cbn; ring).
    rewrite Ea. pose proof (Cnorm2_nonneg (total_amplitude l nm)). pose proof (Hp nm Hn). lra.
Qed.

(** Nothing checks the amplitudes: the setter accepts components that make the state invalid. *)
Theorem C56_setter_valid_refuted : exists D st l st', valid_state (1 / 10000) 0 st /\ set_components_list D l st = Some st' /\ state_bool (1 / 10000) 0 st' = false.
Proof.
  exists (Dims 2 2 true), (initialized_state (Dims 2 2 true) 0), [([1;0], RtoC 2)]. eexists. split; [|split].
  - apply valid_state_iff. apply C30_fresh_state; cbn; lra || lia.
  - reflexivity.
  - destruct (state_bool _ _ _) eqn:E; [|reflexivity]. apply valid_state_iff in E. destruct E as [_ [H _]].
    specialize (H [1;0] (RtoC 2) (Cnorm2 (RtoC 2)) (or_introl eq_refl)). rewrite Cnorm2_RtoC in H. lra.
Qed.

(** ** Comparison *)

Lemma fold_max_spec l : forall p, (fold_left Nat.max l p = p \/ In (fold_left Nat.max l p) l) /\ p <= fold_left Nat.max l p /\ (forall x, In x l -> x <= fold_left Nat.max l p).
Proof.
  induction l as [|y l IH]; intro p; cbn [fold_left]; [split; [now left|split; [lia|intros x []]]|].
  destruct (IH (Nat.max p y)) as [H1 [H2 H3]]. split; [|split].
  - destruct H1 as [H1|H1]; [|right; now right]. rewrite H1. destruct (Nat.max_spec p y) as [[_ E]|[_ E]]; rewrite E; [right; now left|now left].
  - lia.
  - intros x [<-|Hx]; [lia|exact (H3 x Hx)].
Qed.

Lemma state_int_spec D st : (s_comps st = [] -> state_int D st = None) /\ (s_comps st <> [] -> exists n, state_int D st = Some n /\ most_photons D st n).
Proof.
  unfold state_int, photon_number, most_photons. split.
  - intros ->. reflexivity.
  - intro H. destruct (s_comps st) as [|[nm ap] cs]; [contradiction|]. cbn [map fst].
    set (l := map _ cs). set (p := sum_values (values_of_name D nm)). exists (fold_left Nat.max l p). split; [reflexivity|].
    destruct (fold_max_spec l p) as [H1 [H2 H3]]. split.
    + destruct H1 as [H1|H1].
      * exists nm, ap. split; [now left|]. rewrite H1. unfold p. now rewrite sum_values_photons.
      * unfold l in H1 at 2. apply in_map_iff in H1. destruct H1 as [[nm' ap'] [E Hin]]. exists nm', ap'. split; [now right|]. rewrite <- E. cbn [fst]. now rewrite sum_values_photons.
    + intros nm' ap' [E|Hin].
      * injection E as <- <-. rewrite <- sum_values_photons. exact H2.
      * rewrite <- sum_values_photons. apply H3. unfold l. apply in_map_iff. exists (nm', ap'). split; auto.
Qed.

Lemma most_photons_unique D st n m : most_photons D st n -> most_photons D st m -> n = m.
Proof.
  intros [[a [x [A1 A2]]] A3] [[b [y [B1 B2]]] B3]. pose proof (A3 _ _ B1). pose proof (B3 _ _ A1). lia.
Qed.

Theorem C56_equals_number D st n : s_comps st <> [] -> exists b, equals_number D st n = Some b /\ (b = true <-> most_photons D st n).
Proof.
  intro H. destruct (proj2 (state_int_spec D st) H) as [m [E Hm]]. unfold equals_number. rewrite E. cbn. eexists. split; [reflexivity|].
  rewrite Nat.eqb_eq. split; [intros ->; exact Hm|]. intro Hn. exact (most_photons_unique _ _ _ _ Hn Hm).
Qed.

(** Two states are equal for Python when their largest components have the same number of photons. *)
Theorem C56_equals_state D st1 st2 : s_comps st1 <> [] -> s_comps st2 <> [] ->
  exists b, equals_state D st1 D st2 = Some b /\ (b = true <-> exists n, most_photons D st1 n /\ most_photons D st2 n).
Proof.
  intros H1 H2. destruct (proj2 (state_int_spec D st1) H1) as [m [E Hm]]. unfold equals_state. rewrite E.
  destruct (C56_equals_number D st2 m H2) as [b [Eb Hb]]. exists b. split; [exact Eb|]. rewrite Hb. split.
  - intro H. exists m. auto.
  - intros [n [Hn1 Hn2]]. rewrite (most_photons_unique _ _ _ _ Hm Hn1). exact Hn2.
Qed.
Theorem C56_no_components D st : s_comps st = [] -> (forall n, equals_number D st n = None) /\ (forall D' st', equals_state D st D' st' = None).
Proof. intro H. unfold equals_number, equals_state. rewrite (proj1 (state_int_spec D st) H). split; reflexivity. Qed.

(** ... so different states compare as equal. *)
Theorem C56_equality_refuted : exists D st1 st2, valid_state (1 / 10000) 0 st1 /\ valid_state (1 / 10000) 0 st2 /\
  equals_state D st1 D st2 = Some true /\ amp_of D st1 [1;0] = RtoC 1 /\ amp_of D st2 [1;0] = RtoC 0 /\ inner st1 st2 = RtoC 0.
Proof.
  set (D := Dims 2 2 true). set (f := fun nm => with_comps (initialized_state D 0) [(nm, (RtoC 1, 1%R))]).
  assert (V : forall nm, valid_state (1 / 10000) 0 (f nm)).
  { intro nm. split; [cbn; lra|]. split; [|reflexivity]. intros n a p [E|[]]. cbn in E. assert (p = 1%R) by congruence. subst. lra. }
  exists D, (f [1;0]), (f [0;1]). split; [apply V|]. split; [apply V|]. split; [reflexivity|]. split; [reflexivity|]. split; [reflexivity|].
  unfold inner. cbn. apply C_eq; cbn; ring.
Qed.

(** ** Collections *)

Lemma pykey_eqb_spec a b : pykey_eqb a b = true <-> a = b.
Proof.
  destruct a as [i|n], b as [j|m]; cbn; split; intro H; try discriminate.
  - apply leqb_spec in H. congruence.
  - apply leqb_spec. congruence.
  - apply Nat.eqb_eq in H. congruence.
  - apply Nat.eqb_eq. congruence.
Qed.

(** Collections from a dictionary with string identifiers: every entry that is a state stays that
    state, every dictionary becomes the state it describes, an invalid one raises. *)
Definition loads (D : dims) (eps : R) (ncl : nat) (ke : ident * entry) (it : ident * state) : Prop :=
  fst it = fst ke /\
  match snd ke with
  | EState st => snd it = st
  | EDict d => built_from D ncl d (snd it) /\ valid_state eps ncl (snd it)
  | EOther => False
  end.

Lemma check_strings eps ncl (l : list (ident * entry)) : check_dictionary eps ncl (map (fun ke => (KStr (fst ke), snd ke)) l) = true.
Proof. unfold check_dictionary. apply forallb_forall. intros ke H. apply in_map_iff in H. destruct H as [x [<- _]]. reflexivity. Qed.

Lemma load_none D eps ncl l : fold_left (load_step D eps ncl) l None = None.
Proof. induction l; auto. Qed.

Lemma load_all D eps ncl : 1 <= dL D -> forall l, NoDup (map fst l) -> Forall (fun ke => exists st, loads D eps ncl ke (fst ke, st)) l -> forall out,
  (forall i, In i (map fst l) -> ~ In (KStr i) (map fst out)) ->
  exists its, fold_left (load_step D eps ncl) (map (fun ke => (KStr (fst ke), snd ke)) l) (Some out) = Some (out ++ map (fun it => (KStr (fst it), snd it)) its) /\
    Forall2 (loads D eps ncl) l its.
Proof.
  intros HL. induction l as [|[i e] l IH]; intros ND HF out Hout.
  - exists []. cbn. rewrite app_nil_r. split; [reflexivity|constructor].
  - pose proof (Forall_inv HF) as [st Hst]. apply Forall_inv_tail in HF. cbn [map fst] in ND. apply NoDup_cons_iff in ND. destruct ND as [Hi ND].
    assert (E : load_step D eps ncl (Some out) (KStr i, e) = Some (out ++ [(KStr i, st)])).
    { unfold load_step. cbn [fst snd]. unfold loads in Hst. cbn [fst snd] in Hst. destruct Hst as [_ Hst].
      assert (Hd : dset pykey_eqb (KStr i) st out = out ++ [(KStr i, st)]) by (apply (dset_fresh pykey_eqb pykey_eqb_spec); apply Hout; now left).
      destruct e as [s|d|]; [| |destruct Hst].
      - subst s. now rewrite Hd.
      - rewrite (proj2 (C56_constructor D eps ncl d st HL) Hst). cbn. now rewrite Hd. }
    destruct (IH ND HF (out ++ [(KStr i, st)])) as [its [E2 F2]].
    + intros j Hj Hin. rewrite map_app, in_app_iff in Hin. destruct Hin as [Hin|[Hin|[]]]; [exact (Hout j (or_intror Hj) Hin)|]. cbn in Hin. congruence.
    + exists ((i, st) :: its). cbn [map fst snd fold_left]. rewrite E, E2. rewrite <- app_assoc. split; [reflexivity|]. constructor; auto.
Qed.

Theorem C56_collection D eps ncl l : 1 <= dL D -> NoDup (map fst l) ->
  (Forall (fun ke => exists st, loads D eps ncl ke (fst ke, st)) l ->
   exists its, new_collection D eps ncl (Some (map (fun ke => (KStr (fst ke), snd ke)) l)) = Some (map (fun it => (KStr (fst it), snd it)) its) /\
     Forall2 (loads D eps ncl) l its) /\
  (forall i d, In (i, EDict d) l -> (forall st, ~ (built_from D ncl d st /\ valid_state eps ncl st)) ->
     new_collection D eps ncl (Some (map (fun ke => (KStr (fst ke), snd ke)) l)) = None).
Proof.
  intros HL ND. split.
  - intro HF. destruct (load_all D eps ncl HL l ND HF []) as [its [E F]]; [intros i _ []|]. exists its. split; [|exact F].
    unfold new_collection. destruct l as [|ke l]; [inversion F; reflexivity|]. cbn [map].
    pose proof (check_strings eps ncl (ke :: l)) as Hc. cbn [map] in Hc. rewrite Hc. cbn [map] in E. rewrite E. reflexivity.
  - intros i d Hin Hno. unfold new_collection. destruct l as [|ke l]; [destruct Hin|]. cbn [map].
    pose proof (check_strings eps ncl (ke :: l)) as Hc. cbn [map] in Hc. rewrite Hc.
    assert (Hd : state_from_dict D eps ncl d = None).
    { destruct (state_from_dict D eps ncl d) as [st|] eqn:E; [|reflexivity]. exfalso. apply (Hno st). now apply C56_constructor. }
    change ((KStr (fst ke), snd ke) :: map (fun ke => (KStr (fst ke), snd ke)) l) with (map (fun ke => (KStr (fst ke), snd ke)) (ke :: l)).
    generalize (@Some (list (pykey * state)) []). revert Hin. generalize (ke :: l). clear - Hd.
    induction l as [|x l IH]; intros Hin acc; [destruct Hin|]. cbn [map fold_left]. destruct Hin as [->|Hin].
    + unfold load_step at 2. cbn [fst snd]. rewrite Hd. destruct acc; apply load_none.
    + now apply IH.
Qed.

(** collection_from_dict replaces the content by the dictionary, for every dictionary with string
    identifiers; the result counts as a valid collection. *)
Theorem C56_from_dict eps ncl old l : let raw := map (fun it : ident * state => (KStr (fst it), EState (snd it))) l in
  collection_from_dict eps ncl raw old = raw /\ collection_bool eps ncl raw = true.
Proof.
  cbv zeta. assert (E : check_dictionary eps ncl (map (fun it : ident * state => (KStr (fst it), EState (snd it))) l) = true).
  { rewrite <- (check_strings eps ncl (map (fun it => (fst it, EState (snd it))) l)). rewrite map_map. reflexivity. }
  unfold collection_from_dict, collection_bool. rewrite E. auto.
Qed.

(** A circuit whose first node is optical raises on a collection with an invalid state. *)
Lemma copy_items_invalid eps ncl its it : In it its -> ~ valid_state eps ncl (snd it) -> copy_items eps ncl its = None.
Proof.
  intros Hin Hv. unfold copy_items. induction its as [|x its IH]; [destruct Hin|]. cbn [map]. destruct Hin as [->|Hin].
  - unfold copy_state, make_state. destruct (check_state eps ncl (snd it)) eqn:E; [|reflexivity]. exfalso. apply Hv. now apply valid_state_iff.
  - cbn [option_list]. rewrite (IH Hin). destruct (match copy_state eps ncl (snd x) with Some s => _ | None => _ end); reflexivity.
Qed.

Theorem C56_invalid_raises X rnd D ncl eps full keys A tl nodes cs it : In it (co_items cs) -> ~ valid_state eps ncl (snd it) ->
  evaluate_circuit X rnd (Circuit D ncl eps full keys (NOptical A tl :: nodes)) cs = Raise.
Proof.
  intros Hin Hv. unfold evaluate_circuit, evaluate_nodes, evaluate_from. cbn [c_nodes length seq plus eval].
  replace (negb (forallb _ _)) with false.
  2:{ symmetry. apply negb_false_iff. apply forallb_forall. intros i Hi. cbn [In] in Hi. rewrite in_seq in Hi. apply Nat.ltb_lt. destruct Hi as [<-|Hi]; cbn [length] in *; lia. }
  cbn [node_at nth c_nodes]. unfold run_optical, apply_optical. cbn [c_D c_ncl c_eps c_full c_keys]. rewrite (copy_items_invalid _ _ _ it Hin Hv). reflexivity.
Qed.

(** bool(collection) and collection_from_dict never notice an invalid state: the condition in
    __check_valid_dictionary binds the 'not' to the first test only. *)
Theorem C56_collection_valid_refuted : exists D eps ncl i st cs, ~ valid_state eps ncl st /\
  collection_from_dict eps ncl [(KStr i, EState st)] [] = [(KStr i, EState st)] /\ collection_bool eps ncl [(KStr i, EState st)] = true /\
  new_collection D eps ncl (Some [(KStr i, EState st)]) = Some [(KStr i, st)] /\
  co_items cs = [(i, st)] /\ forall X rnd A tl, evaluate_circuit X rnd (Circuit D ncl eps true (fresh_keys D) [NOptical A tl]) cs = Raise.
Proof.
  set (D := Dims 2 2 true). set (st := with_cum (initialized_state D 0) 5).
  assert (Hv : ~ valid_state (1 / 10000) 0 st) by (intros [H _]; cbn in H; lra).
  exists D, (1 / 10000)%R, 0, [97], st, (Coll D 0 (1 / 10000) [([97], st)]).
  split; [exact Hv|]. split; [reflexivity|]. split; [reflexivity|]. split; [reflexivity|]. split; [reflexivity|].
  intros X rnd A tl. apply C56_invalid_raises with ([97], st); [now left|exact Hv].
Qed.

(** ... and refuse a valid state when its key is not a string, but accept an invalid one. *)
Theorem C56_other_keys eps ncl n st : 
  (valid_state eps ncl st -> forall old, collection_from_dict eps ncl [(KOther n, EState st)] old = old) /\
  (~ valid_state eps ncl st -> forall old, collection_from_dict eps ncl [(KOther n, EState st)] old = [(KOther n, EState st)]).
Proof.
  unfold collection_from_dict, check_dictionary. cbn [forallb fst snd]. split; intros H old.
  - apply valid_state_iff in H. rewrite H. reflexivity.
  - destruct (state_bool eps ncl st) eqn:E; [exfalso; apply H; now apply valid_state_iff|reflexivity].
Qed.

Theorem C56_lists its : length (initial_states_as_list its) = length its /\ length (state_identifiers_as_list its) = length its /\
  forall k i st, nth_error its k = Some (i, st) -> nth_error (initial_states_as_list its) k = Some (s_init st) /\ nth_error (state_identifiers_as_list its) k = Some i.
Proof.
  unfold initial_states_as_list, state_identifiers_as_list. rewrite !map_length. split; [reflexivity|]. split; [reflexivity|].
  intros k i st H. split; [rewrite (map_nth_error _ _ _ H)|rewrite (map_nth_error _ _ _ H)]; reflexivity.
Qed.

Example C56_case : let D := Dims 3 2 false in
  Forall (fun na => names_component D (fst na)) [([2;1], RtoC (1 / 2)); ([0;0], RtoC (1 / 2)); ([2;1], Ci)] /\
  total_amplitude [([2;1], RtoC (1 / 2)); ([0;0], RtoC (1 / 2)); ([2;1], Ci)] [2;1] = (1 / 2, 1)%R.
Proof.
  cbv zeta. split.
  - repeat constructor; [exists [1;2]|exists [0;0]|exists [1;2]]; (split; [split; [reflexivity|repeat constructor]|reflexivity]).
  - unfold total_amplitude. cbn. apply C_eq; cbn; ring.
Qed.

Print Assumptions C56_superposition.
Print Assumptions C56_constructor.
Print Assumptions C56_collection.
