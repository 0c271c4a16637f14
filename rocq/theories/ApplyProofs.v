From Coq Require Import Reals List Arith Lia Lra Bool Permutation.
From Coquelicot Require Import Complex.
From Verif Require Import Prelude NamesModel NamesSpec NamesProofs FockModel FockSpec FockProofs GateProofs
  StateModel StateSpec StateProofs.
Import ListNotations.

(** ** Reduced matrices *)
Definition kept (D : dims) (sel : selection) : list nat := keep_indices D (all_values D) sel.

Definition selb (sel : selection) (vs : values) : bool :=
  match sel with SelAll => true | SelEq k => sum_values vs =? k | SelLe k => sum_values vs <=? k end.

Lemma selb_spec D sel vs : selb sel vs = true <-> selects D sel vs.
Proof.
  destruct sel; cbn [selb selects]; rewrite ?sum_values_photons.
  - tauto.
  - apply Nat.eqb_eq.
  - apply Nat.leb_le.
Qed.

Lemma index_all_values D : 1 <= dL D -> map (index_of_values D) (all_values D) = seq 0 (size_of_basis D).
Proof.
  intros HL. unfold all_values. rewrite map_map. rewrite <- map_id. apply map_ext_in.
  intros i Hi. apply in_seq in Hi. now apply index_values_roundtrip.
Qed.

Lemma kept_map D sel : 1 <= dL D -> kept D sel = map (index_of_values D) (filter (selb sel) (all_values D)).
Proof.
  intros HL. unfold kept, keep_indices. destruct sel; cbn [selb]; try reflexivity.
  rewrite <- index_all_values by auto. f_equal. generalize (all_values D).
  induction l as [|x l IH]; cbn [filter selb]; [reflexivity|]. now f_equal.
Qed.

Lemma kept_in D sel i :
  1 <= dL D -> (In i (kept D sel) <-> i < size_of_basis D /\ selects D sel (values_from_index D i)).
Proof.
  intros HL. rewrite kept_map by auto. rewrite in_map_iff. split.
  - intros (vs & <- & H). apply filter_In in H. destruct H as [H Hs]. apply all_values_in in H; auto.
    split; [now apply index_of_values_bound|]. rewrite values_index_roundtrip by auto.
    now apply (selb_spec D).
  - intros [Hi Hs]. exists (values_from_index D i). split; [now apply index_values_roundtrip|].
    apply filter_In. split; [apply all_values_in; auto; now apply values_from_index_valid|].
    now apply (selb_spec D).
Qed.

Lemma kept_nodup D sel : 1 <= dL D -> NoDup (kept D sel).
Proof.
  intros HL. rewrite kept_map by auto. apply map_inj_NoDup.
  - intros x y Hx Hy E. apply filter_In in Hx. apply filter_In in Hy.
    apply (index_of_values_inj D); try apply (all_values_in D); tauto.
  - apply NoDup_filter. now apply all_values_NoDup.
Qed.

Lemma nth_kept_bound D sel a : 1 <= dL D -> a < length (kept D sel) -> nth a (kept D sel) 0 < size_of_basis D.
Proof. intros HL Ha. apply (kept_in D sel); auto. now apply nth_In. Qed.

Lemma nth_map0 {A} (f : nat -> A) (l : list nat) a d : a < length l -> nth a (map f l) d = f (nth a l 0).
Proof.
  intros Ha. rewrite nth_indep with (d' := f 0) by (rewrite map_length; auto). now rewrite map_nth.
Qed.

Lemma single_sel_snd D A tl sel : snd (single_node_matrix D (all_values D) A tl sel) = kept D sel.
Proof. reflexivity. Qed.

Lemma single_sel_entry D A tl sel a b :
  1 <= dL D -> a < length (kept D sel) -> b < length (kept D sel) ->
  fst (single_node_matrix D (all_values D) A tl sel) a b
  = full_matrix D A tl (nth a (kept D sel) 0) (nth b (kept D sel) 0).
Proof.
  intros HL Ha Hb. unfold full_matrix, single_node_matrix. cbn [fst keep_indices]. fold (kept D sel).
  pose proof (nth_kept_bound D sel a HL Ha). pose proof (nth_kept_bound D sel b HL Hb).
  rewrite !nth_map0; rewrite ?seq_length; auto. rewrite !nth_seq0 by auto. reflexivity.
Qed.

Lemma product_conserves D nds acc :
  1 <= dL D -> 2 <= dN D ->
  Forall (fun nd => Permutation (on_tl nd) (seq 0 (dN D))) nds ->
  (forall us vs, valid D us -> valid D vs -> photons us <> photons vs ->
      acc (index_of_values D us) (index_of_values D vs) = RtoC 0) ->
  forall us vs, valid D us -> valid D vs -> photons us <> photons vs ->
    product D acc nds (index_of_values D us) (index_of_values D vs) = RtoC 0.
Proof.
  intros HL HN. revert acc. induction nds as [|nd r IH]; intros acc HP Hacc us vs Hu Hv Hne; [now apply Hacc|].
  inversion HP; subst. cbn [product]. apply IH; auto. clear us vs Hu Hv Hne.
  intros us vs Hu Hv Hne. unfold mat_mul. apply Csum_zero. intros k Hk. apply in_seq in Hk.
  rewrite <- (index_values_roundtrip D k) by lia.
  pose proof (values_from_index_valid D k HL) as Vk. set (ks := values_from_index D k) in *.
  destruct (Nat.eq_dec (photons us) (photons ks)) as [E|E].
  - rewrite (Hacc ks vs) by (auto; lia). ring.
  - rewrite full_matrix_conserves by auto. ring.
Qed.

(** Conservation in terms of indices. *)
Definition conserving (D : dims) (M : mat) : Prop :=
  forall i j, i < size_of_basis D -> j < size_of_basis D ->
    photons (values_from_index D i) <> photons (values_from_index D j) -> M i j = RtoC 0.

Lemma conserving_of_tuples D M :
  1 <= dL D ->
  (forall us vs, valid D us -> valid D vs -> photons us <> photons vs ->
      M (index_of_values D us) (index_of_values D vs) = RtoC 0) <-> conserving D M.
Proof.
  intros HL. split.
  - intros H i j Hi Hj Hne. rewrite <- (index_values_roundtrip D i), <- (index_values_roundtrip D j) by auto.
    apply H; auto; now apply values_from_index_valid.
  - intros H us vs Hu Hv Hne. apply H; try now apply index_of_values_bound.
    now rewrite !values_index_roundtrip by auto.
Qed.

(** Photon numbers decide membership in the kept set. *)
Lemma selects_photons D sel us vs : photons us = photons vs -> selects D sel us -> selects D sel vs.
Proof. destruct sel; cbn [selects]; intros; congruence || lia || auto. Qed.

Lemma kept_sum D sel (f : nat -> C) :
  1 <= dL D -> (forall k, k < size_of_basis D -> ~ In k (kept D sel) -> f k = RtoC 0) ->
  Csum (seq 0 (length (kept D sel))) (fun a => f (nth a (kept D sel) 0)) = Csum (seq 0 (size_of_basis D)) f.
Proof.
  intros HL Hz.
  rewrite <- (Csum_map (fun a => nth a (kept D sel) 0) (seq 0 (length (kept D sel))) f).
  assert (E : map (fun a => nth a (kept D sel) 0) (seq 0 (length (kept D sel))) = kept D sel).
  { generalize (kept D sel). intros l. induction l as [|x l IH]; [reflexivity|].
    cbn [length seq map nth]. f_equal. rewrite <- seq_shift, map_map. exact IH. }
  rewrite E.
  transitivity (Csum (filter (fun k => if in_dec Nat.eq_dec k (kept D sel) then true else false) (seq 0 (size_of_basis D))) f).
  - apply Csum_perm. apply NoDup_Permutation.
    + now apply kept_nodup.
    + apply NoDup_filter. apply seq_NoDup.
    + intros x. rewrite filter_In, in_seq. split.
      * intros H. split; [|destruct (in_dec _ _ _); auto]. apply kept_in in H; auto. lia.
      * intros [_ H]. destruct (in_dec Nat.eq_dec x (kept D sel)); [auto|discriminate].
  - rewrite Csum_filter. apply Csum_ext. intros k Hk. apply in_seq in Hk.
    destruct (in_dec Nat.eq_dec k (kept D sel)); [reflexivity|]. symmetry. apply Hz; auto. lia.
Qed.

Definition tl_ok (D : dims) (nds : list onode) : Prop :=
  Forall (fun nd => Permutation (on_tl nd) (seq 0 (dN D))) nds.

Lemma reduced_fold D sel r :
  1 <= dL D -> 2 <= dN D -> tl_ok D r ->
  forall acc (F : mat), conserving D acc ->
  (forall a b, a < length (kept D sel) -> b < length (kept D sel) ->
      F a b = acc (nth a (kept D sel) 0) (nth b (kept D sel) 0)) ->
  let res := fold_left
        (fun acc nd' =>
           let mk := single_node_matrix D (all_values D) (on_matrix nd') (on_tl nd') sel in
           (mat_mul (length (snd mk)) (fst mk) (fst acc), snd mk)) r (F, kept D sel) in
  snd res = kept D sel /\
  forall a b, a < length (kept D sel) -> b < length (kept D sel) ->
      fst res a b = product D acc r (nth a (kept D sel) 0) (nth b (kept D sel) 0).
Proof.
  intros HL HN. induction r as [|nd r IH]; intros Htl acc F Hc HF.
  - cbn [fold_left fst snd product]. split; auto.
  - inversion Htl; subst. cbn [fold_left product]. rewrite single_sel_snd.
    apply IH; auto.
    + apply conserving_of_tuples; auto. intros us vs Hu Hv Hne.
      apply (product_conserves D [nd] acc); auto.
      now apply conserving_of_tuples.
    + intros a b Ha Hb. cbn [fst]. unfold mat_mul.
      rewrite <- (kept_sum D sel (fun k => full_matrix D (on_matrix nd) (on_tl nd) (nth a (kept D sel) 0) k
                                          * acc k (nth b (kept D sel) 0)))%C; auto.
      * apply Csum_ext. intros c Hcc. apply in_seq in Hcc.
        rewrite single_sel_entry by (auto; lia). rewrite HF by (auto; lia). reflexivity.
      * intros k Hk Hnk. pose proof (nth_kept_bound D sel b HL Hb) as Hbb.
        rewrite (Hc k (nth b (kept D sel) 0)); auto; [ring|]. intros E. apply Hnk.
        apply kept_in; auto. split; auto.
        assert (Hin : In (nth b (kept D sel) 0) (kept D sel)) by now apply nth_In.
        apply kept_in in Hin; auto. destruct Hin as [_ Hs]. eapply selects_photons; [symmetry; exact E|exact Hs].
Qed.

(** The matrix of a non-empty list of nodes. *)
Definition nodes_matrix (D : dims) (nds : list onode) : mat :=
  match nds with
  | [] => fun i j => if i =? j then RtoC 1 else RtoC 0
  | nd :: r => product D (full_matrix D (on_matrix nd) (on_tl nd)) r
  end.

Lemma full_conserving D A tl : 1 <= dL D -> 2 <= dN D -> Permutation tl (seq 0 (dN D)) -> conserving D (full_matrix D A tl).
Proof. intros. apply conserving_of_tuples; auto. intros. now apply full_matrix_conserves. Qed.

Lemma nodes_matrix_conserving D nds : 1 <= dL D -> 2 <= dN D -> tl_ok D nds -> conserving D (nodes_matrix D nds).
Proof.
  intros HL HN H. destruct nds as [|nd r].
  - intros i j Hi Hj Hne. cbn [nodes_matrix]. destruct (Nat.eqb_spec i j); [subst; now destruct Hne|reflexivity].
  - inversion H; subst. cbn [nodes_matrix]. apply conserving_of_tuples; auto.
    intros us vs Hu Hv Hne. apply product_conserves; auto. intros. now apply full_matrix_conserves.
Qed.

Lemma reduced_matrix D sel nds :
  1 <= dL D -> 2 <= dN D -> tl_ok D nds -> nds <> [] ->
  exists F, fock_state_matrix D (all_values D) nds sel = Some (F, kept D sel) /\
  forall a b, a < length (kept D sel) -> b < length (kept D sel) ->
      F a b = nodes_matrix D nds (nth a (kept D sel) 0) (nth b (kept D sel) 0).
Proof.
  intros HL HN Htl Hne. destruct nds as [|nd r]; [now destruct Hne|]. inversion Htl; subst.
  unfold fock_state_matrix. cbn [nodes_matrix].
  destruct (single_node_matrix D (all_values D) (on_matrix nd) (on_tl nd) sel) as [F0 k0] eqn:E0.
  assert (k0 = kept D sel) by (rewrite <- (single_sel_snd D (on_matrix nd) (on_tl nd) sel), E0; reflexivity). subst k0.
  destruct (reduced_fold D sel r HL HN H2 (full_matrix D (on_matrix nd) (on_tl nd)) F0) as [Hs HF].
  - now apply full_conserving.
  - intros a b Ha Hb. rewrite <- single_sel_entry by auto. now rewrite E0.
  - set (res := fold_left _ r _) in *. exists (fst res). split; auto.
    rewrite <- Hs. now destruct res.
Qed.

Lemma apply_reduced_in M keep v a :
  NoDup keep -> a < length keep ->
  apply_reduced M keep v (nth a keep 0) = mat_vec (length keep) M (fun a => v (nth a keep 0)) a.
Proof.
  intros ND Ha. unfold apply_reduced. set (out := mat_vec _ _ _).
  assert (G : forall l s (w : vec) b, NoDup l -> b < length l ->
     fold_left (fun (w : vec) ai => upd w (snd ai) (out (fst ai))) (combine (seq s (length l)) l) w (nth b l 0) = out (s + b)).
  { clear. induction l as [|x l IH]; intros s w b ND Hb; [cbn in Hb; lia|].
    cbn [length seq combine fold_left]. inversion ND; subst. destruct b as [|b].
    - cbn [nth]. rewrite Nat.add_0_r.
      assert (K : forall l' s' (w' : vec), ~ In x l' -> w' x = out s ->
        fold_left (fun (w : vec) ai => upd w (snd ai) (out (fst ai))) (combine (seq s' (length l')) l') w' x = out s).
      { clear. induction l' as [|y l' IH]; intros s' w' Hn Hw; [exact Hw|].
        cbn [length seq combine fold_left]. apply IH; [intros H; apply Hn; now right|].
        cbn [fst snd]. unfold upd. destruct (Nat.eqb_spec x y); [subst; exfalso; apply Hn; now left|exact Hw]. }
      apply K; auto. cbn [fst snd]. unfold upd. now rewrite Nat.eqb_refl.
    - cbn [nth]. rewrite IH; auto; [|cbn in Hb; lia]. f_equal. lia. }
  rewrite (G keep 0 (fun _ => RtoC 0) a); auto.
Qed.

Lemma apply_reduced_out M keep v i : ~ In i keep -> apply_reduced M keep v i = RtoC 0.
Proof.
  intros Hn. unfold apply_reduced. set (out := mat_vec _ _ _).
  assert (G : forall l s (w : vec), ~ In i l ->
     fold_left (fun (w : vec) ai => upd w (snd ai) (out (fst ai))) (combine (seq s (length l)) l) w i = w i).
  { clear. induction l as [|x l IH]; intros s w Hn; [reflexivity|].
    cbn [length seq combine fold_left]. rewrite IH by (intros H; apply Hn; now right).
    cbn [fst snd]. unfold upd. destruct (Nat.eqb_spec i x); [subst; exfalso; apply Hn; now left|reflexivity]. }
  now rewrite G.
Qed.

(** The reduced evaluation equals the full one on vectors supported on the selection. *)
Lemma apply_reduced_full D sel nds F v i :
  1 <= dL D -> 2 <= dN D -> tl_ok D nds ->
  (forall a b, a < length (kept D sel) -> b < length (kept D sel) ->
      F a b = nodes_matrix D nds (nth a (kept D sel) 0) (nth b (kept D sel) 0)) ->
  (forall k, k < size_of_basis D -> ~ In k (kept D sel) -> v k = RtoC 0) ->
  i < size_of_basis D ->
  apply_reduced F (kept D sel) v i = mat_vec (size_of_basis D) (nodes_matrix D nds) v i.
Proof.
  intros HL HN Htl HF Hv Hi. destruct (in_dec Nat.eq_dec i (kept D sel)) as [Hin|Hnin].
  - destruct (In_nth _ _ 0 Hin) as (a & Ha & <-). rewrite apply_reduced_in; auto; [|now apply kept_nodup].
    unfold mat_vec.
    rewrite <- (kept_sum D sel (fun k => nodes_matrix D nds (nth a (kept D sel) 0) k * v k)%C); auto.
    + apply Csum_ext. intros b Hb. apply in_seq in Hb. rewrite HF by (auto; lia). reflexivity.
    + intros k Hk Hnk. rewrite Hv by auto. ring.
  - rewrite apply_reduced_out by auto. symmetry. unfold mat_vec. apply Csum_zero. intros k Hk. apply in_seq in Hk.
    destruct (in_dec Nat.eq_dec k (kept D sel)) as [Hkin|Hkn].
    + rewrite (nodes_matrix_conserving D nds HL HN Htl i k); [ring|auto|lia|].
      intros E. apply Hnin. apply kept_in; auto. split; auto.
      apply kept_in in Hkin; auto. destruct Hkin as [_ Hs]. eapply selects_photons; [symmetry; exact E|exact Hs].
    + rewrite Hv by (auto; lia). ring.
Qed.

(** ** Selections of states *)
Lemma fold_max_le ps : forall p x, In x (p :: ps) -> x <= fold_left Nat.max ps p.
Proof.
  assert (mono : forall ps p, p <= fold_left Nat.max ps p).
  { induction ps0 as [|q qs IH]; intros p; cbn [fold_left]; [lia|]. specialize (IH (Nat.max p q)). lia. }
  induction ps as [|q qs IH]; intros p x H; cbn [fold_left].
  - destruct H as [->|[]]. lia.
  - destruct H as [->|[->|H]].
    + specialize (mono qs (Nat.max x q)). lia.
    + specialize (mono qs (Nat.max p x)). lia.
    + apply IH. now right.
Qed.
Lemma fold_min_le ps : forall p x, In x (p :: ps) -> fold_left Nat.min ps p <= x.
Proof.
  assert (mono : forall ps p, fold_left Nat.min ps p <= p).
  { induction ps0 as [|q qs IH]; intros p; cbn [fold_left]; [lia|]. specialize (IH (Nat.min p q)). lia. }
  induction ps as [|q qs IH]; intros p x H; cbn [fold_left].
  - destruct H as [->|[]]. lia.
  - destruct H as [->|[->|H]].
    + specialize (mono qs (Nat.min x q)). lia.
    + specialize (mono qs (Nat.min p x)). lia.
    + apply IH. now right.
Qed.

Lemma selection_selects D st sel nm :
  selection_of D st = Some sel -> In nm (map fst (s_comps st)) -> selects D sel (values_of_name D nm).
Proof.
  unfold selection_of, photon_number. intros E Hin.
  set (l := map (fun c => sum_values (values_of_name D (fst c))) (s_comps st)) in *.
  assert (Hl : In (photons (values_of_name D nm)) l).
  { apply in_map_iff in Hin. destruct Hin as (c & <- & Hc). unfold l. rewrite <- sum_values_photons.
    apply (in_map (fun c => sum_values (values_of_name D (fst c)))). exact Hc. }
  clearbody l. destruct l as [|p ps]; [discriminate|].
  pose proof (fold_max_le ps p _ Hl). pose proof (fold_min_le ps p _ Hl).
  destruct (Nat.eqb_spec (fold_left Nat.max ps p) (fold_left Nat.min ps p)) as [Em|Em]; injection E as <-; cbn [selects]; lia.
Qed.

Lemma selection_nonempty D st : s_comps st <> [] -> exists sel, selection_of D st = Some sel.
Proof.
  unfold selection_of, photon_number. intros H. destruct (s_comps st) as [|c cs]; [now destruct H|].
  cbn [map]. set (b := _ =? _). destruct b; eauto.
Qed.

Lemma vector_off_selection D st sel k :
  1 <= dL D -> wf_state D st -> selection_of D st = Some sel -> k < size_of_basis D ->
  ~ In k (kept D sel) -> state_vector D st k = RtoC 0.
Proof.
  intros HL Hw Hs Hk Hn. rewrite state_vector_spec by auto. unfold amplitude.
  destruct (dget leqb (at_index D k) (s_comps st)) as [ap|] eqn:E; [|reflexivity].
  exfalso. apply Hn. apply kept_in; auto. split; auto.
  apply (dget_some_in leqb leqb_spec) in E. apply (in_map fst) in E. cbn [fst] in E.
  pose proof (selection_selects D st sel _ Hs E) as H. unfold at_index in H.
  rewrite values_of_name_string in H; auto. pose proof (values_from_index_valid D k HL) as V. apply V.
Qed.

(** ** Applying a list of optical nodes to the states of a collection *)

(** What optical nodes do to one state. *)
Definition optical_step (D : dims) (eps : R) (nds : list onode) (st : state) : state :=
  with_comps st (components_from_vector D eps (mat_vec (size_of_basis D) (nodes_matrix D nds) (state_vector D st))).

Lemma copy_items_some eps ncl its its' :
  copy_items eps ncl its = Some its' -> its' = its /\ Forall (fun it => check_state eps ncl (snd it) = true) its.
Proof.
  unfold copy_items. intros H. apply option_list_some in H. revert its' H.
  induction its as [|[i st] its IH]; intros [|it its'] H; try discriminate; [auto|].
  cbn [map] in H. injection H as H1 H2. destruct (IH _ H2) as [-> F].
  unfold copy_state, make_state in H1. cbn [fst snd] in H1. destruct (check_state eps ncl st) eqn:E; [|discriminate].
  injection H1 as <-. split; [reflexivity|]. constructor; auto.
Qed.

Lemma copy_items_ok eps ncl its :
  Forall (fun it => check_state eps ncl (snd it) = true) its -> copy_items eps ncl its = Some its.
Proof.
  intros H. unfold copy_items. apply option_list_some. apply map_ext_in. intros [i st] Hin.
  rewrite Forall_forall in H. specialize (H _ Hin). cbn [fst snd] in *. unfold copy_state, make_state. now rewrite H.
Qed.

(** Updating the states with the listed identifiers. *)
Lemma fold_apply_ids D eps M keep (ids : list ident) (its : items) :
  NoDup ids -> NoDup (dkeys its) ->
  fold_left (apply_to_identifier D eps M keep) ids its
  = map (fun it => if existsb (leqb (fst it)) ids
                   then (fst it, with_comps (snd it) (components_from_vector D eps
                           (apply_reduced M keep (state_vector D (snd it)))))
                   else it) its.
Proof.
  revert its. induction ids as [|i ids IH]; intros its NDi ND; cbn [fold_left existsb].
  - symmetry. apply map_id.
  - inversion NDi; subst.
    set (U := fun st => with_comps st (components_from_vector D eps (apply_reduced M keep (state_vector D st)))).
    assert (E : apply_to_identifier D eps M keep its i = map (fun it => if leqb (fst it) i then (fst it, U (snd it)) else it) its).
    { unfold apply_to_identifier. fold (U). clear IH. induction its as [|[j st] its IHs]; [reflexivity|].
      cbn [dkeys map fst] in ND. inversion ND; subst. cbn [dget map fst snd].
      destruct (leqb i j) eqn:E.
      - apply leqb_spec in E. subst j. cbn [dset]. rewrite (proj2 (leqb_spec i i) eq_refl).
        f_equal. symmetry. rewrite <- map_id. apply map_ext_in. intros [j st'] Hin. cbn [fst].
        destruct (leqb j i) eqn:E; auto. apply leqb_spec in E. subst j. exfalso. apply H3.
        apply (in_map fst) in Hin. exact Hin.
      - destruct (leqb j i) eqn:E'; [apply leqb_spec in E'; subst; rewrite (proj2 (leqb_spec i i) eq_refl) in E; discriminate|].
        rewrite <- IHs by auto. destruct (dget leqb i its) eqn:Eg; [|reflexivity].
        cbn [dset]. now rewrite E. }
    rewrite E. rewrite IH; auto.
    + rewrite map_map. apply map_ext. intros [j st]. cbn [fst snd].
      destruct (leqb j i) eqn:Ei; cbn [fst snd orb].
      * apply leqb_spec in Ei. subst j. destruct (existsb (leqb i) ids) eqn:Ex; [|reflexivity].
        apply existsb_exists in Ex. destruct Ex as (x & Hx & Ex). apply leqb_spec in Ex. subst x. contradiction.
      * reflexivity.
    + unfold dkeys. rewrite map_map.
      rewrite (map_ext _ fst); [exact ND|]. intros [j st]. cbn [fst]. destruct (leqb j i); reflexivity.
Qed.

Lemma existsb_leqb_in i ids : existsb (leqb i) ids = true <-> In i ids.
Proof.
  rewrite existsb_exists. split.
  - intros (x & Hx & E). apply leqb_spec in E. now subst.
  - intros H. exists i. split; auto. now apply leqb_spec.
Qed.

(** The result of one pass over groups. *)
Lemma fold_groups D eps keys nodes (W : selection -> mat * list nat) (S : state -> selection) (its : items) gs :
  NoDup (dkeys its) -> NoDup (dkeys gs) ->
  (forall s ids, In (s, ids) gs -> fock_state_matrix D keys nodes s = Some (W s)) ->
  (forall s ids, In (s, ids) gs -> NoDup ids /\ forall it, In it its -> (In (fst it) ids <-> S (snd it) = s)) ->
  let U := fun s st => with_comps st (components_from_vector D eps
                     (apply_reduced (fst (W s)) (snd (W s)) (state_vector D st))) in
  fold_left
    (fun acc g =>
       match acc, fock_state_matrix D keys nodes (fst g) with
       | Some cur, Some (M, keep) =>
           Some (fold_left (apply_to_identifier D eps M keep) (snd g) cur)
       | _, _ => None
       end) gs (Some its)
  = Some (map (fun it => if existsb (sel_eqb (S (snd it))) (dkeys gs)
                         then (fst it, U (S (snd it)) (snd it)) else it) its).
Proof.
  intros ND NDg HW HG U.
  set (step := fun (acc : option items) (g : selection * list ident) => _).
  assert (G : forall gs2 gs1, gs = gs1 ++ gs2 ->
    fold_left step gs2 (Some (map (fun it => if existsb (sel_eqb (S (snd it))) (dkeys gs1)
                         then (fst it, U (S (snd it)) (snd it)) else it) its))
    = Some (map (fun it => if existsb (sel_eqb (S (snd it))) (dkeys gs)
                         then (fst it, U (S (snd it)) (snd it)) else it) its)).
  { induction gs2 as [|[s ids] gs2 IH]; intros gs1 E; cbn [fold_left].
    - rewrite app_nil_r in E. now subst gs1.
    - assert (Hin : In (s, ids) gs) by (rewrite E; apply in_or_app; right; now left).
      rewrite <- (IH (gs1 ++ [(s, ids)])); [|rewrite E, <- app_assoc; reflexivity].
      f_equal. unfold step. cbn [fst snd]. rewrite (HW s ids Hin). destruct (W s) as [M keep] eqn:EW.
      destruct (HG s ids Hin) as [NDi Hi].
      f_equal. rewrite fold_apply_ids; auto.
      + rewrite map_map. apply map_ext_in. intros [j st] Hj. cbn [fst snd].
        assert (Hid : In j ids <-> S st = s) by (apply (Hi (j, st)); auto).
        replace (dkeys (gs1 ++ [(s, ids)])) with (dkeys gs1 ++ [s]) by (unfold dkeys; now rewrite map_app).
        rewrite existsb_app. cbn [existsb].
        destruct (existsb (sel_eqb (S st)) (dkeys gs1)) eqn:E1; cbn [fst snd orb].
        * assert (Hs1 : In (S st) (dkeys gs1)).
          { apply existsb_exists in E1. destruct E1 as (x & Hx & Ex). apply sel_eqb_spec in Ex. now subst. }
          destruct (existsb (leqb j) ids) eqn:E2; [|reflexivity].
          apply existsb_leqb_in in E2. apply Hid in E2. exfalso.
          rewrite E in NDg. unfold dkeys in NDg. rewrite map_app in NDg. cbn [map fst] in NDg.
          apply NoDup_remove_2 in NDg. apply NDg. apply in_or_app. left. now rewrite <- E2.
        * rewrite orb_false_r. destruct (sel_eqb (S st) s) eqn:E3.
          -- apply sel_eqb_spec in E3. rewrite (proj2 (existsb_leqb_in j ids)) by tauto.
             unfold U. rewrite E3, EW. reflexivity.
          -- destruct (existsb (leqb j) ids) eqn:E2; [|reflexivity]. apply existsb_leqb_in in E2.
             apply Hid in E2. apply sel_eqb_spec in E2. congruence.
      + unfold dkeys. rewrite map_map. rewrite (map_ext _ fst); [exact ND|].
        intros [j st]. cbn [fst snd]. destruct (existsb _ _); reflexivity. }
  specialize (G gs [] eq_refl). cbn [dkeys map existsb] in G. rewrite <- G. f_equal. f_equal.
  symmetry. rewrite <- map_id. apply map_ext. reflexivity.
Qed.

(** Characterisation of apply_optical. *)
Lemma apply_optical_spec D ncl eps full nds its :
  1 <= dL D -> 2 <= dN D -> tl_ok D nds -> nds <> [] -> NoDup (dkeys its) ->
  Forall (fun it => check_state eps ncl (snd it) = true) its ->
  Forall (fun it => wf_state D (snd it) /\ s_comps (snd it) <> []) its ->
  apply_optical D ncl eps full (all_values D) nds its
  = Some (map (fun it => (fst it, optical_step D eps nds (snd it))) its).
Proof.
  intros HL HN Htl Hne ND Hck Hwf. unfold apply_optical. rewrite copy_items_ok by auto.
  pose (W := fun s => match fock_state_matrix D (all_values D) nds s with Some w => w | None => (fun _ _ => RtoC 0, []) end).
  assert (HW : forall s, fock_state_matrix D (all_values D) nds s = Some (W s)).
  { intros s. unfold W. destruct (reduced_matrix D s nds HL HN Htl Hne) as (F & -> & _). reflexivity. }
  pose (S := fun st => if full then SelAll else match selection_of D st with Some s => s | None => SelAll end).
  assert (HS : forall it, In it its -> forall k, k < size_of_basis D -> ~ In k (kept D (S (snd it))) -> state_vector D (snd it) k = RtoC 0).
  { intros it Hin k Hk Hn. rewrite Forall_forall in Hwf. destruct (Hwf it Hin) as [Hw Hc]. unfold S in Hn. destruct full.
    - exfalso. apply Hn. apply kept_in; auto. split; cbn; auto.
    - destruct (selection_nonempty D (snd it) Hc) as (s & Es). rewrite Es in Hn.
      now apply (vector_off_selection D (snd it) s). }
  set (groups := if full then Some [(SelAll, dkeys its)] else group_states D its).
  assert (Hg : exists gs, groups = Some gs /\ NoDup (dkeys gs) /\
     (forall s ids, In (s, ids) gs -> NoDup ids /\ forall it, In it its -> (In (fst it) ids <-> S (snd it) = s)) /\
     (forall it, In it its -> In (S (snd it)) (dkeys gs))).
  { unfold groups, S. clear groups HS. destruct full.
    - exists [(SelAll, dkeys its)]. split; [reflexivity|]. split; [|split].
      + cbn. constructor; [tauto|constructor].
      + intros s ids [[= <- <-]|[]]. split; auto. intros it Hin. split; auto. intros _. now apply in_map.
      + intros. cbn. now left.
    - unfold group_states.
      set (S0 := fun st => match selection_of D st with Some s => s | None => SelAll end).
      assert (E : option_list (map (fun it => match selection_of D (snd it) with Some s => Some (s, fst it) | None => None end) its)
                  = Some (map (fun it => (S0 (snd it), fst it)) its)).
      { apply option_list_some. rewrite map_map. apply map_ext_in. intros it Hin. unfold S0.
        rewrite Forall_forall in Hwf. destruct (Hwf it Hin) as [_ Hc].
        destruct (selection_nonempty D (snd it) Hc) as (s & ->). reflexivity. }
      rewrite E. set (l := map _ its). eexists. split; [reflexivity|].
      assert (Hk : dkeys (map (fun g : selection * list (selection * ident) => (fst g, map snd (snd g))) (group_by sel_eqb fst l))
                   = dkeys (group_by sel_eqb fst l)).
      { unfold dkeys. rewrite map_map. reflexivity. }
      rewrite Hk. split; [apply group_by_nodup; apply sel_eqb_spec|]. split.
      + intros s ids Hin. apply in_map_iff in Hin. destruct Hin as ([s' g] & [= <- <-] & Hin). cbn [fst snd].
        apply (group_by_in sel_eqb sel_eqb_spec) in Hin. destruct Hin as [-> _].
        assert (Ef : map snd (filter (fun x => sel_eqb s' (fst x)) l) = map fst (filter (fun it => sel_eqb s' (S0 (snd it))) its)).
        { unfold l. clear. induction its as [|it its IH]; [reflexivity|]. cbn [map filter fst].
          destruct (sel_eqb s' (S0 (snd it))); cbn [map snd]; congruence. }
        rewrite Ef. split.
        * clear - ND. induction its as [|it its IH]; [constructor|]. cbn [dkeys map] in ND. inversion ND; subst.
          cbn [filter]. destruct (sel_eqb _ _); [|auto]. cbn [map]. constructor; auto.
          intros H. apply H1. apply in_map_iff in H. destruct H as (x & <- & Hx). apply filter_In in Hx. apply in_map. tauto.
        * intros it Hit. split.
          -- intros H. apply in_map_iff in H. destruct H as (it' & E' & H'). apply filter_In in H'. destruct H' as [H' Es].
             apply sel_eqb_spec in Es. assert (it' = it); [|now subst].
             destruct it as [j st], it' as [j' st']. cbn [fst] in E'. subst j'. f_equal.
             assert (Some st' = Some st); [|congruence].
             rewrite <- (dget_in leqb leqb_spec j st' its ND H'). rewrite <- (dget_in leqb leqb_spec j st its ND Hit). reflexivity.
          -- intros Es. apply in_map. apply filter_In. split; auto. apply sel_eqb_spec. now symmetry.
      + intros it Hin. apply (group_by_key_iff sel_eqb sel_eqb_spec). exists (S0 (snd it), fst it). split; [|reflexivity].
        unfold l. apply (in_map (fun it => (S0 (snd it), fst it))). exact Hin. }
  destruct Hg as (gs & -> & NDg & HG & Hcov).
  rewrite (fold_groups D eps (all_values D) nds W S its gs); auto.
  f_equal. apply map_ext_in. intros it Hin.
  assert (Ex : existsb (sel_eqb (S (snd it))) (dkeys gs) = true).
  { apply existsb_exists. exists (S (snd it)). split; auto. now apply sel_eqb_spec. }
  rewrite Ex. f_equal. unfold optical_step. f_equal. apply components_ext. intros i Hi.
  destruct (reduced_matrix D (S (snd it)) nds HL HN Htl Hne) as (F & EF & HF).
  pose proof (HW (S (snd it))) as EW. rewrite EF in EW. injection EW as EW. rewrite <- EW. cbn [fst snd].
  apply apply_reduced_full; auto.
Qed.
