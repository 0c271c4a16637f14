From Coq Require Import Reals List Arith Lia Lra Bool Permutation.
From Coquelicot Require Import Complex.
From Verif Require Import Prelude NamesModel NamesSpec NamesProofs FockModel FockSpec FockProofs GateProofs
  StateModel StateSpec.
Import ListNotations.

Lemma Rsum_one {A} (x : A) f : Rsum [x] f = f x.
Proof. unfold Rsum. cbn [fold_right]. ring. Qed.

(** ** Grouping dictionaries *)
Section Group.
  Context {K V : Type} (keq : K -> K -> bool).
  Hypothesis keq_spec : forall a b, keq a b = true <-> a = b.

  Lemma dappend_keys k (x : V) d :
    dkeys (dappend keq k x d) = if dmem keq k d then dkeys d else dkeys d ++ [k].
  Proof.
    unfold dappend, dmem. destruct (dget keq k d) eqn:E.
    - rewrite (dkeys_dset keq). unfold dmem. now rewrite E.
    - unfold dkeys. rewrite map_app. reflexivity.
  Qed.

  Lemma dget_app_fresh {W} k (v : W) k2 (d : list (K * W)) :
    dget keq k2 (d ++ [(k, v)]) = match dget keq k2 d with Some y => Some y | None => if keq k2 k then Some v else None end.
  Proof.
    induction d as [|[k' v'] r IH]; simpl; [reflexivity|]. destruct (keq k2 k'); auto.
  Qed.

  Lemma group_by_get (f : V -> K) l k :
    dget keq k (group_by keq f l) =
    match filter (fun x => keq k (f x)) l with [] => None | g => Some g end.
  Proof.
    unfold group_by. induction l as [|x l IH] using rev_ind; [reflexivity|].
    rewrite fold_left_app. cbn [fold_left]. set (d := fold_left _ l []) in *.
    rewrite filter_app. cbn [filter]. unfold dappend.
    destruct (keq k (f x)) eqn:E.
    - apply keq_spec in E. rewrite <- E. rewrite IH.
      destruct (filter (fun x => keq k (f x)) l) eqn:Ef.
      + rewrite dget_app_fresh. rewrite IH. rewrite (proj2 (keq_spec k k)) by reflexivity. reflexivity.
      + rewrite (dget_dset_same keq keq_spec). destruct (_ ++ _) eqn:Ea; [|reflexivity].
        destruct l0; discriminate.
    - assert (Hne : k <> f x) by (intros ->; rewrite (proj2 (keq_spec (f x) (f x))) in E; [discriminate|reflexivity]).
      rewrite app_nil_r. rewrite <- IH. destruct (dget keq (f x) d).
      + now apply (dget_dset_other keq keq_spec).
      + rewrite dget_app_fresh. rewrite E. destruct (dget keq k d); reflexivity.
  Qed.

  Lemma group_by_nodup (f : V -> K) l : NoDup (dkeys (group_by keq f l)).
  Proof.
    unfold group_by. induction l as [|x l IH] using rev_ind; [constructor|].
    rewrite fold_left_app. cbn [fold_left]. rewrite dappend_keys. unfold dmem.
    destruct (dget keq (f x) _) eqn:E; auto.
    apply (dget_none_iff keq keq_spec) in E.
    eapply Permutation_NoDup; [apply Permutation_cons_append|]. now constructor.
  Qed.

  Lemma group_by_in (f : V -> K) l k g :
    In (k, g) (group_by keq f l) -> g = filter (fun x => keq k (f x)) l /\ g <> [].
  Proof.
    intros H. apply (dget_in keq keq_spec) in H; [|apply group_by_nodup].
    rewrite group_by_get in H. destruct (filter _ l) eqn:E; [discriminate|].
    injection H as <-. split; auto. discriminate.
  Qed.

  Lemma group_by_key_iff (f : V -> K) l k :
    In k (dkeys (group_by keq f l)) <-> exists x, In x l /\ f x = k.
  Proof.
    split.
    - intros H. apply in_map_iff in H. destruct H as ([k' g] & <- & Hin).
      destruct (group_by_in _ _ _ _ Hin) as [Eg Hne]. cbn [fst].
      destruct g as [|x g]; [now destruct Hne|]. exists x.
      assert (Hx : In x (filter (fun x => keq k' (f x)) l)) by (rewrite <- Eg; now left).
      apply filter_In in Hx. destruct Hx as [Hx E]. apply keq_spec in E. auto.
    - intros (x & Hx & <-). destruct (dget keq (f x) (group_by keq f l)) eqn:E.
      + apply (dget_some_in keq keq_spec) in E. apply in_map_iff. now exists (f x, l0).
      + exfalso. rewrite group_by_get in E.
        assert (Hf : In x (filter (fun y => keq (f x) (f y)) l)) by (apply filter_In; split; auto; now apply keq_spec).
        destruct (filter _ l); [destruct Hf|discriminate].
  Qed.

  (** Summing over the groups is summing over the list. *)
  Lemma group_by_Rsum (f : V -> K) l (g : V -> R) :
    Rsum (group_by keq f l) (fun kg => Rsum (snd kg) g) = Rsum l g.
  Proof.
    unfold group_by. induction l as [|x l IH] using rev_ind; [reflexivity|].
    rewrite fold_left_app. cbn [fold_left]. rewrite Rsum_app, <- IH.
    pose proof (group_by_nodup f l) as ND. unfold group_by in ND.
    set (d := fold_left _ l []) in *. clearbody d. clear IH.
    unfold dappend. destruct (dget keq (f x) d) as [g0|] eqn:E.
    - assert (G : Rsum (dset keq (f x) (g0 ++ [x]) d) (fun kg => Rsum (snd kg) g) = (Rsum d (fun kg => Rsum (snd kg) g) + g x)%R).
      { clear ND. revert E. generalize (f x). intros k. induction d as [|[k' v'] r IH]; cbn [dget dset]; [discriminate|].
        destruct (keq k k'); intros E.
        - injection E as ->. rewrite !Rsum_cons. cbn [snd]. rewrite Rsum_app, Rsum_one. ring.
        - rewrite !Rsum_cons. rewrite IH by auto. ring. }
      rewrite G. rewrite Rsum_one. ring.
    - rewrite Rsum_app, !Rsum_one. cbn [snd]. rewrite Rsum_one. ring.
  Qed.
End Group.

Lemma sel_eqb_spec a b : sel_eqb a b = true <-> a = b.
Proof. destruct a, b; simpl; rewrite ?Nat.eqb_eq; split; congruence. Qed.

Lemma option_list_some {A} (l : list (option A)) r :
  option_list l = Some r <-> l = map Some r.
Proof.
  revert r; induction l as [|[x|] l IH]; intros r; simpl.
  - split; [intros [= <-]; reflexivity|]. destruct r; [auto|discriminate].
  - destruct (option_list l) as [r'|] eqn:E.
    + split.
      * intros [= <-]. simpl. f_equal. now apply IH.
      * destruct r as [|y r]; [discriminate|]. simpl. intros [= -> H]. apply IH in H. congruence.
    + split; [discriminate|]. destruct r as [|y r]; [discriminate|]. simpl. intros [= -> H].
      apply IH in H. discriminate.
  - split; [discriminate|]. destruct r; discriminate.
Qed.

(** ** Vectors of states *)
Lemma comp_index_name D vs : 1 <= dL D -> valid D vs -> comp_index D (name_string D vs) = index_of_values D vs.
Proof. intros HL Hv. unfold comp_index. rewrite values_of_name_string; auto. apply Hv. Qed.

Lemma at_index_of D i : at_index D i = name_string D (values_from_index D i).
Proof. reflexivity. Qed.

Lemma comp_index_at D i : 1 <= dL D -> i < size_of_basis D -> comp_index D (at_index D i) = i.
Proof.
  intros HL Hi. unfold at_index. rewrite comp_index_name; auto.
  - now apply index_values_roundtrip.
  - now apply values_from_index_valid.
Qed.

Lemma at_index_inj D i j : 1 <= dL D -> i < size_of_basis D -> j < size_of_basis D ->
  at_index D i = at_index D j -> i = j.
Proof.
  intros HL Hi Hj E. apply (f_equal (comp_index D)) in E. now rewrite !comp_index_at in E by auto.
Qed.

Lemma state_vector_spec D st i :
  1 <= dL D -> wf_state D st -> i < size_of_basis D ->
  state_vector D st i = amplitude st (at_index D i).
Proof.
  intros HL [ND Hn] Hi. unfold state_vector, amplitude.
  assert (G : forall (cs : list (name * (C * R))) (w : vec), NoDup (map fst cs) ->
     (forall nm, In nm (map fst cs) -> exists vs, valid D vs /\ nm = name_string D vs) ->
     fold_left (fun (w : vec) c => upd w (comp_index D (fst c)) (fst (snd c))) cs w i
     = match dget leqb (at_index D i) cs with Some ap => fst ap | None => w i end).
  { clear ND Hn. induction cs as [|[nm [a p]] cs IH]; intros w ND Hn; [reflexivity|].
    cbn [fold_left map fst] in *. inversion ND; subst. rewrite IH; auto; [|intros; apply Hn; now right].
    cbn [dget fst snd]. destruct (Hn nm (or_introl eq_refl)) as (vs & Hv & ->).
    unfold upd at 1. rewrite comp_index_name by auto.
    destruct (leqb (at_index D i) (name_string D vs)) eqn:E.
    - apply leqb_spec in E. assert (Ei : i = index_of_values D vs).
      { rewrite <- (comp_index_at D i) by auto. rewrite E. now apply comp_index_name. }
      rewrite (proj2 (dget_none_iff leqb leqb_spec (at_index D i) cs)).
      + rewrite (proj2 (Nat.eqb_eq _ _) Ei). reflexivity.
      + rewrite E. exact H1.
    - destruct (dget leqb (at_index D i) cs); [reflexivity|].
      destruct (Nat.eqb_spec i (index_of_values D vs)) as [Ei|]; [|reflexivity].
      exfalso. rewrite Ei in E. unfold at_index in E. rewrite values_index_roundtrip in E by auto.
      rewrite (proj2 (leqb_spec _ _) eq_refl) in E. discriminate. }
  rewrite G; auto.
Qed.

Lemma state_vector_amp D st vs :
  1 <= dL D -> wf_state D st -> valid D vs -> state_vector D st (index_of_values D vs) = amp_of D st vs.
Proof.
  intros HL Hw Hv. rewrite state_vector_spec; auto.
  - unfold amp_of, at_index. now rewrite values_index_roundtrip.
  - now apply index_of_values_bound.
Qed.

Definition from_vec (D : dims) (eps : R) (v : vec) (l : list nat) : list (name * (C * R)) :=
  flat_map (fun i => if Rlt_dec (Cnorm2 (v i)) eps then [] else [(at_index D i, (v i, Cnorm2 (v i)))]) l.

Lemma from_vec_in D eps v l nm a p :
  In (nm, (a, p)) (from_vec D eps v l) ->
  exists i, In i l /\ nm = at_index D i /\ a = v i /\ p = Cnorm2 a /\ (eps <= Cnorm2 a)%R.
Proof.
  unfold from_vec. intros H. apply in_flat_map in H. destruct H as (i & Hi & H).
  destruct (Rlt_dec _ _); [destruct H|]. destruct H as [[= <- <- <-]|[]].
  exists i. repeat split; auto. lra.
Qed.

Lemma from_vec_keys_in D eps v l nm :
  In nm (map fst (from_vec D eps v l)) -> exists i, In i l /\ nm = at_index D i.
Proof.
  intros H. apply in_map_iff in H. destruct H as ([nm' [a p]] & <- & H).
  apply from_vec_in in H. destruct H as (i & Hi & -> & _). now exists i.
Qed.

Lemma from_vec_nodup D eps v l :
  1 <= dL D -> NoDup l -> (forall i, In i l -> i < size_of_basis D) -> NoDup (map fst (from_vec D eps v l)).
Proof.
  intros HL. induction l as [|i l IH]; intros ND Hb; [constructor|].
  inversion ND; subst. unfold from_vec in *. cbn [flat_map].
  destruct (Rlt_dec _ _); [apply IH; auto; intros; apply Hb; now right|].
  cbn [app map fst]. constructor; [|apply IH; auto; intros; apply Hb; now right].
  intros Hin. apply from_vec_keys_in in Hin. destruct Hin as (j & Hj & E).
  apply at_index_inj in E; auto; [subst; auto| |]; apply Hb; [now left|now right].
Qed.

Lemma from_vec_get D eps v l i :
  1 <= dL D -> NoDup l -> (forall i, In i l -> i < size_of_basis D) -> In i l ->
  dget leqb (at_index D i) (from_vec D eps v l)
  = if Rlt_dec (Cnorm2 (v i)) eps then None else Some (v i, Cnorm2 (v i)).
Proof.
  intros HL ND Hb Hi. destruct (Rlt_dec (Cnorm2 (v i)) eps) as [Hlt|Hge].
  - apply (dget_none_iff leqb leqb_spec). intros Hin.
    apply in_map_iff in Hin. destruct Hin as ([nm [a p]] & E & H). cbn [fst] in E. subst nm.
    apply from_vec_in in H. destruct H as (j & Hj & E & -> & _ & Hle).
    apply at_index_inj in E; auto. subst j. lra.
  - apply (dget_in leqb leqb_spec); [now apply from_vec_nodup|].
    unfold from_vec. apply in_flat_map. exists i. split; auto.
    destruct (Rlt_dec _ _); [contradiction|]. now left.
Qed.

Lemma components_wf D eps v st : 1 <= dL D -> wf_state D (with_comps st (components_from_vector D eps v)).
Proof.
  intros HL. unfold wf_state. cbn [s_comps with_comps].
  change (components_from_vector D eps v) with (from_vec D eps v (seq 0 (size_of_basis D))). split.
  - apply from_vec_nodup; auto; [apply seq_NoDup|]. intros i Hi. apply in_seq in Hi. lia.
  - intros nm H. apply from_vec_keys_in in H. destruct H as (i & Hi & ->).
    exists (values_from_index D i). split; [now apply values_from_index_valid|reflexivity].
Qed.

Lemma components_probs D eps v st : probs_ok (with_comps st (components_from_vector D eps v)).
Proof.
  unfold probs_ok. cbn [s_comps with_comps]. intros nm a p H.
  apply (from_vec_in D eps v (seq 0 (size_of_basis D))) in H. now destruct H as (i & _ & _ & _ & E & _).
Qed.

Lemma components_amplitude D eps v st i :
  1 <= dL D -> i < size_of_basis D ->
  amplitude (with_comps st (components_from_vector D eps v)) (at_index D i)
  = if Rlt_dec (Cnorm2 (v i)) eps then RtoC 0 else v i.
Proof.
  intros HL Hi. unfold amplitude. cbn [s_comps with_comps].
  change (components_from_vector D eps v) with (from_vec D eps v (seq 0 (size_of_basis D))).
  rewrite from_vec_get; auto.
  - destruct (Rlt_dec _ _); reflexivity.
  - apply seq_NoDup.
  - intros j Hj. apply in_seq in Hj. lia.
  - apply in_seq. lia.
Qed.

Lemma components_ext D eps v w :
  (forall i, i < size_of_basis D -> v i = w i) -> components_from_vector D eps v = components_from_vector D eps w.
Proof.
  intros H. unfold components_from_vector.
  assert (G : forall l, (forall i, In i l -> i < size_of_basis D) -> from_vec D eps v l = from_vec D eps w l).
  { induction l as [|i l IH]; intros Hl; [reflexivity|]. unfold from_vec in *. cbn [flat_map].
    rewrite IH by (intros; apply Hl; now right). rewrite (H i) by (apply Hl; now left). reflexivity. }
  apply G. intros i Hi. apply in_seq in Hi. lia.
Qed.

Lemma components_norm2 D eps v st :
  (eps <= 0)%R -> state_norm2 (with_comps st (components_from_vector D eps v)) = norm2 (size_of_basis D) v.
Proof.
  intros He. unfold state_norm2, norm2. cbn [s_comps with_comps]. unfold components_from_vector.
  rewrite Rsum_flat_map. apply Rsum_ext. intros i _. destruct (Rlt_dec _ _) as [Hl|].
  - pose proof (Cnorm2_nonneg (v i)). lra.
  - now rewrite Rsum_one.
Qed.

(** The norm of a well-formed state is the norm of its vector. *)
Lemma state_norm2_vector D st :
  1 <= dL D -> wf_state D st -> state_norm2 st = norm2 (size_of_basis D) (state_vector D st).
Proof.
  intros HL Hw. unfold norm2.
  transitivity (Rsum (all_names D) (fun nm => Cnorm2 (amplitude st nm))).
  2:{ unfold all_names. rewrite Rsum_map. apply Rsum_ext. intros i Hi. apply in_seq in Hi.
      now rewrite state_vector_spec by (auto; lia). }
  destruct Hw as [ND Hn]. unfold state_norm2.
  pose proof (all_names_NoDup D HL) as NDn.
  assert (Hin : forall nm, In nm (map fst (s_comps st)) -> In nm (all_names D)).
  { intros nm H. destruct (Hn nm H) as (vs & Hv & ->). rewrite all_names_map. apply in_map. now apply all_values_in. }
  unfold amplitude. revert ND Hin. generalize (s_comps st). clear Hn. intros cs.
  revert NDn. generalize (all_names D). intros l NDl ND Hin.
  induction cs as [|[nm [a p]] cs IH].
  - cbn. symmetry. apply Rsum_zero. intros. apply Cnorm2_zero.
  - cbn [map fst] in *. inversion ND; subst. rewrite Rsum_cons. cbn [fst snd]. rewrite IH; auto; [|intros; apply Hin; now right].
    transitivity (Rsum l (fun x => (if leqb x nm then Cnorm2 a else 0) + Cnorm2 (match dget leqb x cs with Some ap => fst ap | None => RtoC 0 end)))%R.
    + rewrite Rsum_plus. f_equal. symmetry.
      rewrite (Rsum_single l nm).
      * now rewrite (proj2 (leqb_spec nm nm) eq_refl).
      * auto.
      * apply Hin. now left.
      * intros x Hx Hne. destruct (leqb x nm) eqn:E; auto. apply leqb_spec in E. contradiction.
    + apply Rsum_ext. intros x Hx. cbn [dget]. destruct (leqb x nm) eqn:E.
      * apply leqb_spec in E. subst x. rewrite (proj2 (dget_none_iff leqb leqb_spec nm cs)) by auto.
        rewrite Cnorm2_zero. cbn [fst]. ring.
      * ring.
Qed.
