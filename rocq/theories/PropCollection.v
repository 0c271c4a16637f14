(** Property theorems C29, C30, C32: the collection as a dictionary. *)
From Coq Require Import Reals List Arith Lia Lra Bool Permutation.
From Coquelicot Require Import Complex.
From Verif Require Import Prelude NamesModel NamesSpec NamesProofs FockModel FockSpec StateModel StateSpec StateProofs
  ApplyProofs CollectionModel CollectionSpec MeasureProofs WfProofs.
Import ListNotations.

Lemma lookup_dget its i : lookup its i = dget leqb i its.
Proof. unfold lookup, get_state. now destruct (dget leqb i its). Qed.

Lemma dget_ddel_same {V} k (d : list (ident * V)) : dget leqb k (ddel leqb k d) = None.
Proof.
  apply (dget_none_iff leqb leqb_spec). unfold dkeys, ddel. intros H. apply in_map_iff in H. destruct H as (x & <- & Hx).
  apply filter_In in Hx. destruct Hx as [_ Hx]. rewrite (proj2 (leqb_spec _ _) eq_refl) in Hx. discriminate.
Qed.
Lemma dget_ddel_other {V} k j (d : list (ident * V)) : j <> k -> dget leqb j (ddel leqb k d) = dget leqb j d.
Proof.
  intros Hne. unfold ddel. induction d as [|[k' v] d IH]; [reflexivity|]. cbn [filter fst].
  destruct (leqb k k') eqn:E; cbn [negb].
  - apply leqb_spec in E. subst k'. cbn [dget]. destruct (leqb j k) eqn:E; [apply leqb_spec in E; contradiction|exact IH].
  - cbn [dget]. now rewrite IH.
Qed.
Lemma ddel_nodup {V} k (d : list (ident * V)) : NoDup (dkeys d) -> NoDup (dkeys (ddel leqb k d)).
Proof. unfold dkeys, ddel. apply filter_NoDup_map. Qed.

(** ** C29 *)
(** Any sequence of additions and deletions acts on what get_state returns like the same
    sequence on a finite map, with identifiers staying distinct; added states without identifier
    get an identifier that was not in use. *)
Theorem C29_dictionary : forall rnd ops its seed, NoDup (map fst its) ->
  NoDup (map fst (fst (coll_run rnd seed its ops))) /\
  map_run (lookup its) ops (lookup (fst (coll_run rnd seed its ops))).
Proof.
  intros rnd ops. induction ops as [|o ops IH]; intros its seed ND; [split; [exact ND|constructor]|].
  change (coll_run rnd seed its (o :: ops)) with (fold_left (coll_step rnd) ops (coll_step rnd (its, seed) o)).
  assert (H : NoDup (map fst (fst (coll_step rnd (its, seed) o))) /\
              map_step (lookup its) o (lookup (fst (coll_step rnd (its, seed) o)))).
  { destruct o as [i st|st|i]; cbn [coll_step fst snd].
    - split; [now apply (dset_NoDup leqb leqb_spec)|]. constructor.
      + rewrite lookup_dget. apply (dget_dset_same leqb leqb_spec).
      + intros j Hj. rewrite !lookup_dget. now apply (dget_dset_other leqb leqb_spec).
    - unfold add_state_random. pose proof (random_identifier_fresh rnd seed (dkeys its)) as Hf.
      destruct (random_identifier rnd seed (dkeys its)) as [i s']. cbn [fst] in *.
      split; [now apply (dset_NoDup leqb leqb_spec)|]. apply (MRandom _ i).
      + rewrite lookup_dget. now apply (dget_none_iff leqb leqb_spec).
      + rewrite lookup_dget. apply (dget_dset_same leqb leqb_spec).
      + intros j Hj. rewrite !lookup_dget. now apply (dget_dset_other leqb leqb_spec).
    - unfold delete_state, dmem. destruct (dget leqb i its) as [st|] eqn:E.
      + split; [now apply ddel_nodup|]. constructor.
        * rewrite lookup_dget. apply dget_ddel_same.
        * intros j Hj. rewrite !lookup_dget. now apply dget_ddel_other.
      + split; [exact ND|]. constructor; [now rewrite lookup_dget|auto]. }
  destruct H as [ND' HS]. destruct (coll_step rnd (its, seed) o) as [its' seed']. cbn [fst] in *.
  destruct (IH its' seed' ND') as [H1 H2]. split; [exact H1|]. econstructor; [exact HS|exact H2].
Qed.

Lemma nodup_mid {V} l1 l2 (i : ident) (v : V) : NoDup (map fst (l1 ++ (i, v) :: l2)) -> ~ In i (map fst l1) /\ ~ In i (map fst l2).
Proof.
  rewrite map_app. cbn [map fst]. intros ND. apply NoDup_remove_2 in ND. split; intros H; apply ND; apply in_or_app; auto.
Qed.

(** The order of the states: a state under a new identifier goes to the end, a state under an
    existing identifier replaces the old one in its place, and a deletion leaves the order of
    the others. *)
Theorem C29_order : forall its, NoDup (map fst its) ->
  (forall i st, ~ In i (map fst its) -> add_state i st its = its ++ [(i, st)]) /\
  (forall l1 l2 i old st, its = l1 ++ (i, old) :: l2 -> add_state i st its = l1 ++ (i, st) :: l2) /\
  (forall rnd seed st, exists i, ~ In i (map fst its) /\ fst (add_state_random rnd seed st its) = its ++ [(i, st)]) /\
  (forall l1 l2 i old, its = l1 ++ (i, old) :: l2 -> delete_state (Some i) None its = l1 ++ l2) /\
  (forall i, ~ In i (map fst its) -> delete_state (Some i) None its = its).
Proof.
  intros its ND. split; [|split; [|split; [|split]]].
  - intros i st Hi. now apply (dset_fresh leqb leqb_spec).
  - intros l1 l2 i old st ->. destruct (nodup_mid _ _ _ _ ND) as [H1 _]. unfold add_state. clear ND.
    induction l1 as [|[j s] l1 IH]; cbn [app dset].
    + now rewrite (proj2 (leqb_spec _ _) eq_refl).
    + destruct (leqb i j) eqn:E.
      * apply leqb_spec in E. exfalso. apply H1. now left.
      * rewrite IH; auto. intros H. apply H1. now right.
  - intros rnd seed st. unfold add_state_random. pose proof (random_identifier_fresh rnd seed (dkeys its)) as Hf.
    destruct (random_identifier rnd seed (dkeys its)) as [i s']. cbn [fst] in *. exists i. split; auto.
    now apply (dset_fresh leqb leqb_spec).
  - intros l1 l2 i old ->. destruct (nodup_mid _ _ _ _ ND) as [H1 H2]. unfold delete_state, dmem.
    rewrite (dget_in leqb leqb_spec i old); [|exact ND|apply in_or_app; right; now left].
    unfold ddel. rewrite filter_app. cbn [filter fst]. rewrite (proj2 (leqb_spec _ _) eq_refl). cbn [negb].
    assert (K : forall l : items, ~ In i (map fst l) -> filter (fun kv => negb (leqb i (fst kv))) l = l).
    { induction l as [|[j s] l IH]; intros Hn; [reflexivity|]. cbn [filter fst]. destruct (leqb i j) eqn:E.
      - apply leqb_spec in E. exfalso. apply Hn. now left.
      - cbn [negb]. f_equal. apply IH. intros H. apply Hn. now right. }
    now rewrite !K.
  - intros i Hi. unfold delete_state, dmem. apply (dget_none_iff leqb leqb_spec) in Hi. now rewrite Hi.
Qed.

(** Look-up and deletion by initial_state: the first state with that label. *)
Theorem C29_initial_state : forall its lab,
  (forall st, get_state None (Some lab) its = Some st <->
     exists l1 i l2, its = l1 ++ (i, st) :: l2 /\ s_init st = lab /\ Forall (fun it => s_init (snd it) <> lab) l1) /\
  (NoDup (map fst its) -> forall l1 i st l2, its = l1 ++ (i, st) :: l2 -> s_init st = lab ->
     Forall (fun it => s_init (snd it) <> lab) l1 -> delete_state None (Some lab) its = l1 ++ l2) /\
  (Forall (fun it => s_init (snd it) <> lab) its ->
     get_state None (Some lab) its = None /\ delete_state None (Some lab) its = its).
Proof.
  intros its lab.
  assert (F1 : forall l1 i st l2, s_init st = lab -> Forall (fun it => s_init (snd it) <> lab) l1 ->
     find_init lab (l1 ++ (i, st) :: l2) = Some (i, st)).
  { induction l1 as [|it l1 IH]; intros i st l2 Hs HF; cbn [app find_init snd].
    - now rewrite Hs, (proj2 (leqb_spec _ _) eq_refl).
    - inversion HF; subst. destruct (leqb (s_init (snd it)) (s_init st)) eqn:E; [apply leqb_spec in E; contradiction|]. now apply IH. }
  assert (F2 : Forall (fun it => s_init (snd it) <> lab) its -> find_init lab its = None).
  { clear. induction its as [|it its IH]; intros HF; [reflexivity|]. inversion HF; subst. cbn [find_init].
    destruct (leqb (s_init (snd it)) lab) eqn:E; [apply leqb_spec in E; contradiction|]. auto. }
  assert (F3 : forall i st, find_init lab its = Some (i, st) ->
     exists l1 l2, its = l1 ++ (i, st) :: l2 /\ s_init st = lab /\ Forall (fun it => s_init (snd it) <> lab) l1).
  { clear. induction its as [|it its IH]; intros i st E; [discriminate|]. cbn [find_init] in E.
    destruct (leqb (s_init (snd it)) lab) eqn:El.
    - injection E as ->. apply leqb_spec in El. exists [], its. auto.
    - destruct (IH _ _ E) as (l1 & l2 & -> & H1 & H2). exists (it :: l1), l2. split; [reflexivity|]. split; auto.
      constructor; auto. intros H. apply leqb_spec in H. congruence. }
  split; [|split].
  - intros st. unfold get_state. split.
    + destruct (find_init lab its) as [[i st']|] eqn:E; [|discriminate]. intros [= ->].
      destruct (F3 _ _ eq_refl) as (l1 & l2 & H1 & H2 & H3). exists l1, i, l2. auto.
    + intros (l1 & i & l2 & -> & H1 & H2). now rewrite F1.
  - intros ND l1 i st l2 -> H1 H2. unfold delete_state. rewrite F1 by auto. cbn [fst].
    destruct (nodup_mid _ _ _ _ ND) as [N1 N2]. 
    unfold ddel. rewrite filter_app. cbn [filter fst]. rewrite (proj2 (leqb_spec _ _) eq_refl). cbn [negb].
    assert (K : forall l : items, ~ In i (map fst l) -> filter (fun kv => negb (leqb i (fst kv))) l = l).
    { induction l as [|[j s] l IH]; intros Hn; [reflexivity|]. cbn [filter fst]. destruct (leqb i j) eqn:E.
      - apply leqb_spec in E. exfalso. apply Hn. now left.
      - cbn [negb]. f_equal. apply IH. intros H. apply Hn. now right. }
    now rewrite !K.
  - intros HF. unfold get_state, delete_state. rewrite F2 by auto. auto.
Qed.

(** The identifier comes first: if the collection has it, the initial_state that is passed along
    plays no role; if it does not, the identifier plays no role. *)
Theorem C29_identifier_first : forall its l1 i st l2 lab, NoDup (map fst its) -> its = l1 ++ (i, st) :: l2 ->
  get_state (Some i) lab its = Some st /\ delete_state (Some i) lab its = l1 ++ l2.
Proof.
  intros its l1 i st l2 lab Hnd E.
  assert (Hg : dget leqb i its = Some st) by (apply (dget_in leqb leqb_spec); [exact Hnd|rewrite E; apply in_or_app; right; left; reflexivity]).
  split.
  - unfold get_state. rewrite Hg. reflexivity.
  - destruct (C29_order its Hnd) as [_ [_ [_ [H _]]]].
    assert (H0 : delete_state (Some i) lab its = delete_state (Some i) None its) by (unfold delete_state, dmem; rewrite Hg; reflexivity).
    rewrite H0. apply (H l1 l2 i st E).
Qed.
Theorem C29_identifier_missing : forall its i lab, ~ In i (map fst its) ->
  get_state (Some i) lab its = get_state None lab its /\ delete_state (Some i) lab its = delete_state None lab its /\
  get_state None None its = None /\ delete_state None None its = its.
Proof.
  intros its i lab Hi. apply (dget_none_iff leqb leqb_spec) in Hi. unfold get_state, delete_state, dmem. rewrite Hi. repeat split.
Qed.
Example C29_precedence_case :
  let a := with_init (initialized_state (Dims 2 2 true) 0) [97] in let b := with_init (initialized_state (Dims 2 2 true) 0) [98] in
  get_state (Some [2]) (Some [97]) [([1], a); ([2], b)] = Some b /\ get_state (Some [3]) (Some [97]) [([1], a); ([2], b)] = Some a.
Proof. cbv zeta. split; reflexivity. Qed.

(** The filters keep exactly the states that satisfy the condition, in order, unchanged, and
    raise only if one of the kept states is not valid. *)
Lemma copy_items_all eps ncl its :
  copy_items eps ncl its = if forallb (fun it => check_state eps ncl (snd it)) its then Some its else None.
Proof.
  unfold copy_items, copy_state, make_state. induction its as [|[i st] its IH]; [reflexivity|].
  cbn [map option_list forallb snd fst]. destruct (check_state eps ncl st); [|reflexivity]. cbn [andb]. rewrite IH.
  now destruct (forallb _ its).
Qed.

Theorem C29_filters : forall cs,
  let valid_kept (p : ident * state -> Prop) :=
    forall it, In it (co_items cs) -> p it -> check_state (co_eps cs) (co_ncl cs) (snd it) = true in
  let keeps (r : option coll) (p : ident * state -> Prop) :=
    exists q, (forall it, q it = true <-> p it) /\
      (valid_kept p -> r = Some (Coll (co_D cs) (co_ncl cs) (co_eps cs) (filter q (co_items cs)))) /\
      (~ valid_kept p -> r = None) in
  (forall ls, keeps (filter_on_initial_state ls cs) (fun it => In (s_init (snd it)) ls)) /\
  (forall ls, keeps (filter_on_identifier ls cs) (fun it => In (fst it) ls)) /\
  (forall chs vals, keeps (filter_on_classical_channel chs vals cs)
     (fun it => forall ch v, In (ch, v) (combine chs vals) -> nth ch (s_classical (snd it)) 0%R = v)).
Proof.
  intros cs valid_kept keeps.
  assert (G : forall q p, (forall it, q it = true <-> p it) ->
     keeps (option_map (with_items cs) (filter_items (co_eps cs) (co_ncl cs) q (co_items cs))) p).
  { intros q p Hq. exists q. split; [exact Hq|]. unfold filter_items. rewrite copy_items_all. unfold with_items. split; intros H.
    - assert (E : forallb (fun it : ident * state => check_state (co_eps cs) (co_ncl cs) (snd it)) (filter q (co_items cs)) = true).
      { apply forallb_forall. intros it Hit. apply filter_In in Hit. destruct Hit as [Hit Hp]. apply H; auto. now apply Hq. }
      now rewrite E.
    - destruct (forallb _ _) eqn:E; [|reflexivity]. exfalso. apply H. intros it Hit Hp. rewrite forallb_forall in E. apply E.
      apply filter_In. split; auto. now apply Hq. }
  split; [|split].
  - intros ls. apply G. intros it. apply existsb_leqb_in.
  - intros ls. apply G. intros it. apply existsb_leqb_in.
  - intros chs vals. apply G. intros it. rewrite forallb_forall. split.
    + intros H ch v Hin. specialize (H _ Hin). cbn [fst snd] in H. destruct (Req_EM_T _ _); [auto|discriminate].
    + intros H [ch v] Hin. cbn [fst snd]. destruct (Req_EM_T _ _) as [|n]; [reflexivity|]. exfalso. apply n. now apply H.
Qed.

(** ** C30 *)
Lemma default_identifier_inj D i j : i < size_of_basis D -> j < size_of_basis D ->
  default_identifier D i = default_identifier D j -> i = j.
Proof.
  intros Hi Hj E. unfold default_identifier in E. apply app_inv_head in E. apply map_add_inj in E.
  rewrite <- (parse_pad (ndigits (size_of_basis D)) i), <- (parse_pad (ndigits (size_of_basis D)) j), E; auto.
  - eapply Nat.lt_trans; [exact Hj|apply ndigits_bound].
  - eapply Nat.lt_trans; [exact Hi|apply ndigits_bound].
Qed.

Lemma nth_combine_seq {A} (l : list A) : forall s i d, i < length l -> nth i (combine (seq s (length l)) l) d = (s + i, nth i l (snd d)).
Proof.
  induction l as [|x l IH]; intros s i d Hi; [cbn in Hi; lia|]. destruct i as [|i]; cbn [length seq combine nth].
  - now rewrite Nat.add_0_r.
  - rewrite IH by (cbn in Hi; lia). f_equal. lia.
Qed.

(** The collection built from a fresh circuit has L^n states under distinct identifiers. The
    i-th is the pure basis state with the i-th photon-number tuple (C02, C03): a single
    component with amplitude and probability 1, weight 1, zeros in the classical channels,
    nothing measured; its label is its component name. *)
Theorem C30_default_collection : forall D ncl eps, 1 <= dL D ->
  let its := co_items (default_collection D ncl eps) in
  length its = dL D ^ dN D /\ NoDup (map fst its) /\
  forall i vs, valid D vs -> index_of_values D vs = i ->
    exists id st, nth_error its i = Some (id, st) /\
      s_comps st = [(name_string D vs, (RtoC 1, 1%R))] /\ s_cum st = 1%R /\ s_classical st = repeat 0%R ncl /\
      s_results st = [] /\ s_aux st = [] /\ s_init st = map (fun d => 48 + d) (name_string D vs).
Proof.
  intros D ncl eps HL its.
  set (F := fun ic : nat * name => (default_identifier D (fst ic),
      with_comps (with_init (initialized_state D ncl) (map (fun d => 48 + d) (snd ic))) [(snd ic, (RtoC 1, 1%R))])).
  assert (Elen : length (all_names D) = size_of_basis D) by (rewrite <- basis_items_keys, map_length; apply basis_items_length).
  assert (NDk : NoDup (map fst (map F (combine (seq 0 (length (all_names D))) (all_names D))))).
  { rewrite map_map. cbn [F fst]. rewrite <- (map_map fst (default_identifier D)). rewrite map_fst_combine_seq.
    apply map_inj_NoDup; [|apply seq_NoDup]. intros x y Hx Hy. apply in_seq in Hx, Hy. rewrite Elen in *.
    apply default_identifier_inj; lia. }
  assert (E : its = map F (combine (seq 0 (length (all_names D))) (all_names D))).
  { unfold its, default_collection, default_items. cbn [co_items]. rewrite fresh_cn_keys by auto. fold F.
    now apply (dict_of_nodup leqb leqb_spec). }
  split; [|split].
  - rewrite E, map_length, combine_length, seq_length, Nat.min_id, Elen. reflexivity.
  - rewrite E. exact NDk.
  - intros i vs Hv <-. set (i := index_of_values D vs).
    assert (Hi : i < length (all_names D)) by (rewrite Elen; now apply index_of_values_bound).
    assert (En : nth i (all_names D) [] = name_string D vs).
    { rewrite all_names_map. unfold all_values. rewrite map_map.
      rewrite (nth_indep _ [] (name_string D (values_from_index D 0))) by (rewrite map_length, seq_length; rewrite Elen in Hi; exact Hi).
      rewrite (map_nth (fun k => name_string D (values_from_index D k)) (seq 0 (size_of_basis D)) 0).
      rewrite seq_nth by (rewrite Elen in Hi; exact Hi). cbn [plus]. unfold i. now rewrite values_index_roundtrip. }
    exists (default_identifier D i), (snd (F (i, name_string D vs))). split; [|repeat split].
    rewrite E, nth_error_map.
    rewrite (nth_error_nth' _ ((0, []) : nat * name)) by (now rewrite combine_length, seq_length, Nat.min_id).
    rewrite nth_combine_seq by auto. cbn [snd option_map plus]. now rewrite En.
Qed.

(** A fresh state of a circuit: no photons, amplitude and probability 1, weight 1, zeros in the
    classical channels, nothing measured, labelled with its component name. It passes the check. *)
Theorem C30_fresh_state : forall D ncl, 1 <= dL D ->
  let st := initialized_state D ncl in
  s_comps st = [(name_string D (repeat 0 (dN D)), (RtoC 1, 1%R))] /\ s_cum st = 1%R /\ s_classical st = repeat 0%R ncl /\
  s_results st = [] /\ s_aux st = [] /\ s_init st = map (fun d => 48 + d) (name_string D (repeat 0 (dN D))) /\
  forall eps, (0 <= eps)%R -> check_state eps ncl st = true.
Proof.
  intros D ncl HL st. unfold st, initialized_state. cbn [s_comps s_cum s_classical s_results s_aux s_init]. rewrite at_index_of, values_from_index_0.
  repeat (split; [reflexivity|]). intros eps He. unfold check_state, Rltb. cbn [s_comps s_cum s_classical forallb snd fst]. rewrite repeat_length, Nat.eqb_refl.
  repeat (destruct (Rlt_dec _ _); [try (exfalso; lra)|]); try reflexivity; try (exfalso; lra).
Qed.

Example C30_case : map fst (co_items (default_collection (Dims 2 2 true) 1 0)) =
  [identifier_ ++ [48]; identifier_ ++ [49]; identifier_ ++ [50]; identifier_ ++ [51]].
Proof. reflexivity. Qed.

(** ** C32 *)
(** The identifiers drawn for the n states of a mixture: none of them is in the collection
    that is being replaced. *)
Fixpoint mixture_ids (rnd : nat -> nat) (seed : nat) (old : list ident) (n : nat) : list ident :=
  match n with
  | O => []
  | S n' => let (i, seed') := random_identifier rnd seed old in i :: mixture_ids rnd seed' old n'
  end.

(** If the identifiers drawn are different, the mixture has every listed state, in order, with
    its weight and a common new label. (Weights must be in [0,1].) *)
Theorem C32_distinct_partial : forall rnd seed l cs,
  Forall (fun sw => (0 <= snd sw <= 1)%R) l ->
  NoDup (mixture_ids rnd (seed + 5) (map fst (co_items cs)) (length l)) ->
  exists cs' seed', statistical_mixture rnd seed l cs = Some (cs', seed') /\
    co_D cs' = co_D cs /\ co_ncl cs' = co_ncl cs /\ NoDup (map fst (co_items cs')) /\
    exists lab, Forall2 (fun sw it => s_cum (snd it) = snd sw /\ s_init (snd it) = lab /\
      s_comps (snd it) = s_comps (fst sw) /\ s_classical (snd it) = s_classical (fst sw) /\
      s_results (snd it) = s_results (fst sw) /\ s_aux (snd it) = s_aux (fst sw)) l (co_items cs').
Proof.
  intros rnd seed l cs HF HN. unfold statistical_mixture. set (lab := mixture_label rnd seed).
  set (old := dkeys (co_items cs)). change (map fst (co_items cs)) with old in HN.
  assert (G : forall l s (acc : items), Forall (fun sw : state * R => (0 <= snd sw <= 1)%R) l ->
     NoDup (map fst acc ++ mixture_ids rnd s old (length l)) ->
     exists s' new, fold_left (mixture_step old lab rnd) l (Some (acc, s)) = Some (acc ++ new, s') /\
       map fst new = mixture_ids rnd s old (length l) /\
       Forall2 (fun sw it => snd it = with_init (with_cum (fst sw) (snd sw)) lab) l new).
  { clear. induction l as [|[st w] l IH]; intros s acc HF HN.
    - exists s, []. rewrite app_nil_r. split; [reflexivity|]. split; [reflexivity|constructor].
    - inversion HF as [|? ? Hw HF']; subst. cbn [snd] in Hw. cbn [length mixture_ids] in HN.
      cbn [fold_left mixture_step]. cbn [length mixture_ids]. destruct (random_identifier rnd s old) as [i s'].
      cbn [fst snd]. unfold set_cumulative. destruct (Rle_dec 0 w); [|lra]. destruct (Rle_dec w 1); [|lra].
      rewrite (dset_fresh leqb leqb_spec).
      2:{ intros Hin. apply NoDup_remove_2 in HN. apply HN. apply in_or_app. now left. }
      destruct (IH s' (acc ++ [(i, with_init (with_cum st w) lab)])) as (s'' & new & E & Ek & HA); auto.
      { rewrite map_app. cbn [map fst]. rewrite <- app_assoc. exact HN. }
      exists s'', ((i, with_init (with_cum st w) lab) :: new). rewrite <- app_assoc in E. split; [exact E|].
      split; [cbn [map fst]; now rewrite Ek|]. constructor; auto. }
  destruct (G l (seed + 5) [] HF HN) as (s' & new & E & Ek & HA). cbn [app] in E.
  exists (with_items cs new), s'. split; [change (match fold_left (mixture_step old lab rnd) l (Some ([] : items, seed + 5)) with None => None | Some (mix, s') => Some (with_items cs mix, s') end = Some (with_items cs new, s')); now rewrite E|]. cbn [with_items co_D co_ncl co_items]. split; [reflexivity|]. split; [reflexivity|].
  split; [now rewrite Ek|]. exists lab. clear - HA. induction HA as [|sw it l new E _ IH]; constructor; auto.
  rewrite E. repeat split.
Qed.

(** In all cases nothing else gets into the mixture. *)
Theorem C32_no_other_state : forall rnd seed l cs cs' seed',
  statistical_mixture rnd seed l cs = Some (cs', seed') ->
  forall it, In it (co_items cs') -> exists sw, In sw l /\ s_cum (snd it) = snd sw /\
    s_comps (snd it) = s_comps (fst sw) /\ s_classical (snd it) = s_classical (fst sw).
Proof.
  intros rnd seed l cs cs' seed' E it Hit. unfold statistical_mixture in E.
  set (lab := mixture_label rnd seed) in *. set (old := dkeys (co_items cs)) in *.
  destruct (fold_left (mixture_step old lab rnd) l (Some ([], seed + 5))) as [[mix s]|] eqn:Ef; [|discriminate].
  injection E as <- <-. cbn [with_items co_items] in Hit.
  assert (G : forall l s (acc mix : items) s', fold_left (mixture_step old lab rnd) l (Some (acc, s)) = Some (mix, s') ->
     forall it, In it mix -> In it acc \/ exists sw, In sw l /\ s_cum (snd it) = snd sw /\
       s_comps (snd it) = s_comps (fst sw) /\ s_classical (snd it) = s_classical (fst sw)).
  { clear. induction l as [|[st w] l IH]; intros s acc mix s' E it Hit; cbn [fold_left] in E.
    - injection E as <- <-. now left.
    - assert (Hnone : forall l, fold_left (mixture_step old lab rnd) l None = None) by (induction l0; [reflexivity|cbn [fold_left mixture_step]; auto]).
      cbn [mixture_step] in E. destruct (random_identifier rnd s old) as [i s1]. cbn [fst snd] in E.
      unfold set_cumulative in E. destruct (Rle_dec 0 w); [|rewrite Hnone in E; discriminate].
      destruct (Rle_dec w 1); [|rewrite Hnone in E; discriminate].
      destruct (IH _ _ _ _ E it Hit) as [Hin|(sw & H1 & H2)].
      + destruct it as [j s0]. apply (in_dset leqb leqb_spec) in Hin. destruct Hin as [[-> ->]|Hin]; [|now left].
        right. exists (st, w). split; [now left|]. repeat split.
      + right. exists sw. split; [now right|auto]. }
  destruct (G _ _ _ _ _ Ef it Hit) as [[]|H]. exact H.
Qed.

Example C32_case : let D := Dims 2 2 true in let st := initialized_state D 1 in let other := with_comps st [([1;0], (RtoC 1, 1%R))] in
  let cs := Coll D 1 0 [([97], st); ([98], other)] in let l := [(st, (/4)%R); (other, (3/4)%R); (st, 0%R)] in
  Forall (fun sw => (0 <= snd sw <= 1)%R) l /\ NoDup (mixture_ids (fun n => n) (3 + 5) (map fst (co_items cs)) (length l)).
Proof.
  cbv zeta. split; [repeat constructor; cbn [snd]; lra|]. vm_compute. repeat constructor; cbn; intuition discriminate.
Qed.


(** The full claim is false: identifiers are only compared with the collection that is being
    replaced, so two states of the mixture can get the same one and the first is lost. Two
    states with weight 1/2 each leave a single state of weight 1/2. *)
Theorem C32_refuted : exists rnd seed s1 s2 cs cs' seed',
  statistical_mixture rnd seed [(s1, (/2)%R); (s2, (/2)%R)] cs = Some (cs', seed') /\
  check_state (co_eps cs) (co_ncl cs) s1 = true /\ check_state (co_eps cs) (co_ncl cs) s2 = true /\
  s_comps s1 <> s_comps s2 /\
  length (co_items cs') = 1 /\ Rsum (co_items cs') (fun it => s_cum (snd it)) = (/2)%R.
Proof.
  set (D := Dims 2 2 true).
  set (s1 := initialized_state D 1).
  set (s2 := with_comps s1 [([1;0], (RtoC 1, 1%R))]).
  set (cs := Coll D 1 0 [([97], s1)]).
  exists (fun _ => 0), 0, s1, s2, cs.
  assert (Hs : forall st, set_cumulative st (/2) = Some (with_cum st (/2))).
  { intros st. unfold set_cumulative. destruct (Rle_dec 0 (/2)); [|lra]. destruct (Rle_dec (/2) 1); [reflexivity|lra]. }
  eexists. eexists. split; [|split; [|split; [|split; [|split]]]].
  - unfold statistical_mixture. change (dkeys (co_items cs)) with [[97]].
    assert (Hr : forall s, random_identifier (fun _ => 0) s [[97]] = (identifier_ ++ [97], S s)) by (intros; reflexivity).
    assert (Hm : forall lab acc st s, mixture_step [[97]] lab (fun _ => 0) (Some (acc, s)) (st, (/2)%R)
       = Some (dset leqb (identifier_ ++ [97]) (with_init (with_cum st (/2)) lab) acc, S s)).
    { intros. unfold mixture_step. rewrite Hr. cbn [fst snd]. now rewrite Hs. }
    cbn [fold_left]. rewrite !Hm. reflexivity.
  - unfold check_state, Rltb. cbn. repeat (destruct (Rlt_dec _ _); [exfalso; lra|]). reflexivity.
  - unfold check_state, Rltb. cbn. repeat (destruct (Rlt_dec _ _); [exfalso; lra|]). reflexivity.
  - discriminate.
  - reflexivity.
  - cbn [with_items co_items]. unfold Rsum. cbn. lra.
Qed.
