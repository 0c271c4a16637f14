(** Property theorems C81: custom Fock-state nodes with matrices of any size. *)
From Coq Require Import Reals List Arith Lia Lra Bool Permutation.
From Coquelicot Require Import Complex.
From Verif Require Import Prelude NamesModel NamesSpec NamesProofs FockModel FockSpec FockProofs GateProofs StateModel StateSpec StateProofs
  ApplyProofs CollectionModel CollectionSpec EvalModel EvalSpec EvalProofs WfProofs PropState PropEval ReshapeProofs CustomModel CustomSpec PropCustom PropCustomNodes SizedModel SizedSpec.
Import ListNotations.

(** A circuit with one such node. *)
Definition sized_circuit (D : dims) (ncl : nat) (eps : R) (full : bool) (rnd : nat -> nat) (rows : list (list C)) : circuit :=
  let c := Circuit D ncl eps full (fresh_keys D) [] in
  Circuit D ncl eps full (fresh_keys D) [sized_node c rnd rows].
(** What the node makes of the state [old]. *)
Definition written_by_rows (D : dims) (eps : R) (rows : list (list C)) (old new : state) : Prop :=
  same_but_components old new /\ wf_state D new /\ probs_ok new /\
  forall vs, valid D vs -> last_written D eps old rows (index_of_values D vs) (amp_of D new vs).

Lemma at_index_mod D i : 1 <= dL D -> at_index D (i mod (dL D ^ dN D)) = at_index D i.
Proof.
  intros HL. unfold at_index. f_equal. unfold values_from_index. apply map_ext_in. intros c Hc. apply in_seq in Hc.
  assert (E : dL D ^ dN D = dL D ^ c * (dL D ^ (dN D - c))) by (rewrite <- Nat.pow_add_r; f_equal; lia).
  rewrite E. assert (P1 : dL D ^ c <> 0) by (apply Nat.pow_nonzero; lia).
  assert (P2 : dL D ^ (dN D - c) <> 0) by (apply Nat.pow_nonzero; lia).
  rewrite Nat.mod_mul_r by assumption. rewrite (Nat.mul_comm (dL D ^ c)), Nat.div_add by assumption.
  rewrite (Nat.div_small (i mod dL D ^ c)) by (apply Nat.mod_upper_bound; exact P1). cbn [Nat.add].
  replace (dN D - c) with (S (dN D - c - 1)) by lia. cbn [Nat.pow].
  rewrite Nat.mod_mul_r by (try apply Nat.pow_nonzero; lia). rewrite Nat.mul_comm, Nat.mod_add by lia. apply Nat.mod_mod. lia.
Qed.
Lemma at_index_eq D i j : 1 <= dL D -> i < dL D ^ dN D -> (at_index D j = at_index D i <-> j mod (dL D ^ dN D) = i).
Proof.
  intros HL Hi. assert (P : dL D ^ dN D <> 0) by (apply Nat.pow_nonzero; lia). split.
  - rewrite <- (at_index_mod D j) by exact HL. intros E. unfold at_index in E.
    apply (f_equal (values_of_name D)) in E. rewrite !values_of_name_string in E; try (now apply values_from_index_valid); try exact HL.
    apply (f_equal (index_of_values D)) in E. rewrite !index_values_roundtrip in E; try assumption; try exact Hi. apply Nat.mod_upper_bound. exact P.
  - intros <-. symmetry. now apply at_index_mod.
Qed.

(** ** The components written from a list *)
Definition from_list (D : dims) (eps : R) (w : list C) (l : list nat) : list (name * (C * R)) :=
  fold_left (fun (oc : list (name * (C * R))) (i : nat) =>
      let z := nth i w (RtoC 0) in
      if Rlt_dec (Cnorm2 z) eps then oc else dset leqb (at_index D i) (z, Cnorm2 z) oc) l [].
Lemma from_list_snoc D eps w l i : from_list D eps w (l ++ [i]) =
  let z := nth i w (RtoC 0) in if Rlt_dec (Cnorm2 z) eps then from_list D eps w l else dset leqb (at_index D i) (z, Cnorm2 z) (from_list D eps w l).
Proof. unfold from_list. now rewrite fold_left_app. Qed.
Lemma dset_in_cases {V} k (v : V) : forall d k' v', In (k', v') (dset leqb k v d) -> (k' = k /\ v' = v) \/ In (k', v') d.
Proof.
  induction d as [|[k0 v0] d IH]; cbn [dset]; intros k' v' H.
  - destruct H as [[= <- <-]|[]]. now left.
  - destruct (leqb k k0) eqn:E.
    + apply leqb_spec in E as <-. destruct H as [[= <- <-]|H]; [now left|right; now right].
    + destruct H as [[= <- <-]|H]; [right; now left|]. destruct (IH _ _ H) as [?|?]; [now left|right; now right].
Qed.
Lemma from_list_wf D eps w l st : 1 <= dL D -> wf_state D (with_comps st (from_list D eps w l)) /\ probs_ok (with_comps st (from_list D eps w l)).
Proof.
  intros HL. unfold wf_state, probs_ok. cbn [s_comps with_comps].
  induction l as [|i l IH] using rev_ind; [split; [split; [constructor|intros ? []]|intros ? ? ? []]|].
  rewrite from_list_snoc. cbv zeta. destruct (Rlt_dec _ _); [exact IH|]. destruct IH as [[ND Hn] Hp]. split; [split|].
  - now apply (dset_NoDup leqb leqb_spec).
  - intros nm Hin. apply in_map_iff in Hin. destruct Hin as ([k v] & <- & Hin). cbn [fst].
    apply dset_in_cases in Hin. destruct Hin as [[-> _]|Hin].
    + exists (values_from_index D i). split; [now apply values_from_index_valid|reflexivity].
    + apply Hn. apply (in_map fst) in Hin. exact Hin.
  - intros nm a p Hin. apply dset_in_cases in Hin. destruct Hin as [[_ [= -> ->]]|Hin]; [reflexivity|]. now apply (Hp nm).
Qed.
Lemma from_list_amplitude D eps w n st i : 1 <= dL D -> i < dL D ^ dN D ->
  let d := dL D ^ dN D in let z := amplitude (with_comps st (from_list D eps w (seq 0 n))) (at_index D i) in
  (z = RtoC 0 /\ forall k, k < n -> k mod d = i -> (Cnorm2 (nth k w (RtoC 0%R)) < eps)%R) \/
  exists k, k < n /\ k mod d = i /\ (eps <= Cnorm2 (nth k w (RtoC 0%R)))%R /\ z = nth k w (RtoC 0%R) /\
    forall k', k < k' -> k' < n -> k' mod d = i -> (Cnorm2 (nth k' w (RtoC 0%R)) < eps)%R.
Proof.
  intros HL Hi d. cbv zeta. unfold amplitude. cbn [s_comps with_comps].
  induction n as [|n IH]; [left; split; [reflexivity|lia]|].
  rewrite seq_S, Nat.add_0_l, from_list_snoc. cbv zeta. destruct (Rlt_dec _ _) as [Hlt|Hge].
  - destruct IH as [[E IH]|(k & Hk & Em & Ez & E & IH)].
    + left. split; [exact E|]. intros k Hk Em. destruct (Nat.eq_dec k n) as [->|]; [exact Hlt|]. apply IH; [lia|exact Em].
    + right. exists k. split; [lia|]. split; [exact Em|]. split; [exact Ez|]. split; [exact E|]. intros k' H1 H2 H3.
      destruct (Nat.eq_dec k' n) as [->|]; [exact Hlt|]. apply IH; [exact H1|lia|exact H3].
  - destruct (Nat.eq_dec (n mod d) i) as [Em|Hne].
    + right. exists n. split; [lia|]. split; [exact Em|]. split; [lra|]. split; [|intros; lia].
      apply (at_index_eq D i n HL Hi) in Em. rewrite Em, (dget_dset_same leqb leqb_spec). reflexivity.
    + assert (Hk : at_index D i <> at_index D n).
      { intros E. symmetry in E. apply (at_index_eq D i n HL Hi) in E. now apply Hne. }
      rewrite (dget_dset_other leqb leqb_spec) by exact Hk.
      destruct IH as [[E IH]|(k & Hk' & Em & Ez & E & IH)].
      * left. split; [exact E|]. intros k H1 H2. destruct (Nat.eq_dec k n) as [->|]; [now destruct Hne|]. apply IH; [lia|exact H2].
      * right. exists k. split; [lia|]. split; [exact Em|]. split; [exact Ez|]. split; [exact E|]. intros k' H1 H2 H3.
        destruct (Nat.eq_dec k' n) as [->|]; [now destruct Hne|]. apply IH; [exact H1|lia|exact H3].
Qed.

(** ** The node *)
Lemma matmul_rows_some D rows v : columns (basis_size D) rows -> matmul_rows (size_of_basis D) rows v =
  Some (map (fun r => Csum (seq 0 (size_of_basis D)) (fun j => nth j r (RtoC 0) * v j)%C) rows).
Proof.
  intros [Hne HF]. unfold matmul_rows. replace (length rows =? 0) with false by (destruct rows; [now destruct Hne|reflexivity]).
  replace (forallb _ rows) with true; [reflexivity|]. symmetry. apply forallb_forall. intros r Hr. rewrite Forall_forall in HF. apply Nat.eqb_eq. now apply HF.
Qed.
Lemma matmul_rows_none D rows v : ~ columns (basis_size D) rows -> matmul_rows (size_of_basis D) rows v = None.
Proof.
  intros H. unfold matmul_rows. destruct (negb _ && _) eqn:E; [|reflexivity]. exfalso. apply H. apply andb_true_iff in E. destruct E as [E1 E2].
  split; [destruct rows; [discriminate|discriminate]|]. apply Forall_forall. intros r Hr. apply Nat.eqb_eq. now apply (proj1 (forallb_forall _ _) E2).
Qed.
Definition sized_step (c : circuit) (rnd : nat -> nat) (rows : list (list C)) (acc : option (items * nat)) (it : ident * state) : option (items * nat) :=
  match acc, copy_state (c_eps c) (c_ncl c) (snd it),
        matmul_rows (size_of_basis (c_D c)) rows (state_vector (c_D c) (snd it)) with
  | Some (out, sd), Some st, Some w =>
      Some (add_state_random rnd sd (with_comps st (components_from_list (c_D c) (c_eps c) w)) out)
  | _, _, _ => None
  end.
Definition products (c : circuit) (rows : list (list C)) (st : state) : list C :=
  map (fun r => Csum (seq 0 (size_of_basis (c_D c))) (fun j => nth j r (RtoC 0) * state_vector (c_D c) st j)%C) rows.
Lemma sized_fold c rnd rows : columns (basis_size (c_D c)) rows -> forall its,
  Forall (fun it : ident * state => check_state (c_eps c) (c_ncl c) (snd it) = true) its -> forall acc sd, exists out sd',
  fold_left (sized_step c rnd rows) its (Some (acc, sd)) = Some (out, sd') /\
  map snd out = map snd acc ++ map (fun it => with_comps (snd it) (components_from_list (c_D c) (c_eps c) (products c rows (snd it)))) its.
Proof.
  intros Hc its HF. induction HF as [|it its H HF IH]; intros acc sd; cbn [fold_left].
  - exists acc, sd. split; [reflexivity|]. cbn [map]. now rewrite app_nil_r.
  - assert (E : sized_step c rnd rows (Some (acc, sd)) it =
      Some (add_state_random rnd sd (with_comps (snd it) (components_from_list (c_D c) (c_eps c) (products c rows (snd it)))) acc)).
    { unfold sized_step, copy_state, make_state. rewrite H, matmul_rows_some by exact Hc. reflexivity. }
    rewrite E. destruct (add_state_random _ _ _ _) as [acc2 sd2] eqn:Ea. destruct (IH acc2 sd2) as (out & sd' & E1 & E2).
    exists out, sd'. split; [exact E1|]. rewrite E2. set (ns := with_comps (snd it) _) in *.
    assert (Ea' : acc2 = fst (add_state_random rnd sd ns acc)) by now rewrite Ea.
    rewrite Ea', add_state_random_app, map_app. cbn [map snd]. now rewrite <- app_assoc.
Qed.
Lemma sized_fold_none c rnd rows its : fold_left (sized_step c rnd rows) its None = None.
Proof. induction its; [reflexivity|exact IHits]. Qed.
Lemma evaluate_sized X rnd rnd' D ncl eps full rows cs :
  let c0 := Circuit D ncl eps full (fresh_keys D) [] in
  evaluate_circuit X rnd (sized_circuit D ncl eps full rnd' rows) cs =
  of_option (option_map (fun r => coll_of c0 (fst r)) (fold_left (sized_step c0 rnd' rows) (co_items cs) (Some ([], 0)))).
Proof.
  intros c0. unfold evaluate_circuit. change (seq 0 (length (c_nodes (sized_circuit D ncl eps full rnd' rows)))) with [0].
  rewrite PropMeasure.evaluate_single by (cbn; auto). unfold run_node. cbn [node_at c_nodes sized_circuit nth sized_node]. fold c0.
  unfold sized_items. fold (sized_step c0 rnd' rows).
  destruct (fold_left _ _ _) as [[out sd]|]; reflexivity.
Qed.

Lemma row_product c rows st k : 1 <= dL (c_D c) -> wf_state (c_D c) st -> k < length rows ->
  nth k (products c rows st) (RtoC 0) = row_times (c_D c) st (row_of rows k).
Proof.
  intros HL W Hk. unfold products, row_of. set (f := fun r : list C => Csum _ _). 
  rewrite (nth_indep _ (RtoC 0) (f [])) by now rewrite map_length. rewrite map_nth. unfold f, row_times.
  change (basis_size (c_D c)) with (size_of_basis (c_D c)). apply Csum_ext. intros j Hj. apply in_seq in Hj. f_equal. apply state_vector_spec; first [tauto | lia].
Qed.
Lemma written_new c rows st : 1 <= dL (c_D c) -> wf_state (c_D c) st ->
  written_by_rows (c_D c) (c_eps c) rows st (with_comps st (components_from_list (c_D c) (c_eps c) (products c rows st))).
Proof.
  intros HL W. change (components_from_list (c_D c) (c_eps c) (products c rows st)) with (from_list (c_D c) (c_eps c) (products c rows st) (seq 0 (length (products c rows st)))).
  assert (El : length (products c rows st) = length rows) by apply map_length. rewrite El.
  set (l := from_list _ _ _ _). assert (Hl : wf_state (c_D c) (with_comps st l) /\ probs_ok (with_comps st l)) by now apply from_list_wf.
  split; [repeat split|]. split; [apply Hl|]. split; [apply Hl|]. intros vs V.
  pose proof (index_of_values_bound (c_D c) vs V) as Hi. change (size_of_basis (c_D c)) with (dL (c_D c) ^ dN (c_D c)) in Hi.
  assert (Ea : amp_of (c_D c) (with_comps st l) vs = amplitude (with_comps st l) (at_index (c_D c) (index_of_values (c_D c) vs))).
  { unfold amp_of, at_index. now rewrite values_index_roundtrip. }
  pose proof (from_list_amplitude (c_D c) (c_eps c) (products c rows st) (length rows) st (index_of_values (c_D c) vs) HL Hi) as H. cbv zeta in H. fold l in H. rewrite <- Ea in H.
  unfold last_written. change (basis_size (c_D c)) with (dL (c_D c) ^ dN (c_D c)). destruct H as [[E H]|(k & Hk & Em & Hge & E & H)].
  - left. split; [exact E|]. intros k Hk Em. rewrite <- row_product by assumption. now apply H.
  - right. exists k. rewrite <- (row_product c rows st k) by assumption. split; [exact Hk|]. split; [exact Em|]. split; [exact Hge|]. split; [exact E|].
    intros k' H1 H2 H3. rewrite <- row_product by assumption. now apply H.
Qed.

(** A matrix with one column for every basis state and any number of rows: the node computes the product
    of every row with the state, and row k is written to the basis state number k modulo the size of the
    basis; a value below the threshold is not written. *)
Theorem C81_rows : forall X rnd rnd' D ncl eps full rows cs, 1 <= dL D -> columns (basis_size D) rows ->
  Forall (fun it => wf_state D (snd it)) (co_items cs) -> Forall (fun it => check_state eps ncl (snd it) = true) (co_items cs) ->
  exists cs', evaluate_circuit X rnd (sized_circuit D ncl eps full rnd' rows) cs = Ok cs' /\
  Forall2 (fun it it' => written_by_rows D eps rows (snd it) (snd it')) (co_items cs) (co_items cs').
Proof.
  intros X rnd rnd' D ncl eps full rows cs HL Hc HW HC. rewrite evaluate_sized. cbv zeta. set (c0 := Circuit D ncl eps full _ _).
  destruct (sized_fold c0 rnd' rows Hc (co_items cs) HC [] 0) as (out & sd & E & Em).
  assert (E' : fold_left (sized_step c0 rnd' rows) (co_items cs) (Some ([], 0)) = Some (out, sd)) by exact E. rewrite E'. eexists. split; [reflexivity|].
  cbn [option_map fst coll_of co_items]. cbn [map app] in Em. clear E E' HC. revert out Em.
  induction HW as [|it l W HW IH]; intros [|[i' s'] out] Em; cbn [map] in Em; try discriminate; [constructor|].
  injection Em as E1 E2. constructor; [|now apply IH]. cbn [snd] in E1 |- *. rewrite E1. now apply (written_new c0).
Qed.
Print Assumptions C81_rows.

Lemma columns_dec n rows : {columns n rows} + {~ columns n rows}.
Proof.
  destruct rows as [|r rows]; [right; intros [H _]; now destruct H|].
  destruct (Forall_dec (fun r0 : list C => length r0 = n) (fun r0 => Nat.eq_dec (length r0) n) (r :: rows)) as [H|H].
  - left. split; [discriminate|exact H].
  - right. intros [_ H']. now apply H.
Qed.
(** A matrix with another number of columns (or without rows, or with rows of different lengths) is not
    noticed when the node is added; the evaluation raises, unless the collection is empty. *)
Theorem C81_wrong_columns : forall X rnd rnd' D ncl eps full rows cs, ~ columns (basis_size D) rows ->
  (co_items cs <> [] -> evaluate_circuit X rnd (sized_circuit D ncl eps full rnd' rows) cs = Raise) /\
  (co_items cs = [] -> exists cs', evaluate_circuit X rnd (sized_circuit D ncl eps full rnd' rows) cs = Ok cs' /\ co_items cs' = []).
Proof.
  intros X rnd rnd' D ncl eps full rows cs Hc. rewrite evaluate_sized. cbv zeta. set (c0 := Circuit D ncl eps full _ _). split.
  - intros Hne. destruct (co_items cs) as [|it its]; [now destruct Hne|]. cbn [fold_left].
    replace (sized_step c0 rnd' rows (Some ([], 0)) it) with (@None (items * nat)); [now rewrite sized_fold_none|].
    unfold sized_step. change (c_D c0) with D. rewrite matmul_rows_none by exact Hc. now destruct (copy_state _ _ _).
  - intros ->. eexists. split; reflexivity.
Qed.
Print Assumptions C81_wrong_columns.

(** At most one row for every basis state: the node is the one of C58 for the matrix filled up with zero
    rows. With exactly one row for every basis state this is the matrix itself. *)
Theorem C81_not_more_rows : forall X rnd rnd' D ncl eps full rows cs, 1 <= dL D -> columns (basis_size D) rows -> length rows <= basis_size D ->
  Forall (fun it => wf_state D (snd it)) (co_items cs) -> Forall (fun it => check_state eps ncl (snd it) = true) (co_items cs) ->
  exists cs', evaluate_circuit X rnd (sized_circuit D ncl eps full rnd' rows) cs = Ok cs' /\
  Forall2 (fun it it' => transformed D eps (filled_up rows) (snd it) (snd it')) (co_items cs) (co_items cs').
Proof.
  intros X rnd rnd' D ncl eps full rows cs HL Hc Hle HW HC.
  destruct (C81_rows X rnd rnd' D ncl eps full rows cs HL Hc HW HC) as (cs' & E & F). exists cs'. split; [exact E|].
  eapply Forall2_impl; [|exact F]. intros it it' (S1 & S2 & S3 & S4). split; [exact S1|]. split; [exact S2|]. split; [exact S3|].
  intros vs V. pose proof (index_of_values_bound D vs V) as Hi. change (size_of_basis D) with (basis_size D) in Hi.
  cbv zeta. set (z := Csum _ _). set (i := index_of_values D vs) in *.
  assert (Ez : z = row_times D (snd it) (row_of rows i)) by reflexivity.
  specialize (S4 vs V). fold i in S4. destruct S4 as [[E0 H]|(k & Hk & Em & Hge & E1 & H)].
  - rewrite E0. destruct (Rlt_dec (Cnorm2 z) eps) as [|Hge]; [reflexivity|].
    destruct (Nat.lt_ge_cases i (length rows)) as [Hl|Hl].
    + exfalso. apply Hge. rewrite Ez. apply H; [exact Hl|]. now apply Nat.mod_small.
    + rewrite Ez. unfold row_times, row_of. rewrite nth_overflow by exact Hl. symmetry. apply Csum_zero.
      intros j _. destruct j; cbn; ring.
  - rewrite Nat.mod_small in Em by lia. subst k. rewrite E1, <- Ez. destruct (Rlt_dec (Cnorm2 z) eps); [|reflexivity].
    rewrite <- Ez in Hge. lra.
Qed.
Print Assumptions C81_not_more_rows.

(** REFUTED for more rows: "a matrix with more rows than there are basis states is refused". At threshold 0,
    when another matrix is stacked on top of a matrix of the right size, the upper one has no effect. *)
Theorem C81_more_rows_refuted : forall X rnd rnd' D ncl full m upper rows cs, 1 <= dL D ->
  columns (basis_size D) rows -> length rows = basis_size D -> Forall (fun r => length r = basis_size D) upper -> length upper = m * basis_size D ->
  Forall (fun it => wf_state D (snd it)) (co_items cs) -> Forall (fun it => check_state 0 ncl (snd it) = true) (co_items cs) ->
  exists cs' cs2, evaluate_circuit X rnd (sized_circuit D ncl 0 full rnd' (upper ++ rows)) cs = Ok cs' /\
  evaluate_circuit X rnd (sized_circuit D ncl 0 full rnd' rows) cs = Ok cs2 /\
  Forall2 (fun it1 it2 => same_state D (snd it1) (snd it2)) (co_items cs') (co_items cs2).
Proof.
  intros X rnd rnd' D ncl full m upper rows cs HL Hc Hl Hu Hm HW HC.
  assert (Hc2 : columns (basis_size D) (upper ++ rows)).
  { destruct Hc as [Hne HF]. split; [intros H; apply app_eq_nil in H; tauto|]. apply Forall_app. now split. }
  destruct (C81_rows X rnd rnd' D ncl 0 full (upper ++ rows) cs HL Hc2 HW HC) as (cs1 & E1 & F1).
  destruct (C81_rows X rnd rnd' D ncl 0 full rows cs HL Hc HW HC) as (cs2 & E2 & F2).
  exists cs1, cs2. split; [exact E1|]. split; [exact E2|].
  assert (P : basis_size D <> 0) by (apply Nat.pow_nonzero; lia).
  assert (HA : forall st s1 s2, written_by_rows D 0 (upper ++ rows) st s1 -> written_by_rows D 0 rows st s2 -> same_state D s1 s2).
  { intros st s1 s2 ((A1 & A2 & A3 & A4 & A5) & _ & _ & A) ((B1 & B2 & B3 & B4 & B5) & _ & _ & B). split; [repeat split; congruence|].
    intros vs V. pose proof (index_of_values_bound D vs V) as Hi. change (size_of_basis D) with (basis_size D) in Hi.
    specialize (A vs V). specialize (B vs V). set (i := index_of_values D vs) in *.
    assert (EB : amp_of D s2 vs = row_times D st (row_of rows i)).
    { destruct B as [[_ H]|(k & Hk & Em & _ & E & _)].
      - exfalso. specialize (H i ltac:(lia) (Nat.mod_small _ _ Hi)). pose proof (Cnorm2_nonneg (row_times D st (row_of rows i))). lra.
      - rewrite Nat.mod_small in Em by lia. now subst k. }
    rewrite EB. assert (Er : row_of rows i = row_of (upper ++ rows) (length upper + i)).
    { unfold row_of. rewrite app_nth2 by lia. f_equal. lia. }
    assert (Ei : (length upper + i) mod basis_size D = i) by (rewrite Hm, Nat.add_comm, Nat.mod_add by exact P; now apply Nat.mod_small).
    rewrite Er. destruct A as [[_ H]|(k & Hk & Em & _ & E & H)].
    - exfalso. specialize (H (length upper + i)). rewrite app_length in H. specialize (H ltac:(lia) Ei).
      pose proof (Cnorm2_nonneg (row_times D st (row_of (upper ++ rows) (length upper + i)))). lra.
    - rewrite app_length in Hk. assert (Hki : k <= length upper + i).
      { destruct (Nat.le_gt_cases k (length upper + i)) as [|Hgt]; [assumption|]. exfalso.
        replace k with ((k - length upper) + m * basis_size D) in Em by lia. rewrite Nat.mod_add in Em by exact P. rewrite Nat.mod_small in Em by lia. lia. }
      destruct (Nat.eq_dec k (length upper + i)) as [->|Hne]; [exact E|]. exfalso.
      specialize (H (length upper + i) ltac:(lia)). rewrite app_length in H. specialize (H ltac:(lia) Ei).
      pose proof (Cnorm2_nonneg (row_times D st (row_of (upper ++ rows) (length upper + i)))). lra. }
  clear - F1 F2 HA. revert F2. generalize (co_items cs2). induction F1 as [|it it1 l l1 H1 F1 IH]; intros l2 F2.
  - inversion F2. constructor.
  - inversion F2 as [|? it2 ? l2' H2 F2']; subst. constructor; [|now apply IH]. now apply (HA (snd it)).
Qed.
Print Assumptions C81_more_rows_refuted.

(** Two channels with at most one photon each: the identity stacked on the exchange of the channels. The
    photon in channel 0 ends in channel 1. *)
Example C81_case : let D := Dims 2 2 true in let O := RtoC 0 in let I := RtoC 1 in
  let upper := [[I;O;O;O]; [O;I;O;O]; [O;O;I;O]; [O;O;O;I]] in
  let rows := [[I;O;O;O]; [O;O;I;O]; [O;I;O;O]; [O;O;O;I]] in
  let cs := Coll D 0 0 [([0], State [0] 1 [(name_string D [1;0], (RtoC 1, 1%R))] [] [] [])] in
  columns (basis_size D) rows /\ length rows = basis_size D /\ Forall (fun r => length r = basis_size D) upper /\ length upper = 1 * basis_size D /\
  Forall (fun it => wf_state D (snd it)) (co_items cs) /\ Forall (fun it => check_state 0 0 (snd it) = true) (co_items cs) /\
  exists cs', evaluate_circuit (Externals (fun _ _ _ => None) (fun _ _ _ => None)) (fun _ => 0) (sized_circuit D 0 0 false (fun _ => 0) (upper ++ rows)) cs = Ok cs' /\
  exists st, map snd (co_items cs') = [st] /\ amp_of D st [0;1] = RtoC 1 /\ amp_of D st [1;0] = RtoC 0.
Proof.
  cbv zeta. set (D := Dims 2 2 true). set (cs := Coll D 0 0 _). set (rows := [_;[RtoC 0;RtoC 0;RtoC 1;RtoC 0];_;_]). set (upper := [_;_;_;_]).
  assert (Hc : columns (basis_size D) rows) by (split; [discriminate|repeat constructor]).
  assert (W : Forall (fun it => wf_state D (snd it)) (co_items cs)).
  { constructor; [|constructor]. split; [repeat constructor; intros []|]. intros nm [<-|[]]. exists [1;0]. split; [split; [reflexivity|repeat constructor]|reflexivity]. }
  assert (K : Forall (fun it => check_state 0 0 (snd it) = true) (co_items cs)).
  { repeat constructor. unfold check_state, Rltb. cbn. repeat (destruct (Rlt_dec _ _); [lra|]). reflexivity. }
  split; [exact Hc|]. split; [reflexivity|]. split; [repeat constructor|]. split; [reflexivity|]. split; [exact W|]. split; [exact K|].
  destruct (C81_more_rows_refuted (Externals (fun _ _ _ => None) (fun _ _ _ => None)) (fun _ => 0) (fun _ => 0) D 0 false 1 upper rows cs) as (cs1 & cs2 & E1 & E2 & F); auto; [cbn; lia|repeat constructor|].
  destruct (C81_not_more_rows (Externals (fun _ _ _ => None) (fun _ _ _ => None)) (fun _ => 0) (fun _ => 0) D 0 0 false rows cs) as (cs3 & E3 & G); auto; [cbn; lia|].
  rewrite E2 in E3. injection E3 as <-. exists cs1. split; [exact E1|].
  destruct (co_items cs2) as [|[i2 s2] [|? ?]]; inversion G as [|? ? ? ? G1 G2]; subst; [|inversion G2].
  destruct (co_items cs1) as [|[i1 s1] [|? ?]]; inversion F as [|? ? ? ? F1 F2]; subst; [|inversion F2].
  exists s1. split; [reflexivity|]. destruct F1 as [_ F1]. cbn [snd] in F1. destruct G1 as (_ & _ & _ & G1). cbn [snd] in G1.
  assert (V1 : valid D [0;1]) by (split; [reflexivity|repeat constructor]). assert (V2 : valid D [1;0]) by (split; [reflexivity|repeat constructor]).
  rewrite (F1 _ V1), (F1 _ V2), (G1 _ V1), (G1 _ V2). cbv zeta.
  assert (A : forall j, j < 4 -> amp_of D (State [0] 1 [(name_string D [1;0], (RtoC 1, 1%R))] [] [] []) (values_from_index D j) = if j =? 1 then RtoC 1 else RtoC 0).
  { intros j Hj. do 4 (destruct j as [|j]; [reflexivity|]). lia. }
  change (seq 0 (dL D ^ dN D)) with [0;1;2;3]. change (index_of_values D [0;1]) with 2. change (index_of_values D [1;0]) with 1.
  split.
  - assert (Ez : Csum [0;1;2;3] (fun j => filled_up rows 2 j * amp_of D (State [0] 1 [(name_string D [1;0], (RtoC 1, 1%R))] [] [] []) (values_from_index D j))%C = RtoC 1).
    { rewrite !Csum_cons, Csum_nil, !A by lia. cbn [Nat.eqb filled_up nth rows]. unfold filled_up, rows. cbn [nth]. apply C_eq; cbn; ring. }
    rewrite Ez. destruct (Rlt_dec _ _) as [H|]; [|reflexivity]. rewrite Cnorm2_RtoC in H. lra.
  - assert (Ez : Csum [0;1;2;3] (fun j => filled_up rows 1 j * amp_of D (State [0] 1 [(name_string D [1;0], (RtoC 1, 1%R))] [] [] []) (values_from_index D j))%C = RtoC 0).
    { rewrite !Csum_cons, Csum_nil, !A by lia. unfold filled_up, rows. cbn [nth Nat.eqb]. apply C_eq; cbn; ring. }
    rewrite Ez. now destruct (Rlt_dec _ _).
Qed.
