(** Property theorems C16-C18: states, vectors and optical evaluation. *)
From Coq Require Import Reals List Arith Lia Lra Bool Permutation.
From Coquelicot Require Import Complex.
From Verif Require Import Prelude NamesModel NamesSpec NamesProofs FockModel FockSpec FockProofs GateProofs
  OpticalModel OpticalProofs StateModel StateSpec StateProofs ApplyProofs CollectionModel EvalModel EvalSpec EvalProofs WfProofs.
Import ListNotations.

(** ** C16 *)
(** translate_state_components_to_vector puts the amplitude of each component at its basis index;
    set_state_components_from_vector then gives every component its amplitude back, except those
    with a probability below the threshold, which are absent; the stored probabilities are right
    and nothing else in the state changes. *)
Theorem C16_roundtrip : forall D eps st,
  1 <= dL D -> wf_state D st ->
  let st' := with_comps st (components_from_vector D eps (state_vector D st)) in
  wf_state D st' /\ probs_ok st' /\ same_but_components st st' /\
  forall vs, valid D vs ->
    state_vector D st (index_of_values D vs) = amp_of D st vs /\
    ((eps <= Cnorm2 (amp_of D st vs))%R -> amp_of D st' vs = amp_of D st vs) /\
    ((Cnorm2 (amp_of D st vs) < eps)%R -> ~ In (name_string D vs) (map fst (s_comps st'))).
Proof.
  intros D eps st HL Hw st'. unfold st'.
  split; [now apply components_wf|]. split; [now apply components_probs|].
  split; [repeat split|]. intros vs Hv. pose proof (state_vector_amp D st vs HL Hw Hv) as Ev.
  split; [exact Ev|].
  pose proof (index_of_values_bound D vs Hv) as Hi.
  pose proof (components_amplitude D eps (state_vector D st) st _ HL Hi) as Ea.
  unfold at_index in Ea. rewrite values_index_roundtrip in Ea by auto. rewrite Ev in Ea.
  split; intros H.
  - unfold amp_of at 1. rewrite Ea. destruct (Rlt_dec _ _); [lra|reflexivity].
  - intros Hin. unfold amplitude in Ea.
    destruct (dget leqb (name_string D vs) (s_comps (with_comps st (components_from_vector D eps (state_vector D st))))) as [[a p]|] eqn:E.
    + apply (dget_some_in leqb leqb_spec) in E. cbn [with_comps s_comps] in E.
      apply (from_vec_in D eps _ (seq 0 (size_of_basis D))) in E.
      destruct E as (i & Hi' & En & -> & _ & Hle). apply in_seq in Hi'.
      assert (i = index_of_values D vs) as ->.
      { apply (at_index_inj D); auto; [lia|]. rewrite <- En. unfold at_index. now rewrite values_index_roundtrip. }
      rewrite Ev in Hle. lra.
    + apply (dget_none_iff leqb leqb_spec) in E. contradiction.
Qed.

(** With threshold 0 (or negative) any vector is recovered exactly. *)
Theorem C16_vector_roundtrip : forall D eps st v i,
  1 <= dL D -> (eps <= 0)%R -> i < dL D ^ dN D ->
  state_vector D (with_comps st (components_from_vector D eps v)) i = v i.
Proof.
  intros D eps st v i HL He Hi. change (dL D ^ dN D) with (size_of_basis D) in Hi.
  rewrite state_vector_spec; auto; [|now apply components_wf].
  rewrite components_amplitude by auto. destruct (Rlt_dec _ _); [|reflexivity].
  pose proof (Cnorm2_nonneg (v i)). lra.
Qed.

(** The bell state (|01> + |10>)/sqrt 2 with a component of probability 1/10^12. *)
Definition bell : state :=
  State [] 1 [([0;1], (RtoC (/ sqrt 2), (/2)%R)); ([1;0], (RtoC (/ sqrt 2), (/2)%R)); ([1;1], (RtoC (/1000000), (/1000000000000)%R))] [0%R] [] [].
Example C16_case : wf_state (Dims 2 2 true) bell /\ (Cnorm2 (amp_of (Dims 2 2 true) bell [1;1]%nat) < / 10000000000)%R /\
  (/ 10000000000 <= Cnorm2 (amp_of (Dims 2 2 true) bell [1;0]%nat))%R.
Proof.
  split.
  - split; [repeat constructor; cbn; intuition discriminate|]. intros nm. cbn. intros [<-|[<-|[<-|[]]]].
    + exists [0;1]. split; [split; [reflexivity|repeat constructor]|reflexivity].
    + exists [1;0]. split; [split; [reflexivity|repeat constructor]|reflexivity].
    + exists [1;1]. split; [split; [reflexivity|repeat constructor]|reflexivity].
  - assert (E1 : amp_of (Dims 2 2 true) bell [1;1] = RtoC (/1000000)) by reflexivity.
    assert (E2 : amp_of (Dims 2 2 true) bell [1;0] = RtoC (/ sqrt 2)) by reflexivity.
    rewrite E1, E2, !Cnorm2_RtoC. split; [lra|].
    rewrite <- Rinv_mult, sqrt_sqrt by lra. lra.
Qed.

(** ** C17 *)
Theorem C17_reduced_matrices_suffice : forall D ncl eps gates nds its,
  1 <= dL D -> 2 <= dN D -> place D gates = Some nds -> gates <> [] -> wf_items D its ->
  apply_optical D ncl eps false (fresh_keys D) nds its = apply_optical D ncl eps true (fresh_keys D) nds its.
Proof.
  intros D ncl eps gates nds its HL HN Ep Hne [ND HF]. rewrite fresh_keys_all by auto.
  assert (Htl : tl_ok D nds) by (now apply (place_perm D gates)).
  assert (Hnd : nds <> []).
  { destruct gates as [|[A chs] r]; [now destruct Hne|]. cbn [place] in Ep. destruct (tensor_list_of _ _); [|discriminate].
    destruct (place D r); [|discriminate]. injection Ep as <-. discriminate. }
  destruct (copy_items eps ncl its) as [its'|] eqn:E.
  - apply copy_items_some in E. destruct E as [_ Hck]. now rewrite !apply_optical_spec.
  - unfold apply_optical. now rewrite E.
Qed.

(** The same for whole circuits, with classical, measurement, controlled and custom nodes as well,
    provided that no component is dropped by the threshold and that user-supplied functions
    return well-formed collections. *)
Theorem C17_evaluate : forall X rnd c inds cs,
  wf_circuit c -> (c_eps c <= 0)%R -> wf_items (c_D c) (co_items cs) ->
  (forall nd, In nd (c_nodes c) -> is_bridge nd = false) ->
  functions_wf X c (seq 0 (length (c_nodes c))) ->
  evaluate_nodes X rnd (with_full false c) inds cs = evaluate_nodes X rnd (with_full true c) inds cs.
Proof.
  intros X rnd c inds cs Hc He Hw Hb HF. unfold evaluate_nodes. rewrite !evaluate_from_evalR.
  rewrite (evalR_full false true X rnd c Hc He) with (n := length inds); auto.
  intros k Hk. apply Hb. apply node_at_in. apply in_seq in Hk. lia.
Qed.

Definition mix_call : list (mat2 * list nat) := [(generic_matrix (PI / 8) PI, [0; 1]); (generic_matrix (PI / 4) (PI / 2), [1; 0])].
Example C17_case : exists nds, place (Dims 2 2 true) mix_call = Some nds /\ wf_items (Dims 2 2 true) [([97], bell); ([98], initialized_state (Dims 2 2 true) 1)].
Proof.
  eexists. split; [reflexivity|]. split; [repeat constructor; cbn; intuition discriminate|].
  apply Forall_cons; [split; [apply C16_case|discriminate]|]. apply Forall_cons; [|apply Forall_nil].
  split; [|discriminate]. split; [repeat constructor; intros []|].
  intros nm. cbn. intros [<-|[]]. exists [0;0]. split; [split; [reflexivity|repeat constructor]|reflexivity].
Qed.

(** ** C18 *)
Definition optical_only (c : circuit) : Prop := forall nd, In nd (c_nodes c) -> is_optical nd = true.

Lemma evaluate_optical X rnd c cs :
  optical_only c -> c_nodes c <> [] ->
  evaluate_circuit X rnd c cs =
  match run_optical c (seq 0 (length (c_nodes c))) cs with Some cs' => Ok cs' | None => Raise end.
Proof.
  intros Ho Hne. unfold evaluate_circuit, evaluate_nodes. rewrite evaluate_from_evalR, evalR_unfold.
  assert (Hp : optical_prefix c (seq 0 (length (c_nodes c))) = seq 0 (length (c_nodes c))).
  { apply optical_prefix_all. intros k Hk. apply Ho. apply node_at_in. apply in_seq in Hk. lia. }
  assert (Hr : forallb (fun i => i <? length (c_nodes c)) (seq 0 (length (c_nodes c))) = true).
  { apply forallb_forall. intros i Hi. apply in_seq in Hi. apply Nat.ltb_lt. lia. }
  rewrite Hr. cbn [negb]. remember (seq 0 (length (c_nodes c))) as l eqn:El.
  destruct l as [|k r]; [destruct (c_nodes c); [now destruct Hne|discriminate]|].
  assert (Hk : is_optical (node_at c k) = true).
  { apply Ho, node_at_in. assert (In k (seq 0 (length (c_nodes c)))) by (rewrite <- El; now left).
    apply in_seq in H. lia. }
  destruct (node_at c k); try discriminate. cbv zeta. rewrite Hp, Nat.leb_refl. destruct (run_optical c (k :: r) cs); [|reflexivity].
  now rewrite evalR_nil.
Qed.

Lemma onodes_all D ncl eps full nds :
  let c := Circuit D ncl eps full (fresh_keys D) (map (fun nd => NOptical (on_matrix nd) (on_tl nd)) nds) in
  flat_map (fun k => onode_of (node_at c k)) (seq 0 (length (c_nodes c))) = nds.
Proof.
  cbn [c_nodes]. rewrite map_length.
  transitivity (flat_map (fun nd => onode_of nd) (map (fun nd => NOptical (on_matrix nd) (on_tl nd)) nds)).
  - unfold node_at. cbn [c_nodes]. set (l := map _ nds).
    assert (G : forall (l : list node) s, flat_map (fun k => onode_of (nth (k - s) l NSpectrum)) (seq s (length l)) = flat_map (fun nd => onode_of nd) l).
    { clear. induction l as [|x l IH]; intros s; [reflexivity|]. cbn [length seq flat_map]. rewrite Nat.sub_diag. cbn [nth]. f_equal.
      rewrite <- (IH (S s)).
      assert (H : forall ks, (forall k, In k ks -> S s <= k) ->
        flat_map (fun k => onode_of (nth (k - s) (x :: l) NSpectrum)) ks = flat_map (fun k => onode_of (nth (k - S s) l NSpectrum)) ks).
      { induction ks as [|k ks IHk]; intros Hk; [reflexivity|]. cbn [flat_map]. rewrite IHk by (intros; apply Hk; now right).
        f_equal. specialize (Hk k (or_introl eq_refl)). replace (k - s) with (S (k - S s)) by lia. reflexivity. }
      apply H. intros k Hk. apply in_seq in Hk. lia. }
    rewrite <- (G l 0). replace (length nds) with (length l) by (unfold l; apply map_length).
    apply flat_map_ext. intros k. now rewrite Nat.sub_0_r.
  - induction nds as [|[A tl] r IH]; [reflexivity|]. cbn [map flat_map onode_of on_matrix on_tl app]. now rewrite IH.
Qed.

Lemma optical_circuit_inv D ncl eps full gates c : 2 <= dN D -> 1 <= dL D ->
  optical_circuit D ncl eps full gates = Some c ->
  exists nds, place D gates = Some nds /\ wf_circuit c /\ optical_only c /\
    c_D c = D /\ c_ncl c = ncl /\ c_eps c = eps /\ c_full c = full /\ length (c_nodes c) = length nds /\
    flat_map (fun k => onode_of (node_at c k)) (seq 0 (length (c_nodes c))) = nds.
Proof.
  intros HN HL. unfold optical_circuit. destruct (place D gates) as [nds|] eqn:Ep; [|discriminate].
  intros E. injection E as <-. exists nds. split; [reflexivity|]. split.
  - split; [exact HL|]. split; [exact HN|]. split; [reflexivity|]. cbn [c_nodes c_D]. apply Forall_map.
    eapply Forall_impl; [|apply (place_perm D gates nds HN Ep)]. intros nd H. exact H.
  - split; [intros nd H; cbn [c_nodes] in H; apply in_map_iff in H; now destruct H as (x & <- & _)|].
    do 4 (split; [reflexivity|]). split; [cbn [c_nodes]; apply map_length|]. apply onodes_all.
Qed.

Lemma nodes_matrix_circuit D gates nds M :
  1 <= dL D -> place D gates = Some nds -> circuit_matrix D gates = Some M -> nodes_matrix D nds = M /\ nds <> [].
Proof.
  intros HL Ep EM. rewrite circuit_matrix_product, Ep in EM by auto. destruct nds as [|nd r]; [discriminate|].
  injection EM as <-. split; [reflexivity|discriminate].
Qed.

Lemma nodes_matrix_circuit' D gates nds :
  1 <= dL D -> place D gates = Some nds -> nds <> [] -> circuit_matrix D gates = Some (nodes_matrix D nds).
Proof.
  intros HL Ep Hne. rewrite circuit_matrix_product, Ep by auto. destruct nds as [|nd r]; [now destruct Hne|reflexivity].
Qed.

(** What evaluating a circuit of optical nodes does, in terms of the Fock matrix of the circuit:
    identifiers, order and all other content of the states stay, and the amplitudes are those of
    the matrix applied to the old amplitudes, components below the threshold being dropped. *)
Theorem C18_evaluation_is_the_matrix : forall X rnd D ncl eps full gates c M cs cs',
  1 <= dL D -> 2 <= dN D -> optical_circuit D ncl eps full gates = Some c -> circuit_matrix D gates = Some M ->
  wf_items D (co_items cs) -> evaluate_circuit X rnd c cs = Ok cs' ->
  Forall2 (fun old new =>
      fst new = fst old /\ same_but_components (snd old) (snd new) /\ wf_state D (snd new) /\ probs_ok (snd new) /\
      forall vs, valid D vs ->
        let z := Csum (seq 0 (dL D ^ dN D)) (fun j => M (index_of_values D vs) j * amp_of D (snd old) (values_from_index D j))%C in
        amp_of D (snd new) vs = if Rlt_dec (Cnorm2 z) eps then RtoC 0 else z)
    (co_items cs) (co_items cs').
Proof.
  intros X rnd D ncl eps full gates c M cs cs' HL HN Ec EM Hw E.
  apply optical_circuit_inv in Ec; auto. destruct Ec as (nds & Ep & Hc & Ho & <- & <- & <- & <- & El & En).
  destruct (nodes_matrix_circuit _ _ _ _ HL Ep EM) as [<- Hne].
  assert (Hcn : c_nodes c <> []) by (intros H; rewrite H in El; destruct nds; [now destruct Hne|discriminate]).
  rewrite evaluate_optical in E by auto.
  destruct (run_optical c _ cs) as [o|] eqn:Er; [|discriminate]. injection E as <-.
  apply run_optical_inv in Er; auto.
  2:{ intros H. destruct (c_nodes c); [now destruct Hcn|discriminate]. }
  2:{ intros k Hk. apply in_seq in Hk. split; [lia|]. apply Ho, node_at_in. lia. }
  destruct Er as [_ ->]. cbn [coll_of co_items]. unfold opt_step. rewrite En.
  destruct Hw as [_ HF]. clear - HL HF. induction (co_items cs) as [|it its IH]; [constructor|].
  inversion HF; subst. cbn [map]. constructor; [|auto]. cbn [fst snd]. unfold optical_step.
  split; [reflexivity|]. split; [repeat split|]. split; [now apply components_wf|]. split; [apply components_probs|].
  intros vs Hv. pose proof (index_of_values_bound (c_D c) vs Hv) as Hi.
  unfold amp_of at 1. replace (name_string (c_D c) vs) with (at_index (c_D c) (index_of_values (c_D c) vs)).
  2:{ unfold at_index. now rewrite values_index_roundtrip. }
  rewrite components_amplitude by auto. cbv zeta.
  assert (Ez : mat_vec (size_of_basis (c_D c)) (nodes_matrix (c_D c) nds) (state_vector (c_D c) (snd it)) (index_of_values (c_D c) vs)
    = Csum (seq 0 (dL (c_D c) ^ dN (c_D c))) (fun j => nodes_matrix (c_D c) nds (index_of_values (c_D c) vs) j * amp_of (c_D c) (snd it) (values_from_index (c_D c) j))%C).
  { unfold mat_vec. apply Csum_ext. intros j Hj. apply in_seq in Hj. f_equal. apply state_vector_spec; first [tauto | lia]. }
  rewrite Ez. reflexivity.
Qed.

Lemma from_vec_norm_bounds D eps v l : (0 <= eps)%R ->
  (Rsum l (fun i => Cnorm2 (v i)) - eps * INR (length l) <= Rsum (from_vec D eps v l) (fun c => Cnorm2 (fst (snd c))) <= Rsum l (fun i => Cnorm2 (v i)))%R.
Proof.
  intros He. induction l as [|i l IH]; [cbn; lra|].
  change (from_vec D eps v (i :: l)) with ((if Rlt_dec (Cnorm2 (v i)) eps then [] else [(at_index D i, (v i, Cnorm2 (v i)))]) ++ from_vec D eps v l).
  rewrite Rsum_app, Rsum_cons. cbn [length]. rewrite S_INR. pose proof (Cnorm2_nonneg (v i)).
  destruct (Rlt_dec _ _).
  - cbn [Rsum fold_right]. change (Rsum [] _) with 0%R. lra.
  - rewrite Rsum_one. cbn [fst snd]. lra.
Qed.

(** The norm of every state is preserved by unitary gates when the threshold is not positive; with
    a positive threshold at most [threshold] is lost per basis state. Evaluation does not raise
    for valid states. *)
Theorem C18_norm_preserved : forall X rnd D ncl eps full gates c cs,
  1 <= dL D -> 2 <= dN D -> optical_circuit D ncl eps full gates = Some c -> gates <> [] ->
  Forall (fun g => unitary2 (fst g)) gates ->
  wf_items D (co_items cs) -> Forall (fun it => check_state eps ncl (snd it) = true) (co_items cs) ->
  exists cs', evaluate_circuit X rnd c cs = Ok cs' /\
  Forall2 (fun old new =>
      fst new = fst old /\ same_but_components (snd old) (snd new) /\
      ((eps <= 0)%R -> state_norm2 (snd new) = state_norm2 (snd old)) /\
      ((0 <= eps)%R -> (state_norm2 (snd old) - eps * INR (dL D ^ dN D) <= state_norm2 (snd new) <= state_norm2 (snd old))%R))
    (co_items cs) (co_items cs').
Proof.
  intros X rnd D ncl eps full gates c cs HL HN Ec Hg HU Hw Hck.
  apply optical_circuit_inv in Ec; auto. destruct Ec as (nds & Ep & Hc & Ho & <- & <- & <- & <- & El & En).
  assert (Hne : nds <> []).
  { destruct gates as [|[A chs] r]; [now destruct Hg|]. cbn [place] in Ep. destruct (tensor_list_of _ _); [|discriminate].
    destruct (place _ r); [|discriminate]. injection Ep as <-. discriminate. }
  assert (Hcn : c_nodes c <> []) by (intros H; rewrite H in El; destruct nds; [now destruct Hne|discriminate]).
  assert (HM : unitary_mat (size_of_basis (c_D c)) (nodes_matrix (c_D c) nds)).
  { eapply circuit_unitary; eauto. now apply nodes_matrix_circuit'. }
  rewrite evaluate_optical by auto.
  rewrite run_optical_spec; auto.
  2:{ intros H. destruct (c_nodes c); [now destruct Hcn|discriminate]. }
  2:{ intros k Hk. apply in_seq in Hk. split; [lia|]. apply Ho, node_at_in. lia. }
  eexists. split; [reflexivity|]. cbn [coll_of co_items]. unfold opt_step. rewrite En.
  destruct Hw as [_ HF]. clear - HL HF HM. induction (co_items cs) as [|it its IH]; [constructor|].
  inversion HF; subst. cbn [map]. constructor; [|auto]. cbn [fst snd].
  split; [reflexivity|]. split; [repeat split|]. unfold optical_step.
  assert (En : norm2 (size_of_basis (c_D c)) (mat_vec (size_of_basis (c_D c)) (nodes_matrix (c_D c) nds) (state_vector (c_D c) (snd it))) = state_norm2 (snd it)).
  { rewrite unitary_norm2 by auto. symmetry. apply state_norm2_vector; tauto. }
  split; intros He.
  - now rewrite components_norm2.
  - rewrite <- En. unfold state_norm2, norm2. cbn [with_comps s_comps].
    pose proof (from_vec_norm_bounds (c_D c) (c_eps c) (mat_vec (size_of_basis (c_D c)) (nodes_matrix (c_D c) nds) (state_vector (c_D c) (snd it))) (seq 0 (size_of_basis (c_D c))) He) as H.
    rewrite seq_length in H. exact H.
Qed.

(** A unitary circuit and a collection to which the theorem applies. *)
Example C18_case : exists c, optical_circuit (Dims 2 2 true) 1 (/ 10000000000) false mix_call = Some c /\
  Forall (fun g => unitary2 (fst g)) mix_call /\
  wf_items (Dims 2 2 true) [([97], bell)] /\
  Forall (fun it => check_state (/ 10000000000) 1 (snd it) = true) [([97], bell)].
Proof.
  eexists. split; [reflexivity|]. split; [repeat constructor; apply generic_unitary|]. split.
  - split; [repeat constructor; intros []|]. apply Forall_cons; [split; [apply C16_case|discriminate]|apply Forall_nil].
  - constructor; [|constructor]. cbn [snd]. unfold check_state, bell, Rltb. cbn [s_cum s_comps s_classical forallb snd length Nat.eqb].
    repeat (destruct (Rlt_dec _ _); [exfalso; lra|]). reflexivity.
Qed.
