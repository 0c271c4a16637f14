(** Property theorems C58: custom nodes given as matrices. *)
From Coq Require Import Reals List Arith Lia Lra Bool ZArith Permutation.
From Coquelicot Require Import Complex.
From Verif Require Import Prelude NamesModel NamesSpec NamesProofs FockModel FockSpec FockProofs GateProofs StateModel StateSpec StateProofs
  ApplyProofs CollectionModel CollectionSpec EvalModel EvalSpec EvalProofs WfProofs PropState PropEval ReshapeProofs CustomModel CustomSpec PropCustom.
Import ListNotations.

(** A circuit with one custom Fock-state node. *)
Definition custom_circuit (D : dims) (ncl : nat) (eps : R) (full : bool) (M : mat) : circuit :=
  Circuit D ncl eps full (fresh_keys D) [custom_fock_state_node M].

(** What a Fock-state node with the matrix [M] makes of the state [old]. *)
Definition transformed (D : dims) (eps : R) (M : mat) (old new : state) : Prop :=
  same_but_components old new /\ wf_state D new /\ probs_ok new /\
  forall vs, valid D vs ->
    let z := Csum (seq 0 (dL D ^ dN D)) (fun j => M (index_of_values D vs) j * amp_of D old (values_from_index D j))%C in
    amp_of D new vs = if Rlt_dec (Cnorm2 z) eps then RtoC 0 else z.


Lemma node_transforms c M its out seed seed' : 1 <= dL (c_D c) -> forall rnd,
  Forall (fun it => wf_state (c_D c) (snd it)) its ->
  custom_items c rnd M its seed = Some (out, seed') ->
  Forall2 (fun it it' => transformed (c_D c) (c_eps c) M (snd it) (snd it')) its out.
Proof.
  intros HL rnd HW Ec. apply custom_items_inv in Ec. destruct Ec as [Em _]. cbn [map app] in Em.
  revert out Em. induction HW as [|it l W HW IH]; intros [|[i' s'] out] Em; cbn [map] in Em; try discriminate; [constructor|].
  injection Em as E1 E2. constructor; [|now apply IH]. cbn [snd] in E1 |- *. rewrite E1.
  split; [repeat split|]. split; [now apply components_wf|]. split; [apply components_probs|].
  intros vs Hv. pose proof (index_of_values_bound (c_D c) vs Hv) as Hi.
  cbv zeta. set (nw := with_comps _ _). unfold amp_of at 1. subst nw. replace (name_string (c_D c) vs) with (at_index (c_D c) (index_of_values (c_D c) vs)).
  2:{ unfold at_index. now rewrite values_index_roundtrip. }
  rewrite components_amplitude by auto.
  assert (Ez : mat_vec (size_of_basis (c_D c)) M (state_vector (c_D c) (snd it)) (index_of_values (c_D c) vs)
    = Csum (seq 0 (dL (c_D c) ^ dN (c_D c))) (fun j => M (index_of_values (c_D c) vs) j * amp_of (c_D c) (snd it) (values_from_index (c_D c) j))%C).
  { unfold mat_vec. apply Csum_ext. intros j Hj. apply in_seq in Hj. f_equal. apply state_vector_spec; first [tauto | lia]. }
  rewrite Ez. reflexivity.
Qed.
Lemma run_custom X rnd c k M cs seed : k < length (c_nodes c) -> node_at c k = NCustomFock M ->
  evaluate_from X rnd c [k] cs seed = of_option (option_map (fun r => (coll_of c (fst r), snd r)) (custom_items c rnd M (co_items cs) seed)).
Proof.
  intros Hk En. rewrite evaluate_from_evalR, PropMeasure.evalR_single by (auto; now rewrite En). unfold run_node. now rewrite En.
Qed.

(** The node multiplies the state vector with its matrix: column = incoming component, row =
    outgoing component, both numbered as in the basis. *)
Theorem C58_fock_node : forall X rnd c k M cs,
  1 <= dL (c_D c) -> k < length (c_nodes c) -> node_at c k = custom_fock_state_node M ->
  Forall (fun it => wf_state (c_D c) (snd it)) (co_items cs) ->
  Forall (fun it => check_state (c_eps c) (c_ncl c) (snd it) = true) (co_items cs) ->
  exists cs', evaluate_nodes X rnd c [k] cs = Ok cs' /\
  Forall2 (fun it it' => transformed (c_D c) (c_eps c) M (snd it) (snd it')) (co_items cs) (co_items cs').
Proof.
  intros X rnd c k M cs HL Hk En HW HC. unfold evaluate_nodes. rewrite (run_custom X rnd c k M) by auto.
  destruct (custom_items_some c rnd M (co_items cs) HC ([], 0)) as ([out sd] & E).
  assert (E' : custom_items c rnd M (co_items cs) 0 = Some (out, sd)) by exact E. rewrite E'. cbn [option_map of_option rbind fst snd].
  eexists. split; [reflexivity|]. cbn [coll_of co_items]. now apply (node_transforms c M (co_items cs) out 0 sd HL rnd).
Qed.
Print Assumptions C58_fock_node.

(** A circuit of optical elements can be replaced by one Fock-state node with the matrix that
    get_fock_state_matrix returns for it: both give the same states (the node gives them new
    identifiers), whatever the threshold. *)
Theorem C58_matrix_roundtrip : forall X rnd D ncl eps full gates c M cs,
  1 <= dL D -> 2 <= dN D -> optical_circuit D ncl eps full gates = Some c -> circuit_matrix D gates = Some M ->
  wf_items D (co_items cs) -> Forall (fun it => check_state eps ncl (snd it) = true) (co_items cs) ->
  exists cs1 cs2, evaluate_circuit X rnd c cs = Ok cs1 /\
    evaluate_circuit X rnd (custom_circuit D ncl eps full M) cs = Ok cs2 /\
    Forall2 (fun it1 it2 => same_state D (snd it1) (snd it2)) (co_items cs1) (co_items cs2).
Proof.
  intros X rnd D ncl eps full gates c M cs HL HN Ec EM Hw HC.
  destruct (C58_fock_node X rnd (custom_circuit D ncl eps full M) 0 M cs HL) as (cs2 & E2 & F2); [cbn; lia|reflexivity| |exact HC|].
  { destruct Hw as [_ HF]. eapply Forall_impl; [|exact HF]. now intros it [H _]. }
  assert (exists cs1, evaluate_circuit X rnd c cs = Ok cs1) as (cs1 & E1).
  { pose proof Ec as Ec0. apply optical_circuit_inv in Ec; auto. destruct Ec as (nds & Ep & Hc & Ho & <- & <- & <- & <- & El & En).
    destruct (nodes_matrix_circuit _ _ _ _ HL Ep EM) as [_ Hne].
    assert (Hcn : c_nodes c <> []) by (intros H; rewrite H in El; destruct nds; [now destruct Hne|discriminate]).
    rewrite evaluate_optical by auto. rewrite run_optical_spec; auto; [now eexists| |].
    - intros H. destruct (c_nodes c); [now destruct Hcn|discriminate].
    - intros k Hk. apply in_seq in Hk. split; [lia|]. apply Ho, node_at_in. lia. }
  exists cs1, cs2. split; [exact E1|]. split; [exact E2|].
  pose proof (C18_evaluation_is_the_matrix X rnd D ncl eps full gates c M cs cs1 HL HN Ec EM Hw E1) as F1.
  cbn [c_D c_eps custom_circuit] in F2. clear - F1 F2. revert F2. generalize (co_items cs2). induction F1 as [|it it1 l l1 H1 F1 IH]; intros l2 F2.
  - inversion F2. constructor.
  - inversion F2 as [|? it2 ? l2' H2 F2']; subst. constructor; [|now apply IH]. destruct H1 as (_ & (S1 & S2 & S3 & S4 & S5) & _ & _ & A1).
    destruct H2 as ((T1 & T2 & T3 & T4 & T5) & _ & _ & A2). split; [repeat split; congruence|].
    intros vs V. rewrite (A1 vs V), (A2 vs V). reflexivity.
Qed.
Print Assumptions C58_matrix_roundtrip.

(** At threshold 0 two Fock-state nodes after each other are the node with the product of the
    matrices, the later one standing left. *)
Theorem C58_product : forall X rnd D ncl eps full M1 M2 cs,
  1 <= dL D -> (eps <= 0)%R ->
  Forall (fun it => wf_state D (snd it)) (co_items cs) -> Forall (fun it => check_state eps ncl (snd it) = true) (co_items cs) ->
  forall cs2, evaluate_circuit X rnd (Circuit D ncl eps full (fresh_keys D) [custom_fock_state_node M1; custom_fock_state_node M2]) cs = Ok cs2 ->
  exists cs1, evaluate_circuit X rnd (custom_circuit D ncl eps full (fun o i => Csum (seq 0 (dL D ^ dN D)) (fun k => M2 o k * M1 k i)%C)) cs = Ok cs1 /\
    Forall2 (fun it1 it2 => same_state D (snd it1) (snd it2)) (co_items cs1) (co_items cs2).
Proof.
  intros X rnd D ncl eps full M1 M2 cs HL He HW HC cs2 E.
  set (c := Circuit D ncl eps full (fresh_keys D) [custom_fock_state_node M1; custom_fock_state_node M2]) in *.
  destruct (C58_fock_node X rnd (custom_circuit D ncl eps full (fun o i => Csum (seq 0 (dL D ^ dN D)) (fun k => M2 o k * M1 k i)%C)) 0 (fun o i => Csum (seq 0 (dL D ^ dN D)) (fun k => M2 o k * M1 k i)%C) cs HL) as (cs1 & E1 & F1);
    [cbn; lia|reflexivity|exact HW|exact HC|]. exists cs1. split; [exact E1|].
  unfold evaluate_circuit, evaluate_nodes in E. change (seq 0 (length (c_nodes c))) with ([0] ++ [1]) in E.
  rewrite C19_two_calls in E.
  2:{ repeat constructor. }
  2:{ intros k Hk. cbn in Hk |- *. lia. }
  2:{ intros k [<-|[]]. reflexivity. }
  2:{ cbn. auto. }
  rewrite (run_custom X rnd c 0 M1) in E by (cbn; auto; lia).
  destruct (custom_items c rnd M1 (co_items cs) 0) as [[o1 sd1]|] eqn:Ec1; [|discriminate]. cbn [option_map of_option rbind fst snd] in E.
  rewrite (run_custom X rnd c 1 M2) in E by (cbn; auto; lia). cbn [coll_of co_items] in E.
  destruct (custom_items c rnd M2 o1 sd1) as [[o2 sd2]|] eqn:Ec2; [|discriminate]. cbn [option_map of_option rbind fst snd] in E.
  injection E as <-. cbn [coll_of co_items].
  pose proof (node_transforms c M1 (co_items cs) o1 0 sd1 HL rnd HW Ec1) as G1.
  assert (W1 : Forall (fun it => wf_state (c_D c) (snd it)) o1).
  { clear - G1. induction G1 as [|? ? ? ? H]; constructor; [|assumption]. apply H. }
  pose proof (node_transforms c M2 o1 o2 sd1 sd2 HL rnd W1 Ec2) as G2.
  cbn [c_D c_eps custom_circuit c] in F1, G1, G2.
  clear - F1 G1 G2 HL He. revert o2 G2 F1. generalize (co_items cs1). induction G1 as [|it it1 l l1 H1 G1 IH]; intros l2 o2 G2 F1.
  - inversion G2; subst. inversion F1; subst. constructor.
  - inversion G2 as [|? it2 ? o2' H2 G2']; subst. inversion F1 as [|? it3 ? l2' H3 F1']; subst. constructor; [|now apply IH].
    destruct H1 as ((S1 & S2 & S3 & S4 & S5) & _ & _ & A1). destruct H2 as ((T1 & T2 & T3 & T4 & T5) & _ & _ & A2). destruct H3 as ((U1 & U2 & U3 & U4 & U5) & _ & _ & A3).
    split; [repeat split; congruence|]. intros vs V.
    assert (plain : forall z, (if Rlt_dec (Cnorm2 z) eps then RtoC 0 else z) = z).
    { intros z. destruct (Rlt_dec _ _); [|reflexivity]. pose proof (Cnorm2_nonneg z). lra. }
    rewrite (A3 vs V), (A2 vs V), !plain.
    transitivity (Csum (seq 0 (dL D ^ dN D)) (fun j => Csum (seq 0 (dL D ^ dN D)) (fun k => M2 (index_of_values D vs) k * M1 k j * amp_of D (snd it) (values_from_index D j))%C)).
    { apply Csum_ext. intros j _. now rewrite Csum_scal_r. }
    rewrite Csum_swap. apply Csum_ext. intros k Hk. apply in_seq in Hk.
    assert (Vk : valid D (values_from_index D k)) by (apply values_from_index_valid; auto).
    rewrite (A1 _ Vk), plain. rewrite index_values_roundtrip by (auto; apply Hk). rewrite <- Csum_scal_l. apply Csum_ext. intros j _. apply C_eq; cbn; ring.
Qed.
Print Assumptions C58_product.

(** ** Optical matrices *)
Definition square (A : mat2) : list (list C) := [[m00 A; m01 A]; [m10 A; m11 A]].

(** A 2x2 matrix on two different channels gives the circuit of that element (whose effect on the
    states is described by C05-C10 and C18), and nothing is added for equal or unknown channels. *)
Theorem C58_optical_node : forall D A h v, 2 <= dN D ->
  (h <> v -> h < dN D -> v < dN D ->
   exists nd, custom_optical_node (dN D) (square A) [h; v] TypeOptical = Some (Some nd) /\
   forall ncl eps full, optical_circuit D ncl eps full [(A, [h; v])] = Some (Circuit D ncl eps full (fresh_keys D) [nd])) /\
  (h = v \/ dN D <= h \/ dN D <= v -> custom_optical_node (dN D) (square A) [h; v] TypeOptical = None).
Proof.
  intros D A h v HN. split.
  - intros Hne Hh Hv. assert (exists tl, tensor_list_of (dN D) [h; v] = Some tl) as (tl & Et).
    { unfold tensor_list_of. cbv zeta. apply Nat.eqb_neq in Hne. rewrite Hne. apply Nat.ltb_lt in Hh, Hv. rewrite Hh, Hv. cbn [andb].
      destruct (_ && _); [now eexists|]. destruct (_ && _); now eexists. }
    unfold custom_optical_node, optical_circuit, place. rewrite Et. destruct A. eexists. split; reflexivity.
  - intros H. unfold custom_optical_node. assert (tensor_list_of (dN D) [h; v] = None) as ->; [|reflexivity].
    unfold tensor_list_of. cbv zeta. destruct (h =? v) eqn:E; [reflexivity|]. apply Nat.eqb_neq in E.
    destruct ((h =? 0) && (v =? 1)) eqn:E1. { apply andb_prop in E1. destruct E1 as [A1 A2]. apply Nat.eqb_eq in A1, A2. lia. }
    destruct ((h =? 1) && (v =? 0)) eqn:E2. { apply andb_prop in E2. destruct E2 as [A1 A2]. apply Nat.eqb_eq in A1, A2. lia. }
    destruct ((h <? dN D) && (v <? dN D)) eqn:E3; [|reflexivity]. apply andb_prop in E3. destruct E3 as [A1 A2]. apply Nat.ltb_lt in A1, A2. lia.
Qed.

(** Which matrices are rejected: only those that have neither two rows nor two columns (in the
    first row). The documentation says: those that are not 2x2. *)
Theorem C58_rejected_sizes : forall n rows h v, h <> v -> h < n -> v < n ->
  (custom_optical_node n rows [h; v] TypeOptical = None <-> rows = [] \/ (length rows <> 2 /\ length (hd [] rows) <> 2)).
Proof.
  intros n rows h v Hne Hh Hv. assert (exists tl, tensor_list_of n [h; v] = Some tl) as (tl & Et).
  { unfold tensor_list_of. cbv zeta. apply Nat.eqb_neq in Hne. rewrite Hne. apply Nat.ltb_lt in Hh, Hv. rewrite Hh, Hv. cbn [andb].
    destruct (_ && _); [now eexists|]. destruct (_ && _); now eexists. }
  unfold custom_optical_node. rewrite Et. cbn [known_type]. destruct rows as [|r rows]; [cbn; split; auto|].
  unfold size_accepted. cbn [hd]. destruct (length (r :: rows) =? 2) eqn:E1; destruct (length r =? 2) eqn:E2; cbn [negb andb];
    first [apply Nat.eqb_eq in E1|apply Nat.eqb_neq in E1]; first [apply Nat.eqb_eq in E2|apply Nat.eqb_neq in E2];
    (split; [intros H; try discriminate; auto|intros [H|[H1 H2]]; [discriminate|try contradiction; auto]]).
Qed.

(** So a 3x2 matrix is accepted (its last row is ignored), and so is a matrix with two rows of
    length one (every evaluation then raises). *)
Theorem C58_size_refuted : forall D A x y h v, 2 <= dN D -> h <> v -> h < dN D -> v < dN D ->
  custom_optical_node (dN D) (square A ++ [[x; y]]) [h; v] TypeOptical = custom_optical_node (dN D) (square A) [h; v] TypeOptical /\
  custom_optical_node (dN D) (square A) [h; v] TypeOptical <> None /\
  custom_optical_node (dN D) [[x]; [y]] [h; v] TypeOptical = Some None.
Proof.
  intros D A x y h v HN Hne Hh Hv. destruct (proj1 (C58_optical_node D A h v HN) Hne Hh Hv) as (nd & E & _).
  assert (exists tl, tensor_list_of (dN D) [h; v] = Some tl) as (tl & Et).
  { unfold custom_optical_node in E. destruct (tensor_list_of _ _); [now eexists|discriminate]. }
  split; [|split; [rewrite E; discriminate|]].
  - unfold custom_optical_node. rewrite Et. reflexivity.
  - unfold custom_optical_node. rewrite Et. reflexivity.
Qed.

(** The documented node type 'optical non-linear' is always rejected. *)
Theorem C58_non_linear_type_refuted : forall n rows channels, custom_optical_node n rows channels TypeNonLinear = None.
Proof. intros n rows channels. unfold custom_optical_node. destruct (negb _); [reflexivity|]. now destruct (tensor_list_of _ _). Qed.

(** nonlinear_optical_node has no effect on any collection. *)
Theorem C58_nonlinear_node : forall X rnd c k operator channels cs,
  k < length (c_nodes c) -> node_at c k = nonlinear_optical_node operator channels -> evaluate_nodes X rnd c [k] cs = Ok cs.
Proof.
  intros X rnd c k operator channels cs Hk En. rewrite PropMeasure.evaluate_single by (auto; now rewrite En).
  unfold run_node. rewrite En. reflexivity.
Qed.

(** Two photons in one channel, a 50/50 element on channels 0 and 1 of three, as an element and as
    a Fock-state node. *)
Example C58_case : exists c M cs1 cs2, let D := Dims 3 3 true in
  optical_circuit D 0 0 false [(Mat2 (RtoC (/ sqrt 2)) (RtoC (/ sqrt 2)) (RtoC (/ sqrt 2)) (RtoC (- / sqrt 2)), [0; 1])] = Some c /\
  circuit_matrix D [(Mat2 (RtoC (/ sqrt 2)) (RtoC (/ sqrt 2)) (RtoC (/ sqrt 2)) (RtoC (- / sqrt 2)), [0; 1])] = Some M /\
  let cs := Coll D 0 0 [([0], State [0] 1 [(name_string D [2;0;0], (RtoC 1, 1%R))] [] [] [])] in
  wf_items D (co_items cs) /\ Forall (fun it => check_state 0 0 (snd it) = true) (co_items cs) /\
  evaluate_circuit (Externals (fun _ _ _ => None) (fun _ _ _ => None)) (fun _ => 0) c cs = Ok cs1 /\
  evaluate_circuit (Externals (fun _ _ _ => None) (fun _ _ _ => None)) (fun _ => 0) (custom_circuit D 0 0 false M) cs = Ok cs2 /\
  Forall2 (fun it1 it2 => same_state D (snd it1) (snd it2)) (co_items cs1) (co_items cs2).
Proof.
  set (D := Dims 3 3 true). set (A := Mat2 _ _ _ _).
  set (cs := Coll D 0 0 [([0], State [0] 1 [(name_string D [2;0;0], (RtoC 1, 1%R))] [] [] [])]).
  assert (exists c, optical_circuit D 0 0 false [(A, [0; 1])] = Some c) as (c & Ec) by (eexists; reflexivity).
  assert (exists M, circuit_matrix D [(A, [0; 1])] = Some M) as (M & EM) by (eexists; reflexivity).
  assert (W : wf_items D (co_items cs)).
  { split; [repeat constructor; intros []|]. constructor; [|constructor]. split; [|discriminate].
    split; [repeat constructor; intros []|]. intros nm [<-|[]]. exists [2;0;0]. split; [split; [reflexivity|repeat constructor]|reflexivity]. }
  assert (K : Forall (fun it => check_state 0 0 (snd it) = true) (co_items cs)).
  { repeat constructor. unfold check_state, Rltb. cbn. repeat (destruct (Rlt_dec _ _); [lra|]). reflexivity. }
  destruct (C58_matrix_roundtrip (Externals (fun _ _ _ => None) (fun _ _ _ => None)) (fun _ => 0) D 0 0 false [(A, [0; 1])] c M cs) as (cs1 & cs2 & E1 & E2 & F); auto; [cbn; lia|cbn; lia|].
  exists c, M, cs1, cs2. cbv zeta. split; [exact Ec|]. split; [exact EM|]. split; [exact W|]. split; [exact K|]. split; [exact E1|]. split; [exact E2|exact F].
Qed.
