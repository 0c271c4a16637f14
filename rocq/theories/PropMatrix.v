(** Property theorems C78: the Fock matrix of a list of nodes. *)
From Coq Require Import Reals List Arith Lia Lra Bool Permutation Sorted.
From Coquelicot Require Import Complex.
From Verif Require Import Prelude NamesModel NamesSpec NamesProofs FockModel FockSpec FockProofs GateProofs StateModel StateSpec StateProofs
  ApplyProofs CollectionModel CollectionSpec OpticalModel EvalModel EvalSpec EvalProofs WfProofs PropState PropEval CustomModel CustomSpec PropCustom PropCustomNodes
  ExponentialProofs PropPROptics MatrixModel MatrixSpec.
Import ListNotations.

Lemma optical_at_spec c k : optical_at c k <-> (k < length (c_nodes c) /\ is_optical (node_at c k) = true).
Proof.
  unfold optical_at, node_at. split.
  - intros (A & tl & E). split; [apply nth_error_Some; congruence|]. now rewrite (nth_error_nth _ _ _ E).
  - intros [Hk H]. rewrite (nth_error_nth' (c_nodes c) NSpectrum Hk). destruct (nth k (c_nodes c) NSpectrum); try discriminate. now exists A, tl.
Qed.
Lemma all_optical_spec c ks : (forall k, In k ks -> optical_at c k) <->
  forallb (fun k => (k <? length (c_nodes c)) && is_optical (node_at c k)) ks = true.
Proof.
  rewrite forallb_forall. split; intros H k Hk; specialize (H k Hk).
  - apply optical_at_spec in H. apply andb_true_intro. split; [now apply Nat.ltb_lt|tauto].
  - apply andb_prop in H. apply optical_at_spec. split; [now apply Nat.ltb_lt|tauto].
Qed.
Definition onodes (c : circuit) (ks : list nat) : list onode := flat_map (fun k => onode_of (node_at c k)) ks.

Lemma fock_all D nds : 1 <= dL D -> option_map fst (fock_state_matrix D (fresh_keys D) nds SelAll) = match nds with [] => None | _ => Some (nodes_matrix D nds) end.
Proof.
  intros HL. destruct nds as [|nd r]; [reflexivity|]. unfold fock_state_matrix. cbn [option_map]. f_equal. rewrite fresh_keys_all by auto.
  set (f := fun (acc : mat * list nat) (nd' : onode) => _).
  assert (G : forall r acc, fst (fold_left f r acc) = product D (fst acc) r).
  { clear. induction r as [|nd r IH]; intros acc; [reflexivity|]. cbn [fold_left product].
    rewrite IH. unfold f at 1. cbn [fst]. now rewrite keep_all_length. }
  rewrite G. reflexivity.
Qed.

Lemma generate_spec c ks : wf_circuit c -> ks <> [] -> (forall k, In k ks -> optical_at c k) ->
  generate_matrix c ks = Some (nodes_matrix (c_D c) (onodes c ks)).
Proof.
  intros (HL & HN & HK & _) Hne H. unfold generate_matrix. rewrite (proj1 (all_optical_spec c ks) H), HK, fock_all by auto. fold (onodes c ks).
  assert (Hn : onodes c ks <> []) by (apply onodes_nonempty; [auto|]; intros k Hk; now apply optical_at_spec, H). destruct (onodes c ks); [contradiction|reflexivity].
Qed.
Lemma generate_inv c ks M : wf_circuit c -> generate_matrix c ks = Some M ->
  ks <> [] /\ (forall k, In k ks -> optical_at c k) /\ M = nodes_matrix (c_D c) (onodes c ks).
Proof.
  intros Hc E. assert (Hne : ks <> []) by (intros ->; discriminate E).
  assert (H : forall k, In k ks -> optical_at c k).
  { apply all_optical_spec. unfold generate_matrix in E. destruct (forallb _ ks); [reflexivity|discriminate]. }
  split; [auto|]. split; [auto|]. rewrite generate_spec in E by auto. congruence.
Qed.

Lemma custom_not_optical c k M : custom_at c k M -> ~ optical_at c k.
Proof. unfold custom_at, optical_at. intros E (A & tl & E'). congruence. Qed.

Lemma matrix_of_nodes_cases c ks : (exists k M, ks = [k] /\ custom_at c k M /\ matrix_of_nodes c ks = Some M) \/ matrix_of_nodes c ks = generate_matrix c ks.
Proof.
  destruct ks as [|k [|k' r]]; [now right| |now right]. cbn [matrix_of_nodes]. destruct (nth_error (c_nodes c) k) as [nd|] eqn:E; [|now right].
  destruct nd; try (now right). left. now exists k, M.
Qed.

Lemma matrix_inv c ks M : wf_circuit c -> matrix_of_nodes c ks = Some M ->
  (exists k, ks = [k] /\ custom_at c k M) \/ (ks <> [] /\ (forall k, In k ks -> optical_at c k) /\ M = nodes_matrix (c_D c) (onodes c ks)).
Proof.
  intros Hc E. destruct (matrix_of_nodes_cases c ks) as [(k & M' & -> & H & E')|E'].
  - left. exists k. split; [reflexivity|]. congruence.
  - right. rewrite E' in E. now apply generate_inv.
Qed.
Lemma matrix_optical c ks : wf_circuit c -> ks <> [] -> (forall k, In k ks -> optical_at c k) ->
  matrix_of_nodes c ks = Some (nodes_matrix (c_D c) (onodes c ks)).
Proof.
  intros Hc Hne H. destruct (matrix_of_nodes_cases c ks) as [(k & M' & -> & H' & _)|E'].
  - exfalso. apply (custom_not_optical _ _ _ H'). apply H. now left.
  - rewrite E'. now apply generate_spec.
Qed.

(** Which lists of nodes have a matrix: one node with a matrix of the user, or any number of
    optical elements, at least one, in any order and with repetitions. Everything else raises. *)
Theorem C78_which_lists : forall c ks, wf_circuit c ->
  ((exists M, matrix_of_nodes c ks = Some M) <->
   ((exists k M, ks = [k] /\ custom_at c k M) \/ (ks <> [] /\ forall k, In k ks -> optical_at c k))).
Proof.
  intros c ks Hc. split.
  - intros [M E]. destruct (matrix_inv c ks M Hc E) as [(k & -> & H)|(H1 & H2 & _)]; [left; now exists k, M|now right].
  - intros [(k & M & -> & H)|[Hne H]]; [exists M; unfold matrix_of_nodes, custom_at in *; now rewrite H|]. eexists. now apply matrix_optical.
Qed.
Print Assumptions C78_which_lists.

(** The matrix of the user is returned as it is. *)
Theorem C78_custom_node : forall c k M, custom_at c k M -> matrix_of_nodes c [k] = Some M.
Proof. intros c k M H. unfold matrix_of_nodes, custom_at in *. now rewrite H. Qed.
Print Assumptions C78_custom_node.

Lemma product_mul D nds : forall acc o i, o < size_of_basis D -> i < size_of_basis D -> nds <> [] ->
  product D acc nds o i = mat_mul (size_of_basis D) (nodes_matrix D nds) acc o i.
Proof.
  induction nds as [|nd r IH]; intros acc o i Ho Hi Hne; [contradiction|]. cbn [product nodes_matrix].
  destruct r as [|nd' r]; [reflexivity|]. rewrite IH by (auto; discriminate).
  rewrite ExponentialProofs.mat_mul_assoc. apply PropCustom.mat_mul_ext; [|reflexivity|exact Ho|exact Hi].
  intros x y Hx Hy. symmetry. apply IH; [exact Hx|exact Hy|discriminate].
Qed.
Lemma nodes_matrix_app D l1 l2 o i : l1 <> [] -> l2 <> [] -> o < size_of_basis D -> i < size_of_basis D ->
  nodes_matrix D (l1 ++ l2) o i = mat_mul (size_of_basis D) (nodes_matrix D l2) (nodes_matrix D l1) o i.
Proof.
  intros H1 H2 Ho Hi. destruct l1 as [|nd r]; [contradiction|]. cbn [app nodes_matrix].
  assert (G : forall l acc, product D acc (l ++ l2) = product D (product D acc l) l2) by (clear; induction l as [|x l IH]; intros acc; [reflexivity|]; cbn [app product]; apply IH).
  rewrite G. now apply product_mul.
Qed.
Lemma onodes_app c l1 l2 : onodes c (l1 ++ l2) = onodes c l1 ++ onodes c l2.
Proof. apply flat_map_app. Qed.

(** The matrix of a list is the product of the matrices of its parts, the later part on the left. *)
Theorem C78_one_after_the_other : forall c ks1 ks2 M1 M2, wf_circuit c ->
  (forall k, In k (ks1 ++ ks2) -> optical_at c k) ->
  matrix_of_nodes c ks1 = Some M1 -> matrix_of_nodes c ks2 = Some M2 ->
  exists M, matrix_of_nodes c (ks1 ++ ks2) = Some M /\ same_matrix (c_D c) M (after (c_D c) M2 M1).
Proof.
  intros c ks1 ks2 M1 M2 Hc H E1 E2.
  assert (H1 : forall k, In k ks1 -> optical_at c k) by (intros k Hk; apply H, in_or_app; now left).
  assert (H2 : forall k, In k ks2 -> optical_at c k) by (intros k Hk; apply H, in_or_app; now right).
  assert (N1 : ks1 <> []) by (intros ->; discriminate E1). assert (N2 : ks2 <> []) by (intros ->; discriminate E2).
  rewrite matrix_optical in E1, E2 by auto. injection E1 as <-. injection E2 as <-.
  eexists. split; [apply matrix_optical; auto; now destruct ks1|]. intros o i Ho Hi. rewrite onodes_app.
  rewrite nodes_matrix_app; [reflexivity| | |exact Ho|exact Hi]; apply onodes_nonempty; auto; intros k Hk; apply optical_at_spec; auto.
Qed.
Print Assumptions C78_one_after_the_other.

(** Evaluating the nodes of the list multiplies every state with the matrix of the list, in
    whatever order the list names them. *)
Theorem C78_evaluation : forall X rnd c ks M cs, wf_circuit c -> matrix_of_nodes c ks = Some M ->
  wf_items (c_D c) (co_items cs) -> Forall (fun it => check_state (c_eps c) (c_ncl c) (snd it) = true) (co_items cs) ->
  exists cs', evaluate_nodes X rnd c ks cs = Ok cs' /\
  Forall2 (fun old new => moved_by (c_D c) (c_eps c) M (snd old) (snd new)) (co_items cs) (co_items cs').
Proof.
  intros X rnd c ks M cs Hc E Hw HC. pose proof Hc as (HL & HN & _).
  destruct (matrix_inv c ks M Hc E) as [(k & -> & H)|(Hne & H & ->)].
  - destruct (C58_fock_node X rnd c k M cs) as (cs' & E' & F); auto.
    + apply nth_error_Some. unfold custom_at in H. congruence.
    + unfold node_at. unfold custom_at in H. now rewrite (nth_error_nth _ _ _ H).
    + destruct Hw as [_ HF]. eapply Forall_impl; [|exact HF]. now intros it [W _].
    + exists cs'. split; [exact E'|]. clear - F. induction F as [|x y l l' T F IH]; constructor; [|exact IH]. destruct T as (T1 & _ & _ & T2). now split.
  - assert (Hk : forall k, In k ks -> k < length (c_nodes c) /\ is_optical (node_at c k) = true) by (intros k Hk; now apply optical_at_spec, H).
    unfold evaluate_nodes. rewrite evaluate_optical_block, run_optical_spec by auto. cbn [rbind fst]. eexists. split; [reflexivity|].
    cbn [coll_of co_items]. destruct Hw as [_ HF]. unfold opt_step. fold (onodes c ks). clear - HF HL. induction HF as [|it l [W _] HF IH]; [constructor|]. cbn [map]. constructor; [|exact IH].
    cbn [snd]. unfold optical_step. split; [repeat split|]. intros vs Hv. pose proof (index_of_values_bound (c_D c) vs Hv) as Hi.
    cbv zeta. match goal with |- amp_of ?D ?s ?v = _ => change (amp_of D s v) with (amplitude s (name_string D v)) end.
    replace (name_string (c_D c) vs) with (at_index (c_D c) (index_of_values (c_D c) vs)).
    2:{ unfold at_index. now rewrite values_index_roundtrip. }
    rewrite components_amplitude by auto. cbv zeta.
    assert (Ez : mat_vec (size_of_basis (c_D c)) (nodes_matrix (c_D c) (onodes c ks)) (state_vector (c_D c) (snd it)) (index_of_values (c_D c) vs)
      = Csum (seq 0 (dL (c_D c) ^ dN (c_D c))) (fun j => nodes_matrix (c_D c) (onodes c ks) (index_of_values (c_D c) vs) j * amp_of (c_D c) (snd it) (values_from_index (c_D c) j))%C).
    { unfold mat_vec. apply Csum_ext. intros j Hj. apply in_seq in Hj. f_equal. apply state_vector_spec; first [tauto | lia]. }
    rewrite Ez. reflexivity.
Qed.
Print Assumptions C78_evaluation.

(** Without a list: the matrix of all nodes, if all of them are optical elements. *)
Theorem C78_whole_circuit : forall c, wf_circuit c ->
  ((exists M, matrix_of_circuit c = Some M) <-> (c_nodes c <> [] /\ forall k, k < length (c_nodes c) -> optical_at c k)) /\
  (forall M, matrix_of_circuit c = Some M -> matrix_of_nodes c (seq 0 (length (c_nodes c))) = Some M).
Proof.
  intros c Hc. unfold matrix_of_circuit. split; [split|].
  - intros [M E]. apply generate_inv in E; auto. destruct E as (Hne & H & _). split; [intros E; apply Hne; now rewrite E|]. intros k Hk. apply H. apply in_seq. lia.
  - intros [Hne H]. eexists. apply generate_spec; auto; [destruct (c_nodes c); [contradiction|discriminate]|]. intros k Hk. apply in_seq in Hk. apply H. lia.
  - intros M E. pose proof E as E'. apply generate_inv in E; auto. destruct E as (Hne & H & ->). now apply matrix_optical.
Qed.
Print Assumptions C78_whole_circuit.

(** A circuit of one node with a matrix of the user: the list of this node has a matrix, all nodes
    of the circuit do not. *)
Theorem C78_whole_circuit_refuted : forall D ncl eps full M, wf_circuit (custom_circuit D ncl eps full M) ->
  matrix_of_nodes (custom_circuit D ncl eps full M) [0] = Some M /\ matrix_of_circuit (custom_circuit D ncl eps full M) = None.
Proof. intros. split; reflexivity. Qed.
Print Assumptions C78_whole_circuit_refuted.

(** Optical elements next to a node with a matrix of the user: each node has a matrix and the
    circuit evaluates them one after the other, but the list has no matrix. *)
Theorem C78_mixed_list_refuted : forall D ncl eps full A tl M, let c := Circuit D ncl eps full (fresh_keys D) [NOptical A tl; NCustomFock M] in
  wf_circuit c ->
  (exists M1 M2, matrix_of_nodes c [0] = Some M1 /\ matrix_of_nodes c [1] = Some M2) /\
  (forall X rnd cs cs1 cs2, evaluate_nodes X rnd c [0] cs = Ok cs1 -> evaluate_nodes X rnd c [1] cs1 = Ok cs2 ->
    evaluate_nodes X rnd c [0; 1] cs = Ok cs2) /\ matrix_of_nodes c [0; 1] = None.
Proof.
  intros D ncl eps full A tl M c Hc. split; [|split].
  - exists (nodes_matrix D [ONode A tl]), M. split; [|reflexivity]. apply (matrix_optical c [0]); auto; [discriminate|]. intros k [<-|[]]. now exists A, tl.
  - intros X rnd cs cs1 cs2 E1 E2. unfold evaluate_nodes in *. change [0; 1] with ([0] ++ [1]). rewrite C19_two_calls.
    2:{ repeat constructor. }
    2:{ intros k Hk. cbn in Hk |- *. lia. }
    2:{ intros k [<-|[]]. reflexivity. }
    2:{ cbn. auto. }
    rewrite evaluate_optical_block in E1 |- * by (discriminate || (intros k [<-|[]]; cbn; split; [lia|reflexivity])).
    destruct (run_optical c [0] cs); [|discriminate]. cbn [rbind fst snd] in *. injection E1 as ->. exact E2.
  - reflexivity.
Qed.
Print Assumptions C78_mixed_list_refuted.

(** Three nodes of which the last is the user's matrix: the second element, then the first, then the
    second again has a matrix, and so has the third node; the two together have none. *)
Example C78_case : let D := Dims 3 3 true in
  let A := Mat2 (RtoC 0) (RtoC 1) (RtoC 1) (RtoC 0) in let B := Mat2 (RtoC 1) (RtoC 0) (RtoC 0) (RtoC (-1)) in
  let c := Circuit D 1 0 false (fresh_keys D) [NOptical A [0;1;2]; NOptical B [2;0;1]; NCustomFock (fun i j => if i =? j then RtoC 2 else RtoC 0)] in
  wf_circuit c /\ (exists M1 M2 M, matrix_of_nodes c [1] = Some M1 /\ matrix_of_nodes c [0; 1] = Some M2 /\
    matrix_of_nodes c [1; 0; 1] = Some M /\ same_matrix D M (after D M2 M1)) /\
  (exists M, matrix_of_nodes c [2] = Some M) /\ matrix_of_nodes c [0; 2] = None /\ matrix_of_circuit c = None /\ matrix_of_nodes c [] = None.
Proof.
  intros D A B c. assert (Hc : wf_circuit c).
  { split; [cbn; lia|]. split; [cbn; lia|]. split; [reflexivity|]. constructor; [cbn; apply Permutation_refl|]. constructor; [|repeat constructor].
    cbn. apply (Permutation_trans (l' := [0; 2; 1])); [apply perm_swap|apply perm_skip, perm_swap]. }
  assert (O0 : optical_at c 0) by (now eexists _, _). assert (O1 : optical_at c 1) by (now eexists _, _).
  assert (exists M, matrix_of_nodes c [1] = Some M) as [M1 E1] by (eexists; apply matrix_optical; [exact Hc|discriminate|intros k [<-|[]]; exact O1]).
  assert (exists M, matrix_of_nodes c [0; 1] = Some M) as [M2 E2] by (eexists; apply matrix_optical; [exact Hc|discriminate|intros k [<-|[<-|[]]]; assumption]).
  split; [exact Hc|]. split.
  - destruct (C78_one_after_the_other c [1] [0; 1] M1 M2 Hc) as (M & E & S); [intros k [<-|[<-|[<-|[]]]]; assumption|exact E1|exact E2|].
    exists M1, M2, M. auto.
  - split; [now eexists|]. repeat split.
Qed.

(** The two elements in reverse order on a state with two photons. *)
Example C78_evaluation_case : exists cs cs' M, let D := Dims 3 3 true in
  let A := Mat2 (RtoC 0) (RtoC 1) (RtoC 1) (RtoC 0) in let B := Mat2 (RtoC 1) (RtoC 0) (RtoC 0) (RtoC (-1)) in
  let c := Circuit D 0 0 false (fresh_keys D) [NOptical A [0;1;2]; NOptical B [2;0;1]] in
  wf_circuit c /\ wf_items D (co_items cs) /\ Forall (fun it => check_state 0 0 (snd it) = true) (co_items cs) /\ length (co_items cs) = 1 /\
  matrix_of_nodes c [1; 0] = Some M /\
  evaluate_nodes (Externals (fun _ _ _ => None) (fun _ _ _ => None)) (fun _ => 0) c [1; 0] cs = Ok cs' /\
  Forall2 (fun old new => moved_by D 0 M (snd old) (snd new)) (co_items cs) (co_items cs').
Proof.
  set (D := Dims 3 3 true). set (A := Mat2 (RtoC 0) (RtoC 1) (RtoC 1) (RtoC 0)). set (B := Mat2 (RtoC 1) _ _ _).
  set (c := Circuit D 0 0 false (fresh_keys D) [NOptical A [0;1;2]; NOptical B [2;0;1]]).
  set (cs := Coll D 0 0 [([0], State [0] 1 [(name_string D [1;1;0], (RtoC 1, 1%R))] [] [] [])]).
  assert (Hc : wf_circuit c).
  { split; [cbn; lia|]. split; [cbn; lia|]. split; [reflexivity|]. constructor; [cbn; apply Permutation_refl|]. constructor; [|constructor].
    cbn. apply (Permutation_trans (l' := [0; 2; 1])); [apply perm_swap|apply perm_skip, perm_swap]. }
  assert (W : wf_items D (co_items cs)).
  { split; [repeat constructor; intros []|]. constructor; [|constructor]. split; [|discriminate].
    split; [repeat constructor; intros []|]. intros nm [<-|[]]. exists [1;1;0]. split; [split; [reflexivity|repeat constructor]|reflexivity]. }
  assert (K : Forall (fun it => check_state 0 0 (snd it) = true) (co_items cs)).
  { repeat constructor. unfold check_state, Rltb. cbn. repeat (destruct (Rlt_dec _ _); [lra|]). reflexivity. }
  assert (exists M, matrix_of_nodes c [1; 0] = Some M) as [M E].
  { eexists; apply matrix_optical; [exact Hc|discriminate|intros k [<-|[<-|[]]]; now eexists _, _]. }
  destruct (C78_evaluation (Externals (fun _ _ _ => None) (fun _ _ _ => None)) (fun _ => 0) c [1; 0] M cs Hc E W K) as (cs' & E' & F).
  exists cs, cs', M. cbv zeta. split; [exact Hc|]. split; [exact W|]. split; [exact K|]. split; [reflexivity|]. split; [exact E|]. split; [exact E'|exact F].
Qed.
