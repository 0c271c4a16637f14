(** Property theorems C19, C24, C27, C28: evaluate_circuit. *)
From Coq Require Import Reals List Arith Lia Lra Bool Permutation Sorted.
From Coquelicot Require Import Complex.
From Verif Require Import Prelude NamesModel NamesSpec NamesProofs FockModel FockSpec FockProofs GateProofs PropFock
  OpticalModel OpticalProofs StateModel StateSpec StateProofs ApplyProofs CollectionModel EvalModel EvalSpec EvalProofs
  MeasureSpec MeasureProofs WfProofs PropState PropMeasure.
Import ListNotations.

(** ** C19 *)
(** Two calls, the second one on the result of the first, give what one call gives, exceptions
    and random identifiers included, unless the cut separates two adjacent optical nodes. *)
Theorem C19_two_calls : forall X rnd c l1 l2 cs seed,
  StronglySorted lt (l1 ++ l2) -> (forall k, In k (l1 ++ l2) -> k < length (c_nodes c)) ->
  (forall k, In k l1 -> is_bridge (node_at c k) = false) -> cut_ok c l1 l2 ->
  evaluate_from X rnd c (l1 ++ l2) cs seed
  = rbind (evaluate_from X rnd c l1 cs seed) (fun r => evaluate_from X rnd c l2 (fst r) (snd r)).
Proof.
  intros X rnd c l1 l2 cs seed HS Hr Hb Hcut. rewrite !evaluate_from_evalR.
  rewrite evalR_split; auto.
  - destruct (evalR X rnd c l1 cs seed) as [[cs1 s1]| |]; cbn [rbind]; try reflexivity. now rewrite evaluate_from_evalR.
  - apply forallb_forall. intros k Hk. apply Nat.ltb_lt. auto.
Qed.

(** With threshold 0 the cut can be anywhere: running the nodes one at a time, each call on the
    result of the previous one, gives the result of the single call. *)
Theorem C19_one_by_one : forall X rnd c inds cs seed r,
  wf_circuit c -> (c_eps c <= 0)%R -> wf_items (c_D c) (co_items cs) ->
  StronglySorted lt inds -> functions_wf X c inds ->
  (forall k, In k inds -> is_bridge (node_at c k) = false) ->
  one_by_one X rnd c inds cs seed = Ok r -> evaluate_from X rnd c inds cs seed = Ok r.
Proof. intros. rewrite evaluate_from_evalR. now apply one_by_one_sound. Qed.

(** All nodes of a circuit. *)
Lemma seq_sorted n : forall s, StronglySorted lt (seq s n).
Proof.
  induction n as [|n IH]; intros s; [constructor|]. cbn [seq]. constructor; auto.
  apply Forall_forall. intros x Hx. apply in_seq in Hx. lia.
Qed.
Theorem C19_whole_circuit : forall X rnd c cs r,
  wf_circuit c -> (c_eps c <= 0)%R -> wf_items (c_D c) (co_items cs) ->
  functions_wf X c (seq 0 (length (c_nodes c))) ->
  (forall nd, In nd (c_nodes c) -> is_bridge nd = false) ->
  one_by_one X rnd c (seq 0 (length (c_nodes c))) cs 0 = Ok r -> evaluate_circuit X rnd c cs = Ok (fst r).
Proof.
  intros X rnd c cs r Hc He Hw HF Hb E. unfold evaluate_circuit, evaluate_nodes.
  rewrite (C19_one_by_one X rnd c (seq 0 (length (c_nodes c))) cs 0 r); auto.
  - apply seq_sorted.
  - intros k Hk. apply Hb, node_at_in. apply in_seq in Hk. lia.
Qed.

(** In a list that is not increasing, everything after the largest index is dropped. *)
Theorem C19_decreasing_list_drops_nodes : forall X rnd c k rest cs seed,
  k < length (c_nodes c) -> (forall j, In j rest -> j <= k) ->
  is_optical (node_at c k) = false ->
  evaluate_from X rnd c (k :: rest) cs seed = evaluate_from X rnd c [k] cs seed.
Proof.
  intros X rnd c k rest cs seed Hk Hj Ho. rewrite !evaluate_from_evalR, !evalR_unfold.
  assert (Hm : forall l, (forall j, In j l -> j <= k) -> list_max (k :: l) <=? k = true).
  { intros l Hl. apply Nat.leb_le, list_max_le, Forall_forall. intros x [<-|Hx]; auto. }
  assert (Hf : forall l, (forall j, In j l -> j <= k) -> forallb (fun i => i <? length (c_nodes c)) (k :: l) = true).
  { intros l Hl. apply forallb_forall. intros x [<-|Hx]; apply Nat.ltb_lt; [auto|]. specialize (Hl x Hx). lia. }
  rewrite !Hf by (auto; intros j []). cbn [negb]. cbv zeta. rewrite !Hm by (auto; intros j []).
  destruct (node_at c k); try discriminate; reflexivity.
Qed.

Example C19_drop_case : exists X rnd c cs cs1 cs2,
  evaluate_nodes X rnd c [1; 0] cs = Ok cs1 /\ evaluate_nodes X rnd c [0; 1] cs = Ok cs2 /\
  map (fun it => s_classical (snd it)) (co_items cs1) = [[7%R; 0%R]] /\
  map (fun it => s_classical (snd it)) (co_items cs2) = [[7%R; 5%R]].
Proof.
  set (c := Circuit (Dims 2 2 true) 2 0 false [] [NClassical set_values [5%R] [1]; NClassical set_values [7%R] [0]]).
  exists (Externals (fun _ _ _ => None) (fun _ _ _ => None)), (fun _ => 0), c,
    (coll_of c [([97], initialized_state (Dims 2 2 true) 2)]).
  eexists; eexists. split; [reflexivity|]. split; [reflexivity|]. split; reflexivity.
Qed.

(** The claim for every threshold is false: between two calls components below the threshold are
    dropped, within one call they are not. For every threshold in (0,1) there is a circuit with
    two mutually inverse gates and a single-photon state for which one call returns the state
    unchanged and two calls do not. *)
Lemma full_matrix_one_photon A :
  let D := Dims 2 2 true in let F := full_matrix D A [0;1] in
  F 1 1 = m00 A /\ F 2 1 = m01 A /\ F 1 2 = m10 A /\ F 2 2 = m11 A /\
  (forall i, (i = 0 \/ i = 3) -> F i 1 = RtoC 0 /\ F i 2 = RtoC 0 /\ F 1 i = RtoC 0 /\ F 2 i = RtoC 0).
Proof.
  intros D F.
  assert (V : forall a b, a < 2 -> b < 2 -> valid D [a;b]).
  { intros a b Ha Hb. split; [reflexivity|]. constructor; [exact Ha|]. constructor; [exact Hb|constructor]. }
  assert (G : forall a b a' b', a < 2 -> b < 2 -> a' < 2 -> b' < 2 ->
     F (index_of_values D [a;b]) (index_of_values D [a';b']) = gate_amp 2 A a b a' b').
  { intros. unfold F. rewrite (full_matrix_tuples D A 0 1 []); [reflexivity|cbn; lia|cbn; lia|apply Permutation_refl|auto|auto]. }
  destruct (gate_one_photon 2 A ltac:(lia)) as (E1 & E2 & E3 & E4).
  pose proof (G 1 0 1 0 ltac:(lia) ltac:(lia) ltac:(lia) ltac:(lia)) as G1.
  pose proof (G 0 1 1 0 ltac:(lia) ltac:(lia) ltac:(lia) ltac:(lia)) as G2.
  pose proof (G 1 0 0 1 ltac:(lia) ltac:(lia) ltac:(lia) ltac:(lia)) as G3.
  pose proof (G 0 1 0 1 ltac:(lia) ltac:(lia) ltac:(lia) ltac:(lia)) as G4.
  change (index_of_values D [1;0]) with 1 in *. change (index_of_values D [0;1]) with 2 in *.
  split; [rewrite G1; exact E1|]. split; [rewrite G2; exact E3|]. split; [rewrite G3; exact E2|]. split; [rewrite G4; exact E4|].
  intros i [-> | ->].
  - split; [|split; [|split]];
    [change (F 0 1) with (F (index_of_values D [0;0]) (index_of_values D [1;0]))
    |change (F 0 2) with (F (index_of_values D [0;0]) (index_of_values D [0;1]))
    |change (F 1 0) with (F (index_of_values D [1;0]) (index_of_values D [0;0]))
    |change (F 2 0) with (F (index_of_values D [0;1]) (index_of_values D [0;0]))]; rewrite G by lia; apply gate_amp_zero; lia.
  - split; [|split; [|split]];
    [change (F 3 1) with (F (index_of_values D [1;1]) (index_of_values D [1;0]))
    |change (F 3 2) with (F (index_of_values D [1;1]) (index_of_values D [0;1]))
    |change (F 1 3) with (F (index_of_values D [1;0]) (index_of_values D [1;1]))
    |change (F 2 3) with (F (index_of_values D [0;1]) (index_of_values D [1;1]))]; rewrite G by lia; apply gate_amp_zero; lia.
Qed.

Definition one_photon : state := State [] 1 [([1;0], (RtoC 1, 1%R))] [] [] [].
Lemma one_photon_wf : wf_state (Dims 2 2 true) one_photon.
Proof.
  split; [repeat constructor; intros []|]. intros nm [<-|[]]. exists [1;0].
  split; [split; [reflexivity|repeat constructor]|reflexivity].
Qed.
Lemma one_photon_vector i : i < 4 -> state_vector (Dims 2 2 true) one_photon i = if i =? 1 then RtoC 1 else RtoC 0.
Proof. intros Hi. destruct i as [|[|[|[|i]]]]; try lia; reflexivity. Qed.

Lemma mat_vec4 M v i : mat_vec 4 M v i = (M i 0 * v 0 + M i 1 * v 1 + M i 2 * v 2 + M i 3 * v 3)%C.
Proof. unfold mat_vec. cbn [seq Csum fold_right]. unfold Csum. cbn [fold_right]. ring. Qed.

Theorem C19_threshold_refuted : forall eps, (0 < eps < 1)%R ->
  exists X rnd c cs cs12 cs1 cs2,
    wf_circuit c /\ wf_items (c_D c) (co_items cs) /\ c_eps c = eps /\
    evaluate_nodes X rnd c [0; 1] cs = Ok cs12 /\
    evaluate_nodes X rnd c [0] cs = Ok cs1 /\ evaluate_nodes X rnd c [1] cs1 = Ok cs2 /\
    map (fun it => amp_of (c_D c) (snd it) [1; 0]) (co_items cs12) = [RtoC 1] /\
    map (fun it => amp_of (c_D c) (snd it) [1; 0]) (co_items cs2) <> [RtoC 1].
Proof.
  intros eps Heps.
  set (x := sqrt (eps * (1 - eps) / 2)).
  assert (Hq : (0 < eps * (1 - eps) / 2 < 1)%R) by nra.
  assert (Hx2 : (x * x = eps * (1 - eps) / 2)%R) by (apply sqrt_sqrt; lra).
  assert (Hx : (0 < x)%R) by (apply sqrt_lt_R0; lra).
  assert (Hx1 : (-1 <= x <= 1)%R) by nra.
  set (t := (asin x / 2)%R).
  assert (Hs : sin (2 * t) = x) by (unfold t; replace (2 * (asin x / 2))%R with (asin x) by lra; now apply sin_asin).
  assert (Hc2 : (cos (2 * t) * cos (2 * t) = 1 - x * x)%R).
  { pose proof (sin2_cos2 (2 * t)) as H. unfold Rsqr in H. rewrite Hs in H. lra. }
  set (k := cos (2 * t)) in *.
  set (A := generic_matrix t PI).
  assert (EA : A = Mat2 (RtoC k) (RtoC x) (RtoC x) (RtoC (- k))) by (unfold A; rewrite generic_pi, Hs; reflexivity).
  set (D := Dims 2 2 true).
  set (c := Circuit D 0 eps false (fresh_keys D) [NOptical A [0;1]; NOptical A [0;1]]).
  set (cs := coll_of c [([97], one_photon)]).
  set (X := Externals (fun _ _ _ => None) (fun _ _ _ => None)). set (rnd := fun _ : nat => 0).
  assert (Hwc : wf_circuit c).
  { split; [cbn; lia|]. split; [cbn; lia|]. split; [reflexivity|]. repeat constructor; apply Permutation_refl. }
  assert (Hw : wf_items D (co_items cs)).
  { split; [repeat constructor; intros []|]. apply Forall_cons; [|apply Forall_nil]. split; [apply one_photon_wf|discriminate]. }
  destruct (full_matrix_one_photon A) as (F11 & F21 & F12 & F22 & F0). fold D in F11, F21, F12, F22, F0.
  set (F := full_matrix D A [0;1]) in *.
  rewrite EA in F11, F21, F12, F22. cbn [m00 m01 m10 m11] in *.
  destruct (F0 0 (or_introl eq_refl)) as (F01 & F02 & F10 & F20).
  destruct (F0 3 (or_intror eq_refl)) as (F31 & F32 & F13 & F23).
  (* the checks *)
  assert (Hck : forall st, s_cum st = 1%R -> s_classical st = [] ->
     (forall nm a p, In (nm, (a, p)) (s_comps st) -> (0 <= p <= 1)%R) -> check_state eps 0 st = true).
  { intros st H1 H2 H3. unfold check_state. rewrite H1, H2. unfold Rltb.
    destruct (Rlt_dec 1 (- eps)); [lra|]. destruct (Rlt_dec eps (1 - 1)); [lra|]. cbn [negb andb length Nat.eqb]. rewrite andb_true_r.
    apply forallb_forall. intros [nm [a p]] Hin. specialize (H3 _ _ _ Hin). cbn [snd].
    destruct (Rlt_dec p (-1 * eps)); [lra|]. destruct (Rlt_dec (1 + eps) p); [lra|reflexivity]. }
  assert (Hck0 : check_state eps 0 one_photon = true).
  { apply Hck; auto. intros nm a p [H|[]]. injection H as _ _ <-. lra. }
  assert (HU : unitary_mat 4 F).
  { apply (full_matrix_unitary D A [0;1]); [cbn; lia|cbn; lia|apply Permutation_refl|apply generic_unitary]. }
  set (nd := ONode A [0;1]).
  set (st1 := optical_step D eps [nd] one_photon).
  assert (Hw1 : wf_state D st1) by (apply components_wf; cbn; lia).
  (* the vector after one node *)
  assert (Hv1 : forall i, i < 4 -> mat_vec 4 F (state_vector D one_photon) i = F i 1).
  { intros i Hi. rewrite mat_vec4, !one_photon_vector by lia. cbn [Nat.eqb]. ring. }
  assert (N1 : Cnorm2 (F 1 1) = (1 - x * x)%R) by (rewrite F11, Cnorm2_RtoC; exact Hc2).
  assert (N2 : Cnorm2 (F 2 1) = (x * x)%R) by (rewrite F21; apply Cnorm2_RtoC).
  assert (Hst1 : forall i, i < 4 -> state_vector D st1 i = if i =? 1 then RtoC k else RtoC 0).
  { intros i Hi. rewrite state_vector_spec; [|cbn; lia|auto|exact Hi]. unfold st1, optical_step.
    rewrite components_amplitude; [|cbn; lia|exact Hi].
    change (nodes_matrix D [nd]) with F. change (size_of_basis D) with 4. rewrite Hv1 by auto.
    destruct i as [|[|[|[|i]]]]; try lia; cbn [Nat.eqb].
    - rewrite F01, Cnorm2_zero. destruct (Rlt_dec 0 eps); [reflexivity|lra].
    - rewrite N1. destruct (Rlt_dec _ _); [exfalso; nra|exact F11].
    - rewrite N2. destruct (Rlt_dec _ _); [reflexivity|exfalso; nra].
    - rewrite F31, Cnorm2_zero. destruct (Rlt_dec 0 eps); [reflexivity|lra]. }
  assert (Hne1 : s_comps st1 <> []).
  { intros E. assert (H : state_vector D st1 1 = RtoC 0) by (unfold state_vector; rewrite E; reflexivity).
    rewrite Hst1 in H by lia. cbn [Nat.eqb] in H. injection H as H. rewrite H in Hc2. nra. }
  assert (Hck1 : check_state eps 0 st1 = true).
  { apply Hck; auto. intros nm a p Hin. apply (from_vec_in D eps _ (seq 0 (size_of_basis D))) in Hin.
    destruct Hin as (i & Hi & _ & -> & -> & _). apply in_seq in Hi. change (nodes_matrix D [nd]) with F. change (size_of_basis D) with 4 in *.
    rewrite Hv1 by lia. destruct i as [|[|[|[|i]]]]; try lia.
    - rewrite F01, Cnorm2_zero. lra.
    - rewrite N1. nra.
    - rewrite N2. nra.
    - rewrite F31, Cnorm2_zero. lra. }
  assert (Hk : forall ks, (forall j, In j ks -> j = 0 \/ j = 1) -> forall j, In j ks -> j < length (c_nodes c) /\ is_optical (node_at c j) = true).
  { intros ks H j Hj. destruct (H j Hj) as [-> | ->]; split; cbn; auto; lia. }
  assert (R12 : run_optical c [0;1] cs = Some (coll_of c [([97], optical_step D eps [nd; nd] one_photon)])).
  { rewrite run_optical_spec; auto; [discriminate|apply Hk; cbn; intuition|]. apply Forall_cons; [exact Hck0|apply Forall_nil]. }
  assert (R1 : run_optical c [0] cs = Some (coll_of c [([97], st1)])).
  { rewrite run_optical_spec; auto; [discriminate|apply Hk; cbn; intuition|]. apply Forall_cons; [exact Hck0|apply Forall_nil]. }
  assert (R2 : run_optical c [1] (coll_of c [([97], st1)]) = Some (coll_of c [([97], optical_step D eps [nd] st1)])).
  { rewrite run_optical_spec; auto; [|discriminate| |].
    - split; [repeat constructor; intros []|]. apply Forall_cons; [split; auto|apply Forall_nil].
    - apply Hk. cbn. intuition.
    - apply Forall_cons; [exact Hck1|apply Forall_nil]. }
  assert (E12 : evaluate_nodes X rnd c [0;1] cs = Ok (coll_of c [([97], optical_step D eps [nd; nd] one_photon)])).
  { unfold evaluate_nodes. rewrite evaluate_from_evalR, evalR_unfold. cbv zeta.
    change (optical_prefix c [0;1]) with [0;1]. change (node_at c 0) with (NOptical A [0;1]). cbv iota.
    rewrite R12. cbn [negb forallb Nat.ltb Nat.leb length c_nodes andb list_max fold_right Nat.max]. change (list_max [0;1] <=? list_max [0;1]) with true.
    cbn [andb negb]. now rewrite evalR_nil. }
  assert (E1 : evaluate_nodes X rnd c [0] cs = Ok (coll_of c [([97], st1)])).
  { unfold evaluate_nodes. rewrite evaluate_from_evalR, evalR_single_optical by (cbn; auto; lia). now rewrite R1. }
  assert (E2 : evaluate_nodes X rnd c [1] (coll_of c [([97], st1)]) = Ok (coll_of c [([97], optical_step D eps [nd] st1)])).
  { unfold evaluate_nodes. rewrite evaluate_from_evalR, evalR_single_optical by (cbn; auto; lia). now rewrite R2. }
  exists X, rnd, c, cs, (coll_of c [([97], optical_step D eps [nd; nd] one_photon)]), (coll_of c [([97], st1)]), (coll_of c [([97], optical_step D eps [nd] st1)]).
  split; [exact Hwc|]. split; [exact Hw|]. split; [reflexivity|]. split; [exact E12|]. split; [exact E1|]. split; [exact E2|].
  cbn [coll_of co_items map snd c_D]. change (c_D c) with D.
  assert (Eat : name_string D [1;0] = at_index D 1) by reflexivity.
  split.
  - f_equal. unfold amp_of. rewrite Eat. unfold optical_step. rewrite components_amplitude by (cbn; lia).
    assert (Ez : mat_vec (size_of_basis D) (nodes_matrix D [nd; nd]) (state_vector D one_photon) 1 = RtoC 1).
    { change (size_of_basis D) with 4. change (nodes_matrix D [nd;nd]) with (mat_mul 4 F F). rewrite mat_mul_vec.
      rewrite mat_vec4. rewrite !Hv1 by lia. rewrite F11, F12, F21, F10, F13, F01, F31.
      apply C_eq; simpl; [|ring]. nra. }
    rewrite Ez. rewrite Cnorm2_RtoC. destruct (Rlt_dec _ _); [lra|reflexivity].
  - intros E. injection E as E. unfold amp_of in E. rewrite Eat in E. unfold optical_step in E. rewrite components_amplitude in E by (cbn; lia).
    assert (Ez : mat_vec (size_of_basis D) (nodes_matrix D [nd]) (state_vector D st1) 1 = RtoC (k * k)).
    { change (size_of_basis D) with 4. change (nodes_matrix D [nd]) with F. rewrite mat_vec4, !Hst1 by lia. cbn [Nat.eqb].
      rewrite F11. rewrite RtoC_mult. ring. }
    rewrite Ez in E. destruct (Rlt_dec _ _).
    + injection E as E. lra.
    + injection E as E. nra.
Qed.

(** ** C24 *)
Lemma option_list_all {A B} (g : A -> option B) h l :
  (forall x, In x l -> g x = Some (h x)) -> option_list (map g l) = Some (map h l).
Proof.
  induction l as [|x l IH]; intros H; [reflexivity|]. cbn [map option_list]. rewrite H by now left.
  rewrite IH by (intros; apply H; now right). reflexivity.
Qed.
Lemma option_list_raises {A B} (g : A -> option B) l x : In x l -> g x = None -> option_list (map g l) = None.
Proof.
  induction l as [|y l IH]; intros Hin E; [destruct Hin|]. cbn [map option_list]. destruct Hin as [->|Hin]; [now rewrite E|].
  destruct (g y); [|reflexivity]. now rewrite IH.
Qed.

(** A classical node replaces, in every state, the list of classical values by the function of
    that state's own list (and of the two lists stored in the node); identifiers, order, shape
    and everything else in the states stay. It raises exactly when the function returns a list
    of the wrong length for some state. *)
Theorem C24_classical_function : forall X rnd c k f nv chs cs,
  k < length (c_nodes c) -> node_at c k = NClassical f nv chs ->
  let new st := State (s_init st) (s_cum st) (s_comps st) (f (s_classical st) nv chs) (s_results st) (s_aux st) in
  ((forall i st, In (i, st) (co_items cs) -> length (f (s_classical st) nv chs) = c_ncl c) ->
     evaluate_nodes X rnd c [k] cs
     = Ok (Coll (co_D cs) (co_ncl cs) (co_eps cs) (map (fun it => (fst it, new (snd it))) (co_items cs)))) /\
  ((exists i st, In (i, st) (co_items cs) /\ length (f (s_classical st) nv chs) <> c_ncl c) ->
     evaluate_nodes X rnd c [k] cs = Raise).
Proof.
  intros X rnd c k f nv chs cs Hk En new. rewrite evaluate_single by (rewrite ?En; auto).
  unfold run_node. rewrite En. unfold classical_items. split.
  - intros H. rewrite (option_list_all _ (fun it => (fst it, new (snd it)))); [reflexivity|].
    intros [i st] Hin. cbn [fst snd]. cbv zeta. now rewrite (H i st Hin), Nat.eqb_refl.
  - intros (i & st & Hin & Hl). rewrite (option_list_raises _ _ (i, st)); auto.
    cbn [fst snd]. cbv zeta. destruct (Nat.eqb_spec (length (f (s_classical st) nv chs)) (c_ncl c)); [contradiction|reflexivity].
Qed.

(** set_classical_channels writes exactly the listed values. *)
Lemma set_values_length old nv chs : length (set_values old nv chs) = length old.
Proof.
  unfold set_values. revert old. generalize (combine chs nv). induction l as [|x l IH]; intros old; [reflexivity|].
  cbn [fold_left]. rewrite IH. apply set_nth_length.
Qed.
Lemma set_values_nth : forall chs nv old, NoDup chs -> (forall c, In c chs -> c < length old) -> length nv = length chs ->
  (forall i, i < length chs -> nth (nth i chs 0) (set_values old nv chs) 0%R = nth i nv 0%R) /\
  (forall c, ~ In c chs -> nth c (set_values old nv chs) 0%R = nth c old 0%R).
Proof.
  unfold set_values. induction chs as [|a chs IH]; intros [|x nv] old ND Hr Hl; try discriminate.
  - split; [cbn [length]; lia|auto].
  - inversion ND; subst. cbn [combine fold_left fst snd].
    destruct (IH nv (set_nth old a x)) as [A B]; auto.
    { intros c Hc. rewrite set_nth_length. apply Hr. now right. }
    split.
    + intros [|i] Hi; cbn [nth length] in *.
      * rewrite B by auto. rewrite nth_set_nth_R, Nat.eqb_refl.
        rewrite (proj2 (Nat.ltb_lt _ _)) by (apply Hr; now left). reflexivity.
      * apply A; lia.
    + intros c Hc. rewrite B by (intros H; apply Hc; now right). rewrite nth_set_nth_R.
      destruct (Nat.eqb_spec c a); [subst; exfalso; apply Hc; now left|reflexivity].
Qed.

Theorem C24_set_classical_channels : forall X rnd c k vals chs nd cs,
  k < length (c_nodes c) -> set_classical_channels (c_ncl c) vals chs = Some nd -> node_at c k = nd -> NoDup chs ->
  Forall (fun it => length (s_classical (snd it)) = c_ncl c) (co_items cs) ->
  exists cs', evaluate_nodes X rnd c [k] cs = Ok cs' /\
    Forall2 (fun it new => fst new = fst it /\ s_init (snd new) = s_init (snd it) /\ s_cum (snd new) = s_cum (snd it) /\
      s_comps (snd new) = s_comps (snd it) /\ s_results (snd new) = s_results (snd it) /\ s_aux (snd new) = s_aux (snd it) /\
      length (s_classical (snd new)) = c_ncl c /\
      (forall i, i < length chs -> nth (nth i chs 0) (s_classical (snd new)) 0%R = nth i vals 0%R) /\
      (forall ch, ~ In ch chs -> nth ch (s_classical (snd new)) 0%R = nth ch (s_classical (snd it)) 0%R))
      (co_items cs) (co_items cs').
Proof.
  intros X rnd c k vals chs nd cs Hk Hb En ND HF.
  assert (Hlen : length vals = length chs /\ (forall ch, In ch chs -> ch < c_ncl c) /\ nd = NClassical set_values vals chs).
  { unfold set_classical_channels in Hb. destruct chs as [|a r]; [discriminate|].
    destruct (Nat.eqb_spec (length vals) (length (a :: r))) as [El|]; [|discriminate]. cbn [andb] in Hb.
    destruct (forallb _ (a :: r)) eqn:Ef; [|discriminate]. injection Hb as <-. rewrite forallb_forall in Ef.
    split; auto. split; auto. intros ch Hch. apply Nat.ltb_lt. auto. }
  destruct Hlen as (Hl & Hch & ->).
  destruct (C24_classical_function X rnd c k set_values vals chs cs Hk En) as [H _]. cbv zeta in H.
  rewrite H.
  2:{ intros i st Hin. rewrite set_values_length. rewrite Forall_forall in HF. exact (HF _ Hin). }
  eexists. split; [reflexivity|]. cbn [co_items].
  clear - HF Hl Hch ND. induction (co_items cs) as [|[i st] its IH]; [constructor|]. inversion HF as [|? ? H1 HF']; subst. cbn [snd] in H1.
  cbn [map]. constructor; [|now apply IH]. cbn [fst snd s_init s_cum s_comps s_results s_aux s_classical].
  do 6 (split; [reflexivity|]). split; [now rewrite set_values_length|].
  apply set_values_nth; auto. intros ch H. rewrite H1. auto.
Qed.

Example C24_case : set_classical_channels 3 [5%R; 6%R] [2; 0] = Some (NClassical set_values [5%R; 6%R] [2; 0]) /\
  set_values [1%R; 2%R; 3%R] [5%R; 6%R] [2; 0] = [6%R; 2%R; 5%R].
Proof. split; reflexivity. Qed.

(** ** C27 *)
(** The gate a controlled node uses for given classical values. *)
Definition last_setting (b : bool) (vars : list (bool * nat)) (default : R) (classical : list R) : R :=
  fold_left (fun d v => if Bool.eqb (fst v) b then nth (snd v) classical 0%R else d) vars default.

Lemma controlled_angles_spec t p vars cl :
  controlled_angles t p vars cl =
  if forallb (fun v : bool * nat => snd v <? length cl) vars
  then Some (last_setting true vars t cl, last_setting false vars p cl) else None.
Proof.
  unfold controlled_angles, last_setting. revert t p. induction vars as [|[b ch] vars IH]; intros t p; [reflexivity|].
  cbn [fold_left forallb snd fst]. destruct (nth_error cl ch) as [x|] eqn:E.
  - assert (Hx : nth ch cl 0%R = x) by now apply nth_error_nth. rewrite Hx.
    assert (Hlt : ch < length cl) by (apply nth_error_Some; congruence). rewrite (proj2 (Nat.ltb_lt _ _) Hlt). cbn [andb].
    destruct b; cbn [Bool.eqb]; apply IH.
  - apply nth_error_None in E. assert (Hlt : ch <? length cl = false) by (apply Nat.ltb_ge; lia). rewrite Hlt. cbn [andb].
    clear IH. induction vars as [|v vars IH]; [reflexivity|]. cbn [fold_left]. exact IH.
Qed.

(** The circuit with the shape of [c] and the single optical gate with angles [theta], [phi]. *)
Definition with_gate (c : circuit) (theta phi : R) (tl : list nat) : circuit :=
  Circuit (c_D c) (c_ncl c) (c_eps c) (c_full c) (c_keys c) [NOptical (generic_matrix theta phi) tl].

Lemma evaluate_one_gate X rnd c t p tl it :
  wf_circuit c -> Permutation tl (seq 0 (dN (c_D c))) -> wf_items (c_D c) [it] ->
  check_state (c_eps c) (c_ncl c) (snd it) = true ->
  evaluate_circuit X rnd (with_gate c t p tl) (coll_of c [it])
  = Ok (coll_of c [(fst it, optical_step (c_D c) (c_eps c) [ONode (generic_matrix t p) tl] (snd it))]).
Proof.
  intros (HL & HN & HK & _) HP Hw Hck. unfold evaluate_circuit, evaluate_nodes.
  rewrite evaluate_from_evalR. cbn [length c_nodes with_gate seq].
  rewrite evalR_single_optical; [|cbn; lia|reflexivity].
  rewrite run_optical_spec; [reflexivity| |exact Hw|discriminate| |].
  - split; [exact HL|]. split; [exact HN|]. split; [exact HK|]. constructor; [exact HP|constructor].
  - intros k [<-|[]]. split; [cbn; lia|reflexivity].
  - constructor; [exact Hck|constructor].
Qed.

(** Every state of the result has the identifier of a state of the input and is what the plain
    gate, with the angles taken from the classical values of that one state, makes of that
    state alone. *)
Theorem C27_per_state : forall X rnd c k t p vars tl cs cs',
  wf_circuit c -> k < length (c_nodes c) -> node_at c k = NControlled t p vars tl ->
  wf_items (c_D c) (co_items cs) -> evaluate_nodes X rnd c [k] cs = Ok cs' ->
  Forall2 (fun it new =>
      fst new = fst it /\
      evaluate_circuit X rnd (with_gate c (last_setting true vars t (s_classical (snd it)))
                                          (last_setting false vars p (s_classical (snd it))) tl)
        (coll_of c [it]) = Ok (coll_of c [new])) (co_items cs) (co_items cs').
Proof.
  intros X rnd c k t p vars tl cs cs' Hc Hk En Hw E. pose proof Hc as (HL & HN & HK & Hnodes).
  assert (HP : Permutation tl (seq 0 (dN (c_D c)))).
  { rewrite Forall_forall in Hnodes. specialize (Hnodes _ (node_at_in c k Hk)). rewrite En in Hnodes. exact Hnodes. }
  rewrite evaluate_single in E by (rewrite ?En; auto). unfold run_node in E. rewrite En in E.
  destruct (controlled_items c t p vars tl (co_items cs)) as [out|] eqn:Eo; [|discriminate]. injection E as <-.
  apply controlled_items_inv in Eo; auto. destruct Eo as (angles & HA & ->). cbn [coll_of co_items].
  destruct Hw as [_ HF]. revert HF. induction HA as [|it a its angles [Ha Hck] HA IH]; intros HF; [constructor|].
  inversion HF as [|? ? Hit HF']; subst. cbn [combine map fst snd]. constructor; [|now apply IH]. split; [reflexivity|].
  rewrite controlled_angles_spec in Ha. destruct (forallb _ vars); [|discriminate]. injection Ha as <-. cbn [fst snd].
  rewrite evaluate_one_gate; auto. split; [repeat constructor; intros []|constructor; auto].
Qed.

Lemma Forall2_impl {A B} (R R' : A -> B -> Prop) l l' :
  (forall a b, R a b -> R' a b) -> Forall2 R l l' -> Forall2 R' l l'.
Proof. intros H. induction 1; constructor; auto. Qed.

(** It does not raise when the states are valid and the control channels exist. (The methods
    accept a control channel equal to the number of channels; evaluation then raises.) *)
Theorem C27_does_not_raise : forall X rnd c k t p vars tl cs,
  wf_circuit c -> k < length (c_nodes c) -> node_at c k = NControlled t p vars tl ->
  wf_items (c_D c) (co_items cs) ->
  Forall (fun it => check_state (c_eps c) (c_ncl c) (snd it) = true) (co_items cs) ->
  (forall v, In v vars -> snd v < c_ncl c) ->
  exists cs', evaluate_nodes X rnd c [k] cs = Ok cs'.
Proof.
  intros X rnd c k t p vars tl cs Hc Hk En [ND HF] Hck Hv. pose proof Hc as (HL & HN & HK & Hnodes).
  assert (HP : Permutation tl (seq 0 (dN (c_D c)))).
  { rewrite Forall_forall in Hnodes. specialize (Hnodes _ (node_at_in c k Hk)). rewrite En in Hnodes. exact Hnodes. }
  rewrite evaluate_single by (rewrite ?En; auto). unfold run_node. rewrite En.
  assert (H : exists out, controlled_items c t p vars tl (co_items cs) = Some out); [|destruct H as [out ->]; eexists; reflexivity].
  unfold controlled_items. set (stepf := fun _ _ => _). clear ND.
  assert (G : forall acc, exists out, fold_left stepf (co_items cs) (Some acc) = Some out); [|apply G].
  induction (co_items cs) as [|[i st] its IH]; intros acc; [eexists; reflexivity|].
  inversion HF as [|? ? [Hw Hne] HF']; subst. inversion Hck as [|? ? H1 H2]; subst. cbn [snd] in *.
  cbn [fold_left]. unfold stepf at 2. cbn [snd]. rewrite controlled_angles_spec.
  assert (Hall : forallb (fun v : bool * nat => snd v <? length (s_classical st)) vars = true).
  { apply forallb_forall. intros v Hin. apply Nat.ltb_lt.
    unfold check_state in H1. apply andb_true_iff in H1. destruct H1 as [_ H1]. apply Nat.eqb_eq in H1. rewrite H1. auto. }
  rewrite Hall. rewrite HK, fresh_keys_all, apply_optical_spec; auto.
  - constructor; [exact HP|constructor].
  - discriminate.
  - repeat constructor. intros [].
Qed.

(** For the two methods that build controlled nodes: the same as the corresponding plain node
    with the angles of the state's classical channels. *)
Theorem C27_phase_shift : forall X rnd c k ch cl nd cs cs',
  wf_circuit c -> k < length (c_nodes c) ->
  phase_shift_classical_control (dN (c_D c)) (c_ncl c) ch cl = Some nd -> node_at c k = nd ->
  wf_items (c_D c) (co_items cs) -> evaluate_nodes X rnd c [k] cs = Ok cs' ->
  Forall2 (fun it new => fst new = fst it /\
      exists gs c1, gates_of (dN (c_D c)) (Phase_shift ch (nth cl (s_classical (snd it)) 0%R)) = Some gs /\
        optical_circuit (c_D c) (c_ncl c) (c_eps c) (c_full c) gs = Some c1 /\
        evaluate_circuit X rnd c1 (coll_of c [it]) = Ok (coll_of c [new])) (co_items cs) (co_items cs').
Proof.
  intros X rnd c k ch cl nd cs cs' Hc Hk Hb En Hw E. unfold phase_shift_classical_control in Hb.
  destruct (_ || _); [discriminate|].
  destruct (tensor_list_of (dN (c_D c)) (if ch =? 0 then [1; 0] else [0; ch])) as [tl|] eqn:Et; [|discriminate]. cbn [option_map] in Hb. injection Hb as Hb. rewrite <- Hb in En. clear Hb.
  pose proof (C27_per_state X rnd c k _ _ _ _ cs cs' Hc Hk En Hw E) as H.
  eapply Forall2_impl; [|exact H]. intros it new [H1 H2]. split; auto.
  eexists. eexists. split; [reflexivity|]. split.
  - unfold optical_circuit. cbn [place]. rewrite Et. cbn [option_map]. reflexivity.
  - cbn [map on_matrix on_tl]. destruct Hc as (_ & _ & HK & _). rewrite <- HK. exact H2.
Qed.

Theorem C27_wave_plate : forall X rnd c k h v c_theta c_phi nd cs cs',
  wf_circuit c -> k < length (c_nodes c) ->
  wave_plate_classical_control (dN (c_D c)) (c_ncl c) h v c_theta c_phi = Some nd -> node_at c k = nd ->
  wf_items (c_D c) (co_items cs) -> evaluate_nodes X rnd c [k] cs = Ok cs' ->
  Forall2 (fun it new => fst new = fst it /\
      exists gs c1, gates_of (dN (c_D c)) (Wave_plate h v (nth c_theta (s_classical (snd it)) 0%R) (nth c_phi (s_classical (snd it)) 0%R)) = Some gs /\
        optical_circuit (c_D c) (c_ncl c) (c_eps c) (c_full c) gs = Some c1 /\
        evaluate_circuit X rnd c1 (coll_of c [it]) = Ok (coll_of c [new])) (co_items cs) (co_items cs').
Proof.
  intros X rnd c k h v ct cp nd cs cs' Hc Hk Hb En Hw E. unfold wave_plate_classical_control in Hb.
  destruct (_ || _); [discriminate|].
  destruct (tensor_list_of (dN (c_D c)) [h; v]) as [tl|] eqn:Et; [|discriminate]. cbn [option_map] in Hb. injection Hb as Hb. rewrite <- Hb in En. clear Hb.
  pose proof (C27_per_state X rnd c k _ _ _ _ cs cs' Hc Hk En Hw E) as H.
  eapply Forall2_impl; [|exact H]. intros it new [H1 H2]. split; auto.
  eexists. eexists. split; [reflexivity|]. split.
  - unfold optical_circuit. cbn [place]. rewrite Et. cbn [option_map]. reflexivity.
  - cbn [map on_matrix on_tl]. destruct Hc as (_ & _ & HK & _). rewrite <- HK. exact H2.
Qed.

Example C27_case : exists nd, phase_shift_classical_control 2 1 1 0 = Some nd /\
  let c := Circuit (Dims 2 2 true) 1 (/ 10000000000) false (fresh_keys (Dims 2 2 true)) [nd] in
  wf_circuit c /\ wf_items (c_D c) [([97], bell); ([98], initialized_state (Dims 2 2 true) 1)] /\
  exists cs', evaluate_nodes (Externals (fun _ _ _ => None) (fun _ _ _ => None)) (fun _ => 0) c [0]
     (coll_of c [([97], bell); ([98], initialized_state (Dims 2 2 true) 1)]) = Ok cs'.
Proof.
  eexists. split; [reflexivity|]. intros c.
  assert (Hc : wf_circuit c).
  { split; [cbn; lia|]. split; [cbn; lia|]. split; [reflexivity|]. constructor; [apply Permutation_refl|constructor]. }
  assert (Hw : wf_items (c_D c) [([97], bell); ([98], initialized_state (Dims 2 2 true) 1)]).
  { split; [repeat constructor; cbn; intuition discriminate|].
    apply Forall_cons; [split; [apply C16_case|discriminate]|]. apply Forall_cons; [split; [|discriminate]|apply Forall_nil].
    split; [repeat constructor; intros []|]. intros nm [<-|[]]. exists [0;0]. split; [split; [reflexivity|repeat constructor]|reflexivity]. }
  split; [exact Hc|]. split; [exact Hw|].
  eapply C27_does_not_raise; [exact Hc|cbn; lia|reflexivity|exact Hw| |intros v [<-|[]]; cbn; lia].
  apply Forall_cons; [|apply Forall_cons; [|apply Forall_nil]];
    cbn [snd]; unfold check_state, bell, initialized_state, Rltb; cbn [s_cum s_comps s_classical forallb snd length Nat.eqb c_eps c_ncl c repeat];
    repeat (destruct (Rlt_dec _ _); [exfalso; lra|]); reflexivity.
Qed.
