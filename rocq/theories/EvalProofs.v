From Coq Require Import Reals List Arith Lia Lra Bool Permutation Sorted.
From Coquelicot Require Import Complex.
From Verif Require Import Prelude NamesModel NamesSpec NamesProofs FockModel FockSpec FockProofs GateProofs
  OpticalModel StateModel StateSpec StateProofs ApplyProofs CollectionModel EvalModel EvalSpec.
Import ListNotations.

(** ** Fuel *)
Definition bridge_sizes (nodes : list node) : nat :=
  (fix go (l : list node) : nat :=
         match l with
         | [] => 0
         | NBridge next :: r => size_of_circuit next + go r
         | _ :: r => go r
         end) nodes.

Lemma size_of_circuit_eq c : size_of_circuit c = S (length (c_nodes c)) + bridge_sizes (c_nodes c).
Proof. destruct c. reflexivity. Qed.

Lemma bridge_size_in nodes next : In (NBridge next) nodes -> size_of_circuit next <= bridge_sizes nodes.
Proof.
  induction nodes as [|nd r IH]; [intros []|]. intros [->|H].
  - cbn [bridge_sizes]. fold (bridge_sizes r). lia.
  - specialize (IH H). destruct nd; cbn [bridge_sizes]; fold (bridge_sizes r); try exact IH. lia.
Qed.

Lemma optical_prefix_length c inds : length (optical_prefix c inds) <= length inds.
Proof. induction inds as [|k r IH]; cbn [optical_prefix length]; [lia|]. destruct (is_optical _); cbn [length]; lia. Qed.

Lemma node_at_in c k : k < length (c_nodes c) -> In (node_at c k) (c_nodes c).
Proof. intros. now apply nth_In. Qed.

Lemma eval_fuel fuel : forall X rnd c inds cs seed,
  S (length inds) + bridge_sizes (c_nodes c) <= fuel -> eval fuel X rnd c inds cs seed <> OutOfFuel.
Proof.
  induction fuel as [|fuel IH]; intros X rnd c inds cs seed Hf; [lia|].
  cbn [eval]. destruct inds as [|k r]; [discriminate|].
  destruct (negb _) eqn:Eb; [discriminate|].
  assert (Hk : k < length (c_nodes c)).
  { apply negb_false_iff in Eb. cbn [forallb] in Eb. apply andb_true_iff in Eb. apply Nat.ltb_lt. tauto. }
  pose proof (node_at_in c k Hk) as Hin.
  destruct (node_at c k) eqn:Ek.
  1:{ destruct (run_optical _ _ _); [|discriminate]. apply IH. destruct (_ <=? _); cbn [length] in *.
      - lia.
      - rewrite skipn_length. cbn [optical_prefix]. rewrite Ek. cbn [is_optical length]. lia. }
  7:{ destruct (bridge_reshape _ _ _ _ _) as [[cs' seed']|]; [|discriminate]. apply IH.
      rewrite seq_length. pose proof (bridge_size_in _ _ Hin) as Hb. rewrite size_of_circuit_eq in Hb. cbn [length] in Hf. lia. }
  all: destruct (run_node _ _ _ _ _ _) as [[cs' seed']|]; [|discriminate]; apply IH; destruct (_ <=? _); cbn [length] in *; lia.
Qed.

Lemma eval_more fuel : forall k X rnd c inds cs seed,
  eval fuel X rnd c inds cs seed <> OutOfFuel ->
  eval (fuel + k) X rnd c inds cs seed = eval fuel X rnd c inds cs seed.
Proof.
  induction fuel as [|fuel IH]; intros k X rnd c inds cs seed H; [now destruct H|].
  cbn [eval Nat.add] in *. destruct inds as [|i r]; [reflexivity|].
  destruct (negb _); [reflexivity|].
  destruct (node_at c i) eqn:E.
  1:{ destruct (run_optical _ _ _); [|reflexivity]. now apply IH. }
  7:{ destruct (bridge_reshape _ _ _ _ _) as [[cs' seed']|]; [|reflexivity]. now apply IH. }
  all: destruct (run_node _ _ _ _ _ _) as [[cs' seed']|]; [|reflexivity]; now apply IH.
Qed.

(** Evaluation with enough fuel. *)
Definition evalR (X : externals) (rnd : nat -> nat) (c : circuit) (inds : list nat) (cs : coll) (seed : nat)
  : result (coll * nat) := eval (S (length inds) + bridge_sizes (c_nodes c)) X rnd c inds cs seed.

Lemma eval_enough fuel X rnd c inds cs seed :
  S (length inds) + bridge_sizes (c_nodes c) <= fuel ->
  eval fuel X rnd c inds cs seed = evalR X rnd c inds cs seed.
Proof.
  intros H. unfold evalR. replace fuel with (S (length inds) + bridge_sizes (c_nodes c) + (fuel - (S (length inds) + bridge_sizes (c_nodes c)))) by lia.
  apply eval_more. now apply eval_fuel.
Qed.

Lemma evaluate_from_evalR X rnd c inds cs seed :
  evaluate_from X rnd c inds cs seed = evalR X rnd c inds cs seed.
Proof.
  unfold evaluate_from. apply eval_enough. rewrite size_of_circuit_eq. lia.
Qed.

(** Unfolding with enough fuel. *)
Lemma evalR_unfold X rnd c inds cs seed :
  evalR X rnd c inds cs seed =
    match inds with
    | [] => Ok (cs, seed)
    | k :: r =>
      if negb (forallb (fun i => i <? length (c_nodes c)) inds) then Raise
      else match node_at c k with
      | NOptical _ _ =>
          let ks := optical_prefix c inds in
          let rest := if list_max inds <=? list_max ks then [] else skipn (length ks) inds in
          match run_optical c ks cs with
          | None => Raise
          | Some cs' => evalR X rnd c rest cs' seed
          end
      | NBridge next =>
          match bridge_reshape rnd c next cs seed with
          | None => Raise
          | Some (cs', seed') => evalR X rnd next (seq 0 (length (c_nodes next))) cs' seed'
          end
      | _ =>
          let rest := if list_max inds <=? k then [] else r in
          match run_node X rnd c k cs seed with
          | None => Raise
          | Some (cs', seed') => evalR X rnd c rest cs' seed'
          end
      end
    end.
Proof.
  unfold evalR at 1. cbn [Nat.add eval]. destruct inds as [|k r]; [reflexivity|].
  destruct (negb _) eqn:Eb; [reflexivity|].
  assert (Hk : k < length (c_nodes c)).
  { apply negb_false_iff in Eb. cbn [forallb] in Eb. apply andb_true_iff in Eb. apply Nat.ltb_lt. tauto. }
  pose proof (node_at_in c k Hk) as Hin.
  destruct (node_at c k) eqn:Ek.
  1:{ destruct (run_optical _ _ _); [|reflexivity]. apply eval_enough. destruct (_ <=? _); cbn [length] in *.
      - lia.
      - rewrite skipn_length. cbn [optical_prefix]. rewrite Ek. cbn [is_optical length]. lia. }
  7:{ destruct (bridge_reshape _ _ _ _ _) as [[cs' seed']|]; [|reflexivity]. apply eval_enough.
      rewrite seq_length. pose proof (bridge_size_in _ _ Hin) as Hb. rewrite size_of_circuit_eq in Hb. cbn [length]. lia. }
  all: destruct (run_node _ _ _ _ _ _) as [[cs' seed']|]; [|reflexivity]; apply eval_enough; destruct (_ <=? _); cbn [length] in *; lia.
Qed.

Lemma evalR_nil X rnd c cs seed : evalR X rnd c [] cs seed = Ok (cs, seed).
Proof. now rewrite evalR_unfold. Qed.

(** ** Increasing index lists *)
Lemma list_max_app l1 l2 : list_max (l1 ++ l2) = Nat.max (list_max l1) (list_max l2).
Proof. induction l1 as [|a l1 IH]; cbn [app]; [reflexivity|]. unfold list_max in *. cbn [fold_right]. lia. Qed.
Lemma list_max_in l x : In x l -> x <= list_max l.
Proof. intros H. pose proof (list_max_le l (list_max l)) as [A _]. specialize (A (le_n _)). rewrite Forall_forall in A. auto. Qed.

Lemma sorted_head_max k r : StronglySorted lt (k :: r) -> list_max (k :: r) <= k -> r = [].
Proof.
  intros H Hm. destruct r as [|b r]; auto. inversion H; subst. inversion H3; subst.
  pose proof (list_max_in (k :: b :: r) b). cbn [In] in *. assert (b <= list_max (k :: b :: r)) by tauto. lia.
Qed.

Lemma sorted_app_max l1 l2 :
  StronglySorted lt (l1 ++ l2) -> l1 <> [] -> list_max (l1 ++ l2) <= list_max l1 -> l2 = [].
Proof.
  intros HS Hne Hm. destruct l2 as [|b l2]; auto. exfalso.
  assert (Hlt : forall a, In a l1 -> a < b).
  { clear - HS. induction l1 as [|x l1 IH]; intros a [].
    - subst. inversion HS; subst. rewrite Forall_forall in H2. apply H2. apply in_or_app. right. now left.
    - inversion HS; subst. now apply IH. }
  assert (list_max l1 < b).
  { apply list_max_lt; auto. apply Forall_forall. exact Hlt. }
  assert (b <= list_max (l1 ++ b :: l2)) by (apply list_max_in; apply in_or_app; right; now left). lia.
Qed.

Lemma optical_prefix_app c inds : exists rest, inds = optical_prefix c inds ++ rest.
Proof.
  induction inds as [|k r [rest E]]; cbn [optical_prefix]; [now exists []|].
  destruct (is_optical _); [exists rest; cbn [app]; now rewrite <- E|now exists (k :: r)].
Qed.

Lemma skipn_prefix {A} (l1 l2 : list A) : skipn (length l1) (l1 ++ l2) = l2.
Proof. rewrite skipn_app, skipn_all, Nat.sub_diag. reflexivity. Qed.

(** On an increasing list the "remaining nodes" are the rest of the list. *)
Lemma evalR_sorted X rnd c inds cs seed :
  StronglySorted lt inds ->
  evalR X rnd c inds cs seed =
    match inds with
    | [] => Ok (cs, seed)
    | k :: r =>
      if negb (forallb (fun i => i <? length (c_nodes c)) inds) then Raise
      else match node_at c k with
      | NOptical _ _ =>
          match run_optical c (optical_prefix c inds) cs with
          | None => Raise
          | Some cs' => evalR X rnd c (skipn (length (optical_prefix c inds)) inds) cs' seed
          end
      | NBridge next =>
          match bridge_reshape rnd c next cs seed with
          | None => Raise
          | Some (cs', seed') => evalR X rnd next (seq 0 (length (c_nodes next))) cs' seed'
          end
      | _ =>
          match run_node X rnd c k cs seed with
          | None => Raise
          | Some (cs', seed') => evalR X rnd c r cs' seed'
          end
      end
    end.
Proof.
  intros HS. rewrite evalR_unfold. destruct inds as [|k r]; [reflexivity|].
  destruct (negb _); [reflexivity|]. cbv zeta.
  assert (E1 : (if list_max (k :: r) <=? k then [] else r) = r).
  { destruct (Nat.leb_spec (list_max (k :: r)) k); auto. now rewrite (sorted_head_max k r HS). }
  destruct (node_at c k) eqn:Ek; rewrite ?E1; try reflexivity.
  destruct (run_optical _ _ _); [|reflexivity].
  set (ks := optical_prefix c (k :: r)).
  assert (E2 : (if list_max (k :: r) <=? list_max ks then [] else skipn (length ks) (k :: r)) = skipn (length ks) (k :: r)).
  { destruct (Nat.leb_spec (list_max (k :: r)) (list_max ks)); auto.
    destruct (optical_prefix_app c (k :: r)) as [rest E]. fold ks in E.
    rewrite E in H at 1. rewrite (sorted_app_max ks rest) in E; auto.
    - rewrite E, skipn_prefix. reflexivity.
    - now rewrite <- E.
    - unfold ks. cbn [optical_prefix]. rewrite Ek. cbn [is_optical]. discriminate. }
  now rewrite E2.
Qed.

Lemma last_cons {A} (x : A) l d : l <> [] -> last (x :: l) d = last l d.
Proof. intros H. destruct l; [now destruct H|reflexivity]. Qed.

Lemma optical_prefix_cut c l1 l2 :
  cut_ok c l1 l2 -> (exists k, In k l1 /\ is_optical (node_at c k) = false) \/ optical_prefix c (l1 ++ l2) = l1 \/ l1 = [].
Proof.
  intros H. destruct l1 as [|a l1]; [auto|].
  destruct (forallb (fun k => is_optical (node_at c k)) (a :: l1)) eqn:E.
  - right. left.
    assert (G : forall l, forallb (fun k => is_optical (node_at c k)) l = true -> optical_prefix c (l ++ l2) = l ++ optical_prefix c l2).
    { induction l as [|x l IH]; intros Hf; [reflexivity|]. cbn [forallb] in Hf. apply andb_true_iff in Hf.
      cbn [app optical_prefix]. destruct Hf as [-> Hf]. now rewrite IH. }
    rewrite G by auto. destruct l2 as [|b l2]; [cbn [optical_prefix]; now rewrite app_nil_r|].
    cbn [cut_ok] in H. destruct H as [H|[H|H]]; [discriminate| |].
    + exfalso. rewrite forallb_forall in E. specialize (E (last (a :: l1) 0)).
      rewrite H in E. assert (false = true); [|discriminate]. apply E.
      destruct (@exists_last _ (a :: l1)) as (l' & x & El); [discriminate|].
      rewrite El. rewrite last_last. apply in_or_app. right. now left.
    + cbn [optical_prefix]. rewrite H. now rewrite app_nil_r.
  - left. apply not_true_iff_false in E. rewrite forallb_forall in E.
    clear H. revert E. generalize (a :: l1). clear. induction l as [|x l IH]; intros E.
    + exfalso. apply E. intros x [].
    + destruct (is_optical (node_at c x)) eqn:Ex.
      * destruct IH as (k & Hk & Ek).
        -- intros Hall. apply E. intros y [<-|Hy]; auto.
        -- exists k. split; auto. now right.
      * exists x. split; auto. now left.
Qed.

Lemma optical_prefix_app_nonopt c l1 l2 :
  (exists k, In k l1 /\ is_optical (node_at c k) = false) -> optical_prefix c (l1 ++ l2) = optical_prefix c l1.
Proof.
  induction l1 as [|x l1 IH]; intros (k & Hk & Ek); [destruct Hk|].
  cbn [app optical_prefix]. destruct (is_optical (node_at c x)) eqn:Ex; [|reflexivity].
  rewrite IH; auto. destruct Hk as [->|Hk]; [congruence|]. now exists k.
Qed.

Lemma optical_prefix_all c l : (forall k, In k l -> is_optical (node_at c k) = true) -> optical_prefix c l = l.
Proof.
  induction l as [|x l IH]; intros H; [reflexivity|]. cbn [optical_prefix].
  rewrite (H x (or_introl eq_refl)). rewrite IH; auto. intros. apply H. now right.
Qed.
Lemma optical_prefix_in c l k : In k (optical_prefix c l) -> is_optical (node_at c k) = true.
Proof.
  induction l as [|x l IH]; cbn [optical_prefix]; [intros []|].
  destruct (is_optical (node_at c x)) eqn:E; [|intros []]. intros [<-|H]; auto.
Qed.

Lemma sorted_app_l (l1 l2 : list nat) : StronglySorted lt (l1 ++ l2) -> StronglySorted lt l1.
Proof.
  induction l1 as [|x l1 IH]; intros H; [constructor|]. inversion H; subst. constructor; [auto|].
  rewrite Forall_forall in *. intros y Hy. apply H3. apply in_or_app. now left.
Qed.
Lemma sorted_app_r (l1 l2 : list nat) : StronglySorted lt (l1 ++ l2) -> StronglySorted lt l2.
Proof. induction l1 as [|x l1 IH]; intros H; [auto|]. inversion H; subst. auto. Qed.

Lemma evalR_split X rnd c l1 : forall l2 cs seed,
  StronglySorted lt (l1 ++ l2) -> cut_ok c l1 l2 ->
  forallb (fun i => i <? length (c_nodes c)) (l1 ++ l2) = true ->
  (forall k, In k l1 -> is_bridge (node_at c k) = false) ->
  evalR X rnd c (l1 ++ l2) cs seed
  = rbind (evalR X rnd c l1 cs seed) (fun r => evalR X rnd c l2 (fst r) (snd r)).
Proof.
  remember (length l1) as n eqn:En. revert l1 En. induction n as [n IH] using lt_wf_ind.
  intros l1 En l2 cs seed HS Hcut Hr Hb.
  destruct l1 as [|k r].
  { cbn [app]. rewrite evalR_nil. reflexivity. }
  pose proof (sorted_app_l _ _ HS) as HS1.
  rewrite (evalR_sorted X rnd c (k :: r)) by auto.
  rewrite (evalR_sorted X rnd c ((k :: r) ++ l2)) by auto.
  pose proof Hr as Hr'. rewrite forallb_app in Hr'. apply andb_true_iff in Hr'. destruct Hr' as [Hr1 Hr2].
  rewrite Hr, Hr1. cbn [negb app].
  pose proof (Hb k (or_introl eq_refl)) as Hbk.
  assert (Htail : forall cs' seed', evalR X rnd c (r ++ l2) cs' seed'
      = rbind (evalR X rnd c r cs' seed') (fun x => evalR X rnd c l2 (fst x) (snd x)) \/ is_optical (node_at c k) = true).
  { intros cs' seed'. destruct (is_optical (node_at c k)) eqn:Eo; [now right|left].
    apply (IH (length r)); auto.
    - rewrite En. cbn. lia.
    - inversion HS; auto.
    - destruct l2 as [|b l2]; [exact I|]. cbn [cut_ok] in *. destruct r as [|x r]; [now left|]. right.
      destruct Hcut as [Hc|Hc]; [discriminate|]. exact Hc.
    - cbn [app forallb] in Hr. apply andb_true_iff in Hr. tauto.
    - intros. apply Hb. now right. }
  destruct (node_at c k) as [A tl|M|f nv chs|opt cl|t p vars tl|f| |next] eqn:Ek; try discriminate Hbk.
  2-7: destruct (run_node X rnd c k cs seed) as [[cs' seed']|]; [|reflexivity]; cbn [rbind];
     destruct (Htail cs' seed') as [H|H]; [exact H|discriminate].
  clear Htail.
  set (P1 := optical_prefix c (k :: r)).
  assert (HP1 : P1 = k :: optical_prefix c r) by (unfold P1; cbn [optical_prefix]; now rewrite Ek).
  assert (EP : optical_prefix c (k :: r ++ l2) = P1).
  { change (k :: r ++ l2) with ((k :: r) ++ l2).
    destruct (optical_prefix_cut c (k :: r) l2 Hcut) as [H|[H|H]]; [| |discriminate].
    - now apply optical_prefix_app_nonopt.
    - rewrite H. unfold P1. symmetry. apply optical_prefix_all. intros x Hx. rewrite <- H in Hx. eapply optical_prefix_in; eauto. }
  rewrite EP. destruct (run_optical c P1 cs) as [cs'|]; [|reflexivity]. cbn [rbind].
  destruct (optical_prefix_app c (k :: r)) as [rest Erest]. fold P1 in Erest.
  assert (E1 : skipn (length P1) (k :: r) = rest) by (rewrite Erest at 1; apply skipn_prefix).
  assert (E2 : skipn (length P1) (k :: r ++ l2) = rest ++ l2).
  { change (k :: r ++ l2) with ((k :: r) ++ l2). rewrite Erest at 1. rewrite <- app_assoc. apply skipn_prefix. }
  rewrite E1, E2. apply (IH (length rest)); auto.
  - rewrite En. rewrite Erest, HP1, app_length. cbn [length]. lia.
  - assert (E3 : (k :: r) ++ l2 = P1 ++ (rest ++ l2)) by (rewrite Erest at 1; now rewrite app_assoc).
    rewrite E3 in HS. eapply sorted_app_r; eauto.
  - destruct l2 as [|b l2]; [exact I|]. cbn [cut_ok] in *. destruct rest as [|x rest]; [now left|]. right.
    destruct Hcut as [Hc|Hc]; [discriminate|]. rewrite Erest in Hc.
    assert (El : last (P1 ++ x :: rest) 0 = last (x :: rest) 0).
    { destruct (@exists_last _ (x :: rest)) as (l' & y & ->); [discriminate|]. rewrite app_assoc, !last_last. reflexivity. }
    now rewrite El in Hc.
  - rewrite Erest, <- app_assoc, forallb_app in Hr. apply andb_true_iff in Hr. tauto.
  - intros x Hx. apply Hb. rewrite Erest. apply in_or_app. now right.
Qed.

(** ** Optical blocks *)
Lemma mat_vec_ext d M v w i : (forall k, k < d -> v k = w k) -> mat_vec d M v i = mat_vec d M w i.
Proof. intros H. unfold mat_vec. apply Csum_ext. intros k Hk. apply in_seq in Hk. rewrite H by lia. reflexivity. Qed.

(** The action of a list of nodes, node by node. *)
Definition act (D : dims) (nds : list onode) (v : vec) : vec :=
  fold_left (fun w nd => mat_vec (size_of_basis D) (full_matrix D (on_matrix nd) (on_tl nd)) w) nds v.

Lemma act_ext D nds : forall v w, (forall k, k < size_of_basis D -> v k = w k) ->
  forall i, i < size_of_basis D -> act D nds v i = act D nds w i.
Proof.
  induction nds as [|nd r IH]; intros v w H i Hi; [now apply H|].
  unfold act. cbn [fold_left]. apply IH; auto. intros k Hk. now apply mat_vec_ext.
Qed.

Lemma product_act D nds : forall acc v i, i < size_of_basis D ->
  mat_vec (size_of_basis D) (product D acc nds) v i = act D nds (mat_vec (size_of_basis D) acc v) i.
Proof.
  induction nds as [|nd r IH]; intros acc v i Hi; [reflexivity|].
  cbn [product]. rewrite IH by auto. unfold act. cbn [fold_left]. apply act_ext; auto.
  intros k Hk. apply mat_mul_vec.
Qed.

Lemma nodes_matrix_act D nds v i :
  i < size_of_basis D -> mat_vec (size_of_basis D) (nodes_matrix D nds) v i = act D nds v i.
Proof.
  intros Hi. destruct nds as [|nd r].
  - cbn [nodes_matrix act fold_left]. unfold mat_vec.
    now rewrite (Csum_delta (size_of_basis D) i v).
  - cbn [nodes_matrix]. now rewrite product_act.
Qed.

Lemma optical_step_vector D eps nds st i :
  1 <= dL D -> (eps <= 0)%R -> i < size_of_basis D ->
  state_vector D (optical_step D eps nds st) i = act D nds (state_vector D st) i.
Proof.
  intros HL He Hi. unfold optical_step. rewrite state_vector_spec; auto.
  - rewrite components_amplitude by auto. destruct (Rlt_dec _ _) as [H|H].
    + exfalso. pose proof (Cnorm2_nonneg (mat_vec (size_of_basis D) (nodes_matrix D nds) (state_vector D st) i)). lra.
    + now apply nodes_matrix_act.
  - now apply components_wf.
Qed.

Lemma optical_step_app D eps n1 n2 st :
  1 <= dL D -> (eps <= 0)%R ->
  optical_step D eps (n1 ++ n2) st = optical_step D eps n2 (optical_step D eps n1 st).
Proof.
  intros HL He. unfold optical_step at 1 2.
  assert (E : with_comps (optical_step D eps n1 st) = with_comps st).
  { reflexivity. }
  rewrite E. f_equal. apply components_ext. intros i Hi. rewrite !nodes_matrix_act by auto.
  unfold act at 1. rewrite fold_left_app. apply act_ext; auto. intros k Hk.
  symmetry. now apply optical_step_vector.
Qed.

Lemma onodes_tl_ok c ks : wf_circuit c ->
  (forall k, In k ks -> k < length (c_nodes c)) ->
  tl_ok (c_D c) (flat_map (fun k => onode_of (node_at c k)) ks).
Proof.
  intros (_ & _ & _ & HF) Hk. unfold tl_ok. apply Forall_forall. intros nd H. apply in_flat_map in H.
  destruct H as (k & Hin & H). pose proof (node_at_in c k (Hk k Hin)) as Hn.
  rewrite Forall_forall in HF. specialize (HF _ Hn). destruct (node_at c k); cbn [onode_of] in H; try destruct H as [].
  subst nd. exact HF. contradiction.
Qed.

Lemma onodes_nonempty c ks : ks <> [] -> (forall k, In k ks -> is_optical (node_at c k) = true) ->
  flat_map (fun k => onode_of (node_at c k)) ks <> [].
Proof.
  intros Hne H. destruct ks as [|k r]; [now destruct Hne|]. cbn [flat_map].
  specialize (H k (or_introl eq_refl)). destruct (node_at c k); try discriminate.
Qed.

Lemma apply_optical_checks D ncl eps full keys nds its out :
  apply_optical D ncl eps full keys nds its = Some out -> Forall (fun it => check_state eps ncl (snd it) = true) its.
Proof.
  unfold apply_optical. destruct (copy_items eps ncl its) eqn:E; [|discriminate].
  intros _. now apply copy_items_some in E.
Qed.

Definition opt_step (c : circuit) (ks : list nat) (it : ident * state) : ident * state :=
  (fst it, optical_step (c_D c) (c_eps c) (flat_map (fun k => onode_of (node_at c k)) ks) (snd it)).

Lemma run_optical_spec c ks cs :
  wf_circuit c -> wf_items (c_D c) (co_items cs) -> ks <> [] ->
  (forall k, In k ks -> k < length (c_nodes c) /\ is_optical (node_at c k) = true) ->
  Forall (fun it => check_state (c_eps c) (c_ncl c) (snd it) = true) (co_items cs) ->
  run_optical c ks cs = Some (coll_of c (map (opt_step c ks) (co_items cs))).
Proof.
  intros Hc [ND HF] Hne Hk Hck. pose proof Hc as (HL & HN & HK & _). unfold run_optical. rewrite HK, fresh_keys_all by auto.
  rewrite apply_optical_spec; auto.
  - apply onodes_tl_ok; auto. intros k Hin. now apply Hk.
  - apply onodes_nonempty; auto. intros k Hin. now apply Hk.
Qed.

Lemma run_optical_inv c ks cs out :
  wf_circuit c -> wf_items (c_D c) (co_items cs) -> ks <> [] ->
  (forall k, In k ks -> k < length (c_nodes c) /\ is_optical (node_at c k) = true) ->
  run_optical c ks cs = Some out ->
  Forall (fun it => check_state (c_eps c) (c_ncl c) (snd it) = true) (co_items cs) /\
  out = coll_of c (map (opt_step c ks) (co_items cs)).
Proof.
  intros Hc Hw Hne Hk E.
  assert (Hck : Forall (fun it => check_state (c_eps c) (c_ncl c) (snd it) = true) (co_items cs)).
  { unfold run_optical in E. destruct (apply_optical _ _ _ _ _ _ _) eqn:Ea; [|discriminate].
    eapply apply_optical_checks; eauto. }
  split; auto. rewrite run_optical_spec in E by auto. congruence.
Qed.

Lemma size_pos D : 1 <= dL D -> 1 <= size_of_basis D.
Proof. apply size_1_or_more. Qed.

Lemma components_nonempty D eps v : 1 <= dL D -> (eps <= 0)%R -> components_from_vector D eps v <> [].
Proof.
  intros HL He. unfold components_from_vector. pose proof (size_pos D HL).
  destruct (size_of_basis D); [lia|]. cbn [seq flat_map].
  destruct (Rlt_dec _ _) as [Hl|]; [pose proof (Cnorm2_nonneg (v 0)); lra|]. discriminate.
Qed.

Lemma map_keys_same {A B} (f : A -> A) (g : A -> B) (l : list A) : (forall x, g (f x) = g x) -> map g (map f l) = map g l.
Proof. intros H. rewrite map_map. now apply map_ext. Qed.

Lemma opt_step_wf c ks its :
  wf_circuit c -> (c_eps c <= 0)%R -> wf_items (c_D c) its -> wf_items (c_D c) (map (opt_step c ks) its).
Proof.
  intros (HL & _) He [ND HF]. split.
  - unfold dkeys in *. rewrite map_keys_same; auto.
  - apply Forall_forall. intros it H. apply in_map_iff in H. destruct H as (it0 & <- & _). cbn [opt_step snd]. split.
    + now apply components_wf.
    + now apply components_nonempty.
Qed.

(** Cutting an optical block. *)
Lemma run_optical_cut c k ks cs cs1 cs2 :
  wf_circuit c -> (c_eps c <= 0)%R -> wf_items (c_D c) (co_items cs) -> ks <> [] ->
  (forall j, In j (k :: ks) -> j < length (c_nodes c) /\ is_optical (node_at c j) = true) ->
  run_optical c [k] cs = Some cs1 -> run_optical c ks cs1 = Some cs2 ->
  run_optical c (k :: ks) cs = Some cs2.
Proof.
  intros Hc He Hw Hne Hk E1 E2.
  apply run_optical_inv in E1; auto; [|discriminate|intros j [<-|[]]; apply Hk; now left].
  destruct E1 as [Hck ->].
  apply run_optical_inv in E2; auto; [|now apply opt_step_wf|intros j Hj; apply Hk; now right].
  destruct E2 as [_ ->].
  rewrite run_optical_spec; auto; [|discriminate]. do 2 f_equal. cbn [co_items coll_of]. rewrite map_map.
  apply map_ext. intros it. unfold opt_step. cbn [fst snd flat_map]. rewrite app_nil_r. f_equal.
  apply optical_step_app; auto. apply Hc.
Qed.
