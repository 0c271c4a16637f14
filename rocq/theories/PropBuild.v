(** C73: which calls are accepted, and what happens then. *)
From Coq Require Import Reals List Arith Lia Lra Bool Permutation ZArith.
From Coquelicot Require Import Complex.
From Verif Require Import Prelude NamesModel NamesSpec NamesProofs FockModel FockSpec FockProofs GateProofs
  OpticalModel OpticalProofs StateModel StateSpec StateProofs CollectionModel EvalModel EvalSpec EvalProofs MeasureSpec MeasureProofs PropEval
  InterferenceSpec ArrangementProofs PermanentProofs CustomModel CustomSpec PropCustom PropOptical CircuitSpec CircuitProofs EnsembleProofs PropCircuit ProgramModel ProgramSpec PropProgram BuildSpec.
Import ListNotations.

Definition some {A} (o : option A) : Prop := exists a, o = Some a.
Lemma some_map {A B} (f : A -> B) o : some (option_map f o) <-> some o.
Proof. unfold some. destruct o; split; intros [x E]; try discriminate; now eexists. Qed.
Lemma some_none {A} : some (@None A) <-> False.
Proof. split; [intros [a E]; discriminate|intros []]. Qed.
Lemma some_some {A} (a : A) : some (Some a) <-> True.
Proof. split; [auto|intros _; now exists a]. Qed.
Lemma some_if {A} (b : bool) (o : option A) : some (if b then o else None) <-> b = true /\ some o.
Proof. destruct b; [tauto|]. rewrite some_none. intuition discriminate. Qed.
Lemma some_if_not {A} (b : bool) (o : option A) : some (if b then None else o) <-> b = false /\ some o.
Proof. destruct b; [|tauto]. rewrite some_none. intuition discriminate. Qed.
Lemma tensor_some n h v : 2 <= n -> some (tensor_list_of n [h; v]) <-> h <> v /\ h < n /\ v < n.
Proof.
  intro Hn. unfold tensor_list_of. cbv zeta. rewrite some_if_not. rewrite Nat.eqb_neq.
  destruct ((h =? 0) && (v =? 1)) eqn:E1; [apply andb_prop in E1; rewrite !Nat.eqb_eq in E1; rewrite some_some; intuition lia|].
  destruct ((h =? 1) && (v =? 0)) eqn:E2; [apply andb_prop in E2; rewrite !Nat.eqb_eq in E2; rewrite some_some; intuition lia|].
  rewrite some_if, some_some, andb_true_iff, !Nat.ltb_lt. tauto.
Qed.
Lemma place_some D A chs gs : some (place D ((A, chs) :: gs)) <-> some (tensor_list_of (dN D) chs) /\ some (place D gs).
Proof.
  cbn [place]. destruct (tensor_list_of _ _); [|rewrite !some_none; tauto]. destruct (place D gs); [|rewrite !some_none; tauto]. rewrite !some_some. tauto.
Qed.
Lemma place_two D A h v : 2 <= dN D -> some (place D [(A, [h; v])]) <-> two_channels D h v.
Proof. intro HN. rewrite place_some, tensor_some by exact HN. cbn [place]. rewrite some_some. unfold two_channels. tauto. Qed.
Lemma place_swap D a b : 2 <= dN D -> some (place D [swap_gate a b]) <-> two_channels D a b.
Proof. intro HN. unfold swap_gate. destruct (b <? a); rewrite place_two by exact HN; unfold two_channels; intuition lia. Qed.
Lemma mix_some a b r t : some (mix_generic a b r t) <-> fractions r t.
Proof.
  unfold mix_generic, fractions. destruct (Req_EM_T _ _); [|rewrite some_none; tauto]. destruct (Rle_dec 0 r); [|rewrite some_none; tauto]. destruct (Rle_dec 0 t); [|rewrite some_none; tauto].
  rewrite some_some. tauto.
Qed.
Lemma optics_some D call ncl : nodes_of D ncl (Optics call) = match gates_of (dN D) call with Some gs => option_map (map (fun nd => NOptical (on_matrix nd) (on_tl nd))) (place D gs) | None => None end.
Proof. reflexivity. Qed.
Lemma forallb_exist n l : forallb (fun c => c <? n) l = true <-> exist_all n l.
Proof. rewrite forallb_forall. unfold exist_all. split; intros H c Hc; apply Nat.ltb_lt; now apply H. Qed.
Lemma product_some d l : some (CustomModel.product_of d l) <-> l <> [].
Proof. destruct l; cbn; [rewrite some_none; intuition congruence|rewrite some_some; intuition discriminate]. Qed.
Lemma combine_nil {A B} (l : list A) (m : list B) : combine l m <> [] <-> 0 < Nat.min (length l) (length m).
Proof. destruct l, m; cbn; split; intros H; try lia; try congruence; discriminate. Qed.
Lemma combine_in_l {A B} (l : list A) : forall (m : list B) c, (exists y, In (c, y) (combine l m)) <-> In c (firstn (Nat.min (length l) (length m)) l).
Proof.
  induction l as [|x l IH]; intros m c; cbn [combine length Nat.min firstn]; [split; [intros [y []]|intros []]|]. destruct m as [|z m]; cbn [combine length Nat.min firstn].
  - split; [intros [y []]|intros []].
  - split.
    + intros [y [E|H]]; [injection E as -> ->; now left|right]. apply IH. now exists y.
    + intros [->|H]; [exists z; now left|]. apply IH in H. destruct H as [y H]. exists y. now right.
Qed.
Lemma combine_in_r {A B} (l : list A) : forall (m : list B) c, (exists y, In (y, c) (combine l m)) <-> In c (firstn (Nat.min (length l) (length m)) m).
Proof.
  induction l as [|x l IH]; intros m c; cbn [combine length Nat.min firstn]; [split; [intros [y []]|intros []]|]. destruct m as [|z m]; cbn [combine length Nat.min firstn].
  - split; [intros [y []]|intros []].
  - split.
    + intros [y [E|H]]; [injection E as -> ->; now left|right]. apply IH. now exists y.
    + intros [->|H]; [exists x; now left|]. apply IH in H. destruct H as [y H]. exists y. now right.
Qed.

(** ** Exactly which calls are accepted *)
Theorem C73_accepted : forall D ncl i, 2 <= dN D -> ((exists nds, nodes_of D ncl i = Some nds) <-> accepted D ncl i).
Proof.
  intros D ncl i HN. change (some (nodes_of D ncl i) <-> accepted D ncl i). destruct i as [call|c cl|h v ct cp|vals chs|fn nv chs|opt cl|targets shifts|controls targets|A h v|M].
  - rewrite optics_some. destruct call; cbn [gates_of]; try (rewrite some_map, place_two by exact HN; reflexivity).
    + rewrite some_map. cbn [accepted valid_call]. destruct (Nat.eqb_spec c 0) as [->|Hc]; rewrite place_two by exact HN; unfold two_channels; intuition lia.
    + rewrite some_map. now apply place_swap.
    + cbn [accepted valid_call]. destruct (mix_generic a b refl transm) as [g|] eqn:E; cbn [option_map].
      * assert (fractions refl transm) by (apply (mix_some a b); rewrite E; now apply some_some). rewrite some_map.
        assert (snd g = [a; b]) as Eg. { unfold mix_generic in E. destruct (Req_EM_T _ _); [|discriminate]. destruct (Rle_dec 0 refl); [|discriminate]. destruct (Rle_dec 0 transm); [|discriminate]. now injection E as <-. }
        destruct g as [A chs]. cbn in Eg. subst chs. rewrite place_two by exact HN. tauto.
      * rewrite some_none. split; [tauto|]. intros [_ H]. apply (mix_some a b) in H. rewrite E in H. now apply some_none in H.
    + cbn [accepted]. destruct (Nat.ltb_spec (dN D) 4) as [Hlt|Hge]; [rewrite some_none; split; [tauto|lia]|]. rewrite some_map, place_swap by exact HN. intuition lia.
    + cbn [accepted]. destruct (Nat.ltb_spec (dN D) 4) as [Hlt|Hge]; [rewrite some_none; split; [tauto|lia]|]. rewrite some_map, place_some, place_two, tensor_some by exact HN. unfold two_channels. intuition lia.
    + cbn [accepted]. destruct (Nat.ltb_spec (dN D) 4) as [Hlt|Hge]; [rewrite some_none; split; [tauto|lia]|].
      destruct (mix_generic a0 b0 refl transm) as [g|] eqn:E.
      * assert (HF : fractions refl transm) by (apply (mix_some a0 b0); rewrite E; now apply some_some). destruct (mix_generic a1 b1 refl transm) as [g'|] eqn:E'.
        -- assert (snd g = [a0; b0] /\ snd g' = [a1; b1]) as [Eg Eg'].
           { unfold mix_generic in E, E'. destruct (Req_EM_T _ _); [|discriminate]. destruct (Rle_dec 0 refl); [|discriminate]. destruct (Rle_dec 0 transm); [|discriminate]. injection E as <-. injection E' as <-. split; reflexivity. }
           destruct g as [A chs], g' as [A' chs']. cbn in Eg, Eg'. subst chs chs'. rewrite some_map, place_some, place_two, tensor_some by exact HN. unfold two_channels. tauto.
        -- apply (mix_some a1 b1) in HF. rewrite E' in HF. now apply some_none in HF.
      * rewrite some_none. split; [tauto|]. intros (_ & _ & _ & H). apply (mix_some a0 b0) in H. rewrite E in H. now apply some_none in H.
  - cbn [nodes_of accepted]. cbv zeta. rewrite some_map. unfold phase_shift_classical_control. rewrite some_if_not, some_map, orb_false_iff, !Nat.ltb_ge.
    destruct (Nat.eqb_spec c 0) as [->|Hc]; rewrite tensor_some by exact HN; intuition lia.
  - cbn [nodes_of accepted]. cbv zeta. rewrite some_map. unfold wave_plate_classical_control. rewrite some_if_not, some_map, orb_false_iff, !Nat.ltb_ge, tensor_some by exact HN. unfold two_channels. intuition lia.
  - cbn [nodes_of accepted valid_call]. cbv zeta. rewrite some_map. unfold set_classical_channels. destruct chs as [|c0 chs]; [rewrite some_none; intuition congruence|].
    rewrite some_if, some_some, andb_true_iff, Nat.eqb_eq, forallb_exist. intuition discriminate.
  - cbn [nodes_of accepted]. now rewrite some_some.
  - cbn [nodes_of accepted valid_call]. cbv zeta. rewrite some_map. unfold measure_optical_to_classical. rewrite some_if, some_some, !andb_true_iff, Nat.eqb_eq, !forallb_exist. intuition congruence.
  - cbn [nodes_of accepted]. cbv zeta. rewrite some_map. unfold shift. rewrite some_if, some_map, product_some. 
    assert (E : map (fun p : Z * nat => transition (dN D) (fresh_keys D) (snd p) (fun input => shifted_by (dL D) (fst p) (nth (snd p) input 0))) (combine shifts targets) <> [] <-> combine shifts targets <> []).
    { destruct (combine shifts targets); cbn; split; intro H; try discriminate; now destruct H. }
    rewrite E, combine_nil. clear E. rewrite (Nat.min_comm (length shifts)). rewrite forallb_forall. unfold exist_all. split.
    + intros [H1 H2]. split; [exact H2|]. intros c Hc. rewrite Nat.min_comm in Hc. apply combine_in_r in Hc. destruct Hc as [y Hy]. specialize (H1 _ Hy). now apply Nat.ltb_lt in H1.
    + intros [H1 H2]. split; [|exact H1]. intros [y c] Hy. apply Nat.ltb_lt. apply H2. rewrite Nat.min_comm. apply combine_in_r. now exists y.
  - cbn [nodes_of accepted]. cbv zeta. rewrite some_map. unfold c_shift. rewrite some_if, some_map, product_some. 
    assert (E : map (fun p : nat * nat => transition (dN D) (fresh_keys D) (snd p) (fun input => (nth (fst p) input 0 + nth (snd p) input 0) mod dL D)) (combine controls targets) <> [] <-> combine controls targets <> []).
    { destruct (combine controls targets); cbn; split; intro H; try discriminate; now destruct H. }
    rewrite E, combine_nil. clear E. rewrite forallb_forall. unfold exist_all. split.
    + intros [H1 H2]. split; [exact H2|]. split.
      * intros c Hc. apply combine_in_l in Hc. destruct Hc as [y Hy]. specialize (H1 _ Hy). apply andb_true_iff in H1. now apply Nat.ltb_lt.
      * intros c Hc. apply combine_in_r in Hc. destruct Hc as [y Hy]. specialize (H1 _ Hy). apply andb_true_iff in H1. now apply Nat.ltb_lt.
    + intros (H1 & H2 & H3). split; [|exact H1]. intros [x y] Hy. apply andb_true_iff. rewrite !Nat.ltb_lt. cbn [fst snd]. split; [apply H2; apply combine_in_l; now exists y|apply H3; apply combine_in_r; now exists x].
  - cbn [nodes_of accepted valid_call]. cbv zeta. unfold custom_optical_node. cbn [size_accepted length Nat.eqb negb andb known_type read_matrix entry nth_error option_map].
    rewrite <- (tensor_some (dN D) h v HN). destruct (tensor_list_of (dN D) [h; v]); [rewrite !some_some|rewrite !some_none]; tauto.
  - cbn [nodes_of accepted valid_call]. now rewrite some_some.
Qed.

(** Valid calls are accepted. *)
Lemma valid_accepted D ncl i : 2 <= dN D -> valid_call D ncl i -> accepted D ncl i.
Proof.
  intros HN H. assert (four : forall a b c d, NoDup [a;b;c;d] -> exist_all (dN D) [a;b;c;d] -> 4 <= dN D /\ two_channels D a c /\ two_channels D b d).
  { intros a b c d ND HE. split.
    - rewrite <- (seq_length (dN D) 0). apply (NoDup_incl_length (l := [a;b;c;d])); [exact ND|]. intros x Hx. apply in_seq. specialize (HE x Hx). lia.
    - inversion ND as [|? ? N1 ND1]; subst. inversion ND1 as [|? ? N2 ND2]; subst. cbn in N1, N2.
      pose proof (HE a ltac:(cbn; auto)). pose proof (HE b ltac:(cbn; auto)). pose proof (HE c ltac:(cbn; auto)). pose proof (HE d ltac:(cbn; auto)).
      unfold two_channels. intuition. }
  destruct i as [call|c cl|h v ct cp|vals chs|fn nv chs|opt cl|targets shifts|controls targets|A h v|M]; cbn [accepted valid_call] in *; try exact H; try tauto.
  - destruct call; cbn [accepted valid_call] in *; try exact H.
    + destruct H as [H1 H2]. destruct (four _ _ _ _ H1 H2) as (? & ? & ?). tauto.
    + destruct H as [H1 H2]. destruct (four _ _ _ _ H1 H2) as (? & ? & ?). tauto.
    + destruct H as (H1 & H2 & H3). destruct (four _ _ _ _ H1 H2) as (? & ? & ?). tauto.
  - lia.
  - destruct H as (H1 & H2 & H3). split; [exact H1|]. lia.
  - cbv zeta. destruct H as (H1 & H2 & H3). rewrite H2, Nat.min_id, firstn_all. split; [destruct targets; [congruence|cbn; lia]|exact H3].
  - cbv zeta. destruct H as (H1 & H2 & H3 & H4 & _). rewrite H2, Nat.min_id, firstn_all. split; [destruct targets; [congruence|cbn; lia]|]. split; [rewrite <- H2, firstn_all; exact H3|exact H4].
Qed.

(** A circuit built by valid calls can be built and evaluated on every collection, with the effect the
    calls mean (at every threshold that is small enough). *)
Theorem C73_valid_circuit : forall D ncl full p its X rnd, 1 <= dL D -> 2 <= dN D ->
  Forall (valid_call D ncl) p -> Forall (careful D ncl) p -> proper_items D ncl its ->
  exists nodes, program_nodes D ncl p = Some nodes /\
  exists eps0, (0 < eps0)%R /\ forall eps, (0 < eps <= eps0)%R ->
  let c := Circuit D ncl eps full (fresh_keys D) nodes in
  exists its', evaluate_circuit X rnd c (coll_of c its) = Ok (coll_of c its') /\ proper_items D ncl its' /\
    same_branches D (branches_of D its') (filter (nonzero D) (run D (flat_map (meaning D) p) (branches_of D its))).
Proof.
  intros D ncl full p its X rnd HL HN HV HC Hp.
  assert (exists nodes, program_nodes D ncl p = Some nodes) as (nodes & E).
  { clear HC. induction HV as [|i p Hi HV IH]; [now eexists|]. destruct IH as [b Eb]. apply valid_accepted, C73_accepted in Hi; try exact HN. destruct Hi as [a Ea]. cbn [program_nodes]. rewrite Ea, Eb. now eexists. }
  exists nodes. split; [exact E|]. now apply C62_program.
Qed.

(** A program is refused exactly if one of its calls is. *)
Theorem C73_refused : forall D ncl p, 2 <= dN D -> (program_nodes D ncl p = None <-> exists i, In i p /\ ~ accepted D ncl i).
Proof.
  intros D ncl p HN. induction p as [|i p IH]; cbn [program_nodes]; [split; [discriminate|intros (i & [] & _)]|].
  destruct (nodes_of D ncl i) as [a|] eqn:E.
  - assert (Ha : accepted D ncl i) by (apply C73_accepted; [exact HN|now exists a]). destruct (program_nodes D ncl p) as [b|].
    + split; [discriminate|]. intros (j & [<-|Hj] & Hn); [now destruct Hn|]. enough (Some b = None) by discriminate. apply IH. now exists j.
    + split; [intros _|reflexivity]. destruct (proj1 IH eq_refl) as (j & Hj & Hn). exists j. split; [now right|exact Hn].
  - split; [intros _|reflexivity]. exists i. split; [now left|]. intro Ha. apply C73_accepted in Ha; [|exact HN]. destruct Ha as [a Ea]. congruence.
Qed.

(** "Raises: exception if the requested channels are not available": the calls below are accepted. A
    control channel one above the last makes every evaluation of a collection with a state raise. *)
Theorem C73_unavailable_channel_refuted : forall D ncl h v ct eps full X rnd cs, 2 <= dN D -> two_channels D h v -> ct <= ncl -> co_items cs <> [] ->
  Forall (fun it => length (s_classical (snd it)) = ncl) (co_items cs) ->
  exists nd, nodes_of D ncl (Plate_by h v ct ncl) = Some [nd] /\ evaluate_circuit X rnd (Circuit D ncl eps full (fresh_keys D) [nd]) cs = Raise.
Proof.
  intros D ncl h v ct eps full X rnd cs HN HT Hct Hne HF.
  destruct (proj2 (C73_accepted D ncl (Plate_by h v ct ncl) HN)) as [nds E]; [cbn; auto|]. cbn [nodes_of] in E. cbv zeta in E.
  destruct (wave_plate_classical_control (dN D) ncl h v ct ncl) as [nd|] eqn:En; [|discriminate]. cbn [option_map] in E. exists nd. cbn [nodes_of]. cbv zeta. rewrite En. split; [reflexivity|].
  unfold wave_plate_classical_control in En. destruct (_ || _); [discriminate|]. destruct (tensor_list_of (dN D) [h; v]) as [tl|]; [|discriminate]. cbn [option_map] in En. injection En as <-.
  unfold evaluate_circuit. cbn [length c_nodes seq]. rewrite PropMeasure.evaluate_single by (cbn; auto; lia). unfold run_node. cbn [node_at c_nodes nth].
  assert (Ei : forall c, controlled_items c (PI / 2) 0 [(true, ct); (false, ncl)] tl (co_items cs) = None).
  { intro c. unfold controlled_items. destruct (co_items cs) as [|it its]; [now destruct Hne|]. cbn [fold_left]. inversion HF as [|? ? Hr _]; subst.
    assert (Ea : controlled_angles (PI / 2) 0 [(true, ct); (false, length (s_classical (snd it)))] (s_classical (snd it)) = None).
    { unfold controlled_angles. cbn [fold_left snd fst]. destruct (nth_error (s_classical (snd it)) ct); [|reflexivity]. rewrite (proj2 (nth_error_None _ _) (le_n _)). reflexivity. }
    rewrite Ea. clear. induction its as [|it2 its IH]; [reflexivity|]. cbn [fold_left]. exact IH. }
  rewrite Ei. reflexivity.
Qed.

(** A polarizing beam splitter ignores its first and third channel, so they need not exist, and a non-polarizing
    one accepts the same channels for both polarisations: the light passes it twice. *)
Theorem C73_beam_splitters_refuted : forall D ncl a0 a1 b0 b1, 4 <= dN D -> two_channels D a1 b1 ->
  (exists nds, nodes_of D ncl (Optics (Polarizing_bs a0 a1 b0 b1)) = Some nds /\ nodes_of D ncl (Optics (Polarizing_bs (dN D) a1 (dN D) b1)) = Some nds) /\
  exists nd, nodes_of D ncl (Optics (Mix_50_50 a1 b1)) = Some [nd] /\ nodes_of D ncl (Optics (Non_polarizing_50_50 a1 a1 b1 b1)) = Some [nd; nd].
Proof.
  intros D ncl a0 a1 b0 b1 HN HT. split.
  - destruct (proj2 (C73_accepted D ncl (Optics (Polarizing_bs a0 a1 b0 b1)) ltac:(lia))) as [nds E]; [cbn; auto|]. exists nds. split; [exact E|]. rewrite <- E. reflexivity.
  - rewrite !optics_some. cbn [gates_of place]. destruct (Nat.ltb_spec (dN D) 4); [lia|]. destruct (proj2 (tensor_some (dN D) a1 b1 ltac:(lia)) HT) as [tl Et]. cbn [place]. rewrite !Et. cbn [place option_map map on_matrix on_tl]. eexists. split; reflexivity.
Qed.

Example C73_case : Forall (valid_call case_dims 2) case_program /\ Forall (careful case_dims 2) case_program /\ proper_items case_dims 2 case_items.
Proof.
  destruct C62_case as (_ & H2 & H3). split; [|split; assumption].
  unfold case_program. repeat (apply Forall_cons || apply Forall_nil); cbn [valid_call dN case_dims]; unfold two_channels, exist_all; cbn; try lia;
  repeat split; try lia; try discriminate; try reflexivity; intros c H; repeat destruct H as [<-|H]; try contradiction; lia.
Qed.
Print Assumptions C73_accepted.
Print Assumptions C73_valid_circuit.
Print Assumptions C73_refused.
Print Assumptions C73_unavailable_channel_refuted.
Print Assumptions C73_beam_splitters_refuted.
