(** C60: drawing a circuit by station. *)
From Coq Require Import List String Arith NArith Bool Lia Sorted.
From Verif Require Import DrawModel DrawSpec StationModel StationSpec DrawProofs LayoutProofs PropDraw PropDrawn.
Import ListNotations.

Lemma member_in c l : member c l = true <-> In c l.
Proof.
  unfold member. rewrite existsb_exists. split; [intros (x & I & E); apply Nat.eqb_eq in E; subst; exact I | intros I; exists c; split; [exact I | apply Nat.eqb_refl]].
Qed.

Lemma present_in s n : present s n = true <-> exists c, In c s /\ In c n.
Proof.
  unfold present. rewrite existsb_exists. split; intros (c & I & E); exists c; (split; [exact I|]); apply member_in; exact E.
Qed.

Lemma combine_seq_sorted {A} (l : list A) : forall a, StronglySorted lt (map fst (combine (seq a (List.length l)) l)) /\
  forall j c, In (j, c) (combine (seq a (List.length l)) l) <-> a <= j /\ nth_error l (j - a) = Some c.
Proof.
  induction l as [|x l IH]; intros a; cbn [List.length seq combine map].
  - split; [constructor|]. intros j c. split; [intros [] | intros (_ & E); destruct (j - a); discriminate].
  - destruct (IH (S a)) as (S1 & S2). split.
    + cbn [fst]. constructor; [exact S1|]. apply Forall_forall. intros j J. apply in_map_iff in J. destruct J as ((j' & c) & <- & J). apply S2 in J. cbn [fst]. lia.
    + intros j c. cbn [In]. rewrite S2. split.
      * intros [E|(L & E)]; [inversion E; subst; split; [lia|]; rewrite Nat.sub_diag; reflexivity|]. split; [lia|].
        replace (j - a) with (S (j - S a)) by lia. exact E.
      * intros (L & E). destruct (Nat.eq_dec j a) as [->|NE]; [left; rewrite Nat.sub_diag in E; cbn in E; congruence|]. right. split; [lia|].
        replace (j - a) with (S (j - S a)) in E by lia. exact E.
Qed.

Lemma sorted_filter (f : nat * nat -> bool) l : StronglySorted lt (map fst l) -> StronglySorted lt (map fst (filter f l)).
Proof.
  induction l as [|x l IH]; cbn [map filter]; intros H; [exact H|]. apply StronglySorted_inv in H. destruct H as (H & F). destruct (f x); cbn [map]; [|apply IH, H].
  constructor; [apply IH, H|]. rewrite Forall_forall in *. intros y Y. apply F. apply in_map_iff in Y. destruct Y as (z & <- & Z). apply filter_In in Z. apply in_map, Z.
Qed.

Lemma local_channels_shown station node : shown_channels station node (local_channels station node).
Proof.
  unfold local_channels. destruct (combine_seq_sorted station 0) as (S1 & S2). split; [apply sorted_filter, S1|].
  intros j. rewrite in_map_iff. split.
  - intros ((j' & c) & <- & I). apply filter_In in I. destruct I as (I & M). apply S2 in I. rewrite Nat.sub_0_r in I. exists c. split; [apply I | apply member_in, M].
  - intros (c & E & I). exists (j, c). split; [reflexivity|]. apply filter_In. split; [apply S2; rewrite Nat.sub_0_r; split; [lia | exact E] | apply member_in, I].
Qed.

Lemma local_channels_nil station node : local_channels station node = [] <-> ~ exists c, In c station /\ In c node.
Proof.
  pose proof (local_channels_shown station node) as (_ & H). split.
  - intros E (c & I & J). apply In_nth_error in I. destruct I as (j & I). rewrite E in H. apply (proj2 (H j)). exists c. auto.
  - intros N. destruct (local_channels station node) as [|j l]; [reflexivity|]. exfalso. apply N. destruct (proj1 (H j) (or_introl eq_refl)) as (c & E & I).
    exists c. split; [apply nth_error_In in E; exact E | exact I].
Qed.

Lemma local_channels_present station node : local_channels station node <> [] <-> present station node = true.
Proof.
  rewrite local_channels_nil, present_in. split; [|tauto]. intros H. destruct (existsb (fun c => member c node) station) eqn:E.
  - apply existsb_exists in E. destruct E as (c & I & J). exists c. split; [exact I | apply member_in, J].
  - exfalso. apply H. intros (c & I & J). assert (X : existsb (fun c => member c node) station = true) by (apply existsb_exists; exists c; split; [exact I | apply member_in, J]). congruence.
Qed.

(** ** Which nodes are shown *)

(** Is the node shown at the station. *)
Definition kept (mine : list nat * list nat) (nd : part) : Prop := p_kind nd = Bridge \/ acts_at mine nd.

Definition represents (mine : list nat * list nat) (nd : part) (lo : local) : Prop :=
  lo_kind lo = p_kind nd /\ lo_gate lo = p_gate nd /\
  shown_channels (fst mine) (p_optical nd) (lo_optical lo) /\ shown_channels (snd mine) (p_classical nd) (lo_classical lo).

Lemma local_node_some sts me mine i nd lo : local_node sts me mine i nd = Some lo -> represents mine nd lo /\ kept mine nd.
Proof.
  unfold local_node. pose proof (local_channels_shown (fst mine) (p_optical nd)) as SO. pose proof (local_channels_shown (snd mine) (p_classical nd)) as SC.
  pose proof (local_channels_nil (fst mine) (p_optical nd)) as NO. pose proof (local_channels_nil (snd mine) (p_classical nd)) as NC.
  assert (KEPT : local_channels (fst mine) (p_optical nd) <> [] \/ local_channels (snd mine) (p_classical nd) <> [] -> acts_at mine nd).
  { intros [H|H]; apply local_channels_present, present_in in H; [left | right]; exact H. }
  destruct (p_kind nd) eqn:EK.
  - intros H. inversion H; subst; clear H. unfold represents. cbn. rewrite EK. split; [split; [reflexivity|]; split; [reflexivity|]; split; assumption | left; exact EK].
  - destruct (local_channels (fst mine) (p_optical nd)) as [|x o] eqn:EO; destruct (local_channels (snd mine) (p_classical nd)) as [|y c] eqn:EC; intros H; try discriminate;
      inversion H; subst; clear H; unfold represents; cbn; rewrite EK; (split; [split; [reflexivity|]; split; [reflexivity|]; split; assumption | right; apply KEPT; (left; discriminate) || (right; discriminate)]).
  - destruct (local_channels (fst mine) (p_optical nd)) as [|x o] eqn:EO; destruct (local_channels (snd mine) (p_classical nd)) as [|y c] eqn:EC; intros H; try discriminate;
      inversion H; subst; clear H; unfold represents; cbn; rewrite EK; (split; [split; [reflexivity|]; split; [reflexivity|]; split; assumption | right; apply KEPT; (left; discriminate) || (right; discriminate)]).
Qed.

Lemma local_node_none sts me mine i nd : local_node sts me mine i nd = None -> ~ kept mine nd.
Proof.
  unfold local_node. pose proof (local_channels_nil (fst mine) (p_optical nd)) as NO. pose proof (local_channels_nil (snd mine) (p_classical nd)) as NC.
  intros H. assert (X : p_kind nd <> Bridge /\ local_channels (fst mine) (p_optical nd) = [] /\ local_channels (snd mine) (p_classical nd) = []).
  { destruct (p_kind nd); [discriminate| |]; (split; [discriminate|]);
      destruct (local_channels (fst mine) (p_optical nd)); destruct (local_channels (snd mine) (p_classical nd)); try discriminate; split; reflexivity. }
  destruct X as (X1 & X2 & X3). intros [K|[K|K]]; [congruence | apply NO in X2; exact (X2 K) | apply NC in X3; exact (X3 K)].
Qed.

Lemma local_nodes_at sts me mine : forall nds i n lo, nth_error (local_nodes sts me mine i nds) n = Some lo ->
  exists k nd, nth_error nds k = Some nd /\ local_node sts me mine (i + k) nd = Some lo /\
    n = List.length (local_nodes sts me mine i (firstn k nds)).
Proof.
  induction nds as [|nd nds IH]; intros i n lo H; cbn [local_nodes] in H; [destruct n; discriminate|].
  destruct (local_node sts me mine i nd) as [lo0|] eqn:E.
  - destruct n as [|n]; cbn [nth_error] in H.
    + exists 0, nd. cbn [nth_error firstn local_nodes List.length]. rewrite Nat.add_0_r. split; [reflexivity|]. split; [congruence | reflexivity].
    + destruct (IH _ _ _ H) as (k & nd' & A & B & C). exists (S k), nd'. cbn [nth_error firstn local_nodes]. rewrite E. cbn [List.length].
      split; [exact A|]. split; [replace (i + S k) with (S i + k) by lia; exact B | f_equal; exact C].
  - destruct (IH _ _ _ H) as (k & nd' & A & B & C). exists (S k), nd'. cbn [nth_error firstn local_nodes]. rewrite E.
    split; [exact A|]. split; [replace (i + S k) with (S i + k) by lia; exact B | exact C].
Qed.

(** The circuit of a station contains exactly the nodes that act on its channels, and the bridges, in the same order:
    there is an increasing numbering of the local nodes by the nodes of the total circuit, which leaves out only nodes
    without a channel at the station; every local node acts on the lines of its channels at the station. *)
Theorem C60_nodes sts me mine nds :
  exists places, StronglySorted lt places /\
    Forall2 (fun k lo => exists nd, nth_error nds k = Some nd /\ represents mine nd lo /\ local_node sts me mine k nd = Some lo)
      places (local_nodes sts me mine 0 nds) /\
    forall k nd, nth_error nds k = Some nd -> (In k places <-> p_kind nd = Bridge \/ acts_at mine nd).
Proof.
  assert (G : forall nds i, exists places, StronglySorted lt places /\ Forall (fun k => i <= k) places /\
    Forall2 (fun k lo => exists nd, nth_error nds (k - i) = Some nd /\ represents mine nd lo /\ local_node sts me mine k nd = Some lo) places (local_nodes sts me mine i nds) /\
    forall k nd, nth_error nds k = Some nd -> (In (i + k) places <-> kept mine nd)).
  { clear nds. induction nds as [|nd nds IH]; intros i; cbn [local_nodes].
    - exists []. split; [constructor|]. split; [constructor|]. split; [constructor|]. intros k nd H. destruct k; discriminate.
    - destruct (IH (S i)) as (places & P1 & P2 & P3 & P4).
      assert (F2 : Forall2 (fun k lo => exists nd', nth_error (nd :: nds) (k - i) = Some nd' /\ represents mine nd' lo /\ local_node sts me mine k nd' = Some lo) places (local_nodes sts me mine (S i) nds)).
      { clear - P2 P3. induction P3 as [|k lo ks los (nd' & A & B) P3 IH]; [constructor|]. apply Forall_cons_iff in P2. destruct P2 as (L & P2).
        constructor; [|apply IH, P2]. exists nd'. split; [|exact B]. replace (k - i) with (S (k - S i)) by lia. exact A. }
      assert (LE : Forall (fun k => i <= k) places) by (eapply Forall_impl; [|exact P2]; cbv beta; intros; lia).
      destruct (local_node sts me mine i nd) as [lo|] eqn:E.
      + destruct (local_node_some _ _ _ _ _ _ E) as (R & K). exists (i :: places).
        split; [constructor; [exact P1 | eapply Forall_impl; [|exact P2]; cbv beta; intros; lia]|].
        split; [constructor; [lia | exact LE]|]. split; [constructor; [exists nd; rewrite Nat.sub_diag; cbn; auto | exact F2]|].
        intros k nd' H. destruct k as [|k]; cbn [nth_error] in H.
        * inversion H; subst. rewrite Nat.add_0_r. split; [intros _; exact K | intros _; left; reflexivity].
        * specialize (P4 k nd' H). replace (i + S k) with (S i + k) by lia. split; [intros [X|X]; [lia | apply P4, X] | intros X; right; apply P4, X].
      + exists places. split; [exact P1|]. split; [exact LE|]. split; [exact F2|]. intros k nd' H. destruct k as [|k]; cbn [nth_error] in H.
        * inversion H; subst. rewrite Nat.add_0_r. split; [intros X; exfalso; rewrite Forall_forall in P2; specialize (P2 _ X); lia | intros X; exfalso; apply (local_node_none _ _ _ _ _ E X)].
        * specialize (P4 k nd' H). replace (i + S k) with (S i + k) by lia. exact P4. }
  destruct (G nds 0) as (places & P1 & _ & P3 & P4). exists places. split; [exact P1|]. split; [|exact P4].
  eapply forall2_weaken; [|exact P3]. intros k lo (nd & A & B). exists nd. rewrite Nat.sub_0_r in A. auto.
Qed.
Print Assumptions C60_nodes.

(** ** Links *)

Lemma in_other_names pick sts me mine nd name : In name (other_names pick sts me mine nd) <->
  name <> me /\ exists ch k, In (name, ch) sts /\
    kind_of_link (present (fst mine) (p_optical nd)) (present (snd mine) (p_classical nd)) (present (fst ch) (p_optical nd)) (present (snd ch) (p_classical nd)) = Some k /\ pick k = true.
Proof.
  unfold other_names. rewrite in_flat_map. split.
  - intros ((n & ch) & I & H). cbn [fst snd] in H. destruct (String.eqb n me) eqn:E; [contradiction|]. apply String.eqb_neq in E.
    destruct (kind_of_link _ _ _ _) as [k|] eqn:EK; [|contradiction]. destruct (pick k) eqn:EP; [|contradiction]. destruct H as [<-|[]].
    split; [exact E|]. exists ch, k. auto.
  - intros (NE & ch & k & I & EK & EP). exists (name, ch). split; [exact I|]. cbn [fst snd]. apply String.eqb_neq in NE. rewrite NE, EK, EP. left. reflexivity.
Qed.

Lemma some_of_in l : some_of l = true <-> exists x, In x l.
Proof. destruct l as [|x l]; cbn; split; [discriminate | intros (x & []) | intros _; exists x; left; reflexivity | reflexivity]. Qed.

Lemma merged_in k name : In name (to_classical (merge_links k)) \/ In name (to_optical (merge_links k)) \/ In name (to_both (merge_links k)) <->
  In name (to_classical k) \/ In name (to_optical k) \/ In name (to_both k).
Proof.
  unfold merge_links. destruct (merge_needed k); [|reflexivity]. cbn. rewrite !in_app_iff. tauto.
Qed.

Lemma find_unique sts me mine : named_apart sts -> channels_of sts me = Some mine -> In (me, mine) sts /\ forall ch, In (me, ch) sts -> ch = mine.
Proof.
  unfold named_apart, channels_of. induction sts as [|(n & c) sts IH]; cbn [map fst find option_map]; intros ND H; [discriminate|].
  apply NoDup_cons_iff in ND. destruct ND as (NI & ND). destruct (String.eqb n me) eqn:E.
  - apply String.eqb_eq in E. cbn in H. inversion H; subst. split; [left; reflexivity|]. intros ch [X|X]; [congruence|]. exfalso. apply NI. apply (in_map fst) in X. exact X.
  - apply String.eqb_neq in E. destruct (IH ND H) as (A & B). split; [right; exact A|]. intros ch [X|X]; [congruence | apply B, X].
Qed.

Lemma kind_some oh ch ot ct : oh || ch = true -> ((exists k, kind_of_link oh ch ot ct = Some k) <-> ot || ct = true).
Proof.
  intros H. unfold kind_of_link. destruct (ot || ct) eqn:E; cbn [negb].
  - split; [intros _; reflexivity|]. intros _. destruct (ch && negb oh); [eexists; reflexivity|]. destruct (ct && negb ot); [eexists; reflexivity|].
    destruct ((oh && negb ch) && (ot && negb ct)); eexists; reflexivity.
  - split; [intros (k & X); discriminate | discriminate].
Qed.

(** A link leads from a node at a station to another station exactly if the node connects the two stations. *)
Theorem C60_links sts me mine i nd lo name ch : named_apart sts -> channels_of sts name = Some ch -> name <> me ->
  local_node sts me mine i nd = Some lo ->
  (leads_to lo name <-> connects mine ch nd).
Proof.
  intros ND CH NE H. destruct (find_unique sts name ch ND CH) as (IN & UN). pose proof (local_node_some _ _ _ _ _ _ H) as (_ & KP).
  assert (OTHER : acts_at mine nd -> (In name (to_classical (other_links sts me mine nd)) \/ In name (to_optical (other_links sts me mine nd)) \/ In name (to_both (other_links sts me mine nd)) <-> acts_at mine nd /\ acts_at ch nd)).
  { intros AM. unfold other_links. cbn [to_classical to_optical to_both]. rewrite !in_other_names.
    set (K := kind_of_link (present (fst mine) (p_optical nd)) (present (snd mine) (p_classical nd)) (present (fst ch) (p_optical nd)) (present (snd ch) (p_classical nd))).
    assert (HERE : present (fst mine) (p_optical nd) || present (snd mine) (p_classical nd) = true).
    { apply orb_true_iff. rewrite !present_in. exact AM. }
    assert (THERE : acts_at ch nd <-> exists k, K = Some k).
    { unfold K. rewrite kind_some by exact HERE. rewrite orb_true_iff, !present_in. reflexivity. }
    rewrite THERE. split.
    - intros [X|[X|X]]; destruct X as (_ & ch' & k & I & E & _); apply UN in I; subst ch'; (split; [exact AM | exists k; exact E]).
    - intros (_ & k & E). destruct k; [left | right; left | right; right]; (split; [exact NE|]); eexists ch, _; (split; [exact IN|]); (split; [exact E | reflexivity]). }
  unfold local_node in H. unfold connects.
  assert (CASE : forall k, (match k with Measurement => measurement_links sts me mine nd | _ => other_links sts me mine nd end) =
     match k with Measurement => measurement_links sts me mine nd | _ => other_links sts me mine nd end) by reflexivity.
  destruct (p_kind nd) eqn:EK.
  - inversion H; subst. unfold leads_to. cbn. tauto.
  - assert (L : lo_links lo = merge_links (measurement_links sts me mine nd)).
    { destruct (local_channels (fst mine) (p_optical nd)); destruct (local_channels (snd mine) (p_classical nd)); try discriminate; inversion H; reflexivity. }
    unfold leads_to. rewrite L, merged_in. unfold measurement_links. cbn [to_classical to_optical to_both]. rewrite in_flat_map. split.
    + intros [X|[[]|[]]]. destruct X as ((o & c) & I & X). apply in_flat_map in X. destruct X as ((n & ch') & J & X). cbn [fst snd] in X.
      destruct (String.eqb n me); [contradiction|]. destruct ((_ || _) && (_ || _)) eqn:B in X; [|contradiction]. destruct X as [->|[]]. apply UN in J. subst ch'.
      apply andb_true_iff in B. destruct B as (B1 & B2). rewrite orb_true_iff, !member_in in B1, B2.
      apply In_nth_error in I. destruct I as (k & I). exists k, o, c.
      assert (NC : forall (l m : list nat) k o c, nth_error (combine l m) k = Some (o, c) -> nth_error l k = Some o /\ nth_error m k = Some c).
      { clear. induction l as [|x l IH]; intros [|y m] [|k] o c E; cbn in *; try discriminate; [inversion E; auto | auto]. }
      destruct (NC _ _ _ _ _ I) as (A & B). split; [exact A|]. split; [exact B|]. split; assumption.
    + intros (k & o & c & A & B & C & E). left. exists (o, c). split; [apply (nth_error_In _ k), nth_combine; assumption|].
      apply in_flat_map. exists (name, ch). split; [exact IN|]. cbn [fst snd]. apply String.eqb_neq in NE. rewrite NE.
      replace ((member o (fst mine) || member c (snd mine)) && (member o (fst ch) || member c (snd ch))) with true; [left; reflexivity|].
      symmetry. apply andb_true_iff. rewrite !orb_true_iff, !member_in. split; assumption.
  - assert (L : lo_links lo = merge_links (other_links sts me mine nd)).
    { destruct (local_channels (fst mine) (p_optical nd)); destruct (local_channels (snd mine) (p_classical nd)); try discriminate; inversion H; reflexivity. }
    unfold leads_to. rewrite L, merged_in. apply OTHER. destruct KP as [KP|KP]; [congruence | exact KP].
Qed.
Print Assumptions C60_links.

Lemma connects_sym a b nd : connects a b nd <-> connects b a nd.
Proof.
  unfold connects. destruct (p_kind nd); [reflexivity| |]; [|tauto]. split; intros (k & o & c & A & B & C & D); exists k, o, c; auto.
Qed.

Lemma connects_kept a b nd : connects a b nd -> acts_at b nd.
Proof.
  unfold connects. destruct (p_kind nd); [contradiction| |tauto]. intros (k & o & c & A & B & _ & [D|D]); [left; exists o | right; exists c];
    (split; [exact D|]); [apply (nth_error_In _ k A) | apply (nth_error_In _ k B)].
Qed.

(** Links are seen from both sides: if a node at station [a] has a link to station [b], the node is also shown at
    station [b], and has a link to station [a] there, with the same marker. *)
Theorem C60_both_sides sts a b ca cb i nd lo : named_apart sts -> channels_of sts a = Some ca -> channels_of sts b = Some cb -> a <> b ->
  local_node sts a ca i nd = Some lo -> leads_to lo b ->
  exists lo', local_node sts b cb i nd = Some lo' /\ leads_to lo' a /\ lo_mark lo' = lo_mark lo /\ lo_mark lo <> None.
Proof.
  intros ND CA CB NE H L. pose proof (proj1 (C60_links sts a ca i nd lo b cb ND CB ltac:(congruence) H) L) as C.
  destruct (local_node sts b cb i nd) as [lo'|] eqn:E.
  2: { exfalso. apply (local_node_none _ _ _ _ _ E). right. apply (connects_kept _ _ _ C). }
  exists lo'. split; [reflexivity|].
  assert (L' : leads_to lo' a) by (apply (C60_links sts b cb i nd lo' a ca ND CA NE E), connects_sym, C). split; [exact L'|].
  assert (MARK : forall me mine lo, local_node sts me mine i nd = Some lo -> (exists n, leads_to lo n) -> lo_mark lo = Some (link_mark i)).
  { clear. intros me mine lo H (n & L). unfold local_node in H.
    assert (LAB : forall k, In n (to_classical (merge_links k)) \/ In n (to_optical (merge_links k)) \/ In n (to_both (merge_links k)) -> link_label k <> None).
    { intros k X. apply (proj1 (merged_in k n)) in X. unfold link_label. destruct (merge_needed k) eqn:M; [discriminate|].
      destruct (some_of (to_optical k)) eqn:O; [discriminate|]. destruct (some_of (to_classical k)) eqn:C; [discriminate|].
      unfold merge_needed in M. apply orb_false_iff in M. destruct M as (B & _).
      intros _. destruct X as [X|[X|X]]; [assert (T : some_of (to_classical k) = true) | assert (T : some_of (to_optical k) = true) | assert (T : some_of (to_both k) = true)];
        try (apply some_of_in; exists n; exact X); congruence. }
    destruct (p_kind nd).
    - inversion H; subst. unfold leads_to in L. cbn in L. tauto.
    - destruct (local_channels (fst mine) (p_optical nd)); destruct (local_channels (snd mine) (p_classical nd)); try discriminate; inversion H; subst; cbn [lo_mark];
        unfold leads_to in L; cbn [lo_links] in L; apply LAB in L; destruct (link_label _); congruence.
    - destruct (local_channels (fst mine) (p_optical nd)); destruct (local_channels (snd mine) (p_classical nd)); try discriminate; inversion H; subst; cbn [lo_mark];
        unfold leads_to in L; cbn [lo_links] in L; apply LAB in L; destruct (link_label _); congruence. }
  rewrite (MARK _ _ _ H (ex_intro _ b L)), (MARK _ _ _ E (ex_intro _ a L')). split; [reflexivity | discriminate].
Qed.
Print Assumptions C60_both_sides.

(** The markers tell the nodes of one circuit apart. *)
Theorem C60_marks i j : link_mark i = link_mark j -> i = j.
Proof.
  unfold link_mark. intros H. set (a := (i + 30) / 9) in *. set (b := (j + 30) / 9) in *.
  pose proof (Nat.div_mod (i + 30) 9 ltac:(lia)) as DA. pose proof (Nat.mod_upper_bound (i + 30) 9 ltac:(lia)) as MA. fold a in DA.
  pose proof (Nat.div_mod (j + 30) 9 ltac:(lia)) as DB. pose proof (Nat.mod_upper_bound (j + 30) 9 ltac:(lia)) as MB. fold b in DB.
  pose proof (Nat.div_mod i 10 ltac:(lia)) as EA. pose proof (Nat.mod_upper_bound i 10 ltac:(lia)) as NA.
  pose proof (Nat.div_mod j 10 ltac:(lia)) as EB. pose proof (Nat.mod_upper_bound j 10 ltac:(lia)) as NB.
  assert (a = b) by lia. lia.
Qed.
Print Assumptions C60_marks.

(** The kind of a link of a node that is not a measurement: optical if the node is purely optical on both sides;
    classical if it is purely classical on one side; the remaining links, and in case there are links of different
    kinds all of them, are (also) shown as optical and classical. *)
Theorem C60_kinds sts me mine i nd lo name ch : named_apart sts -> channels_of sts name = Some ch -> name <> me ->
  p_kind nd = Other -> local_node sts me mine i nd = Some lo ->
  (In name (to_optical (lo_links lo)) <-> optical_at mine nd /\ ~ classical_at mine nd /\ optical_at ch nd /\ ~ classical_at ch nd) /\
  (In name (to_classical (lo_links lo)) <-> acts_at ch nd /\ (~ optical_at mine nd \/ ~ optical_at ch nd)) /\
  (optical_at mine nd -> optical_at ch nd -> classical_at mine nd \/ classical_at ch nd -> In name (to_both (lo_links lo))) /\
  (In name (to_both (lo_links lo)) -> connects mine ch nd).
Proof.
  intros ND CH NE KO H. destruct (find_unique sts name ch ND CH) as (IN & UN). pose proof (local_node_some _ _ _ _ _ _ H) as (_ & KP).
  pose proof (C60_links sts me mine i nd lo name ch ND CH NE H) as LK.
  assert (AM : acts_at mine nd) by (destruct KP as [KP|KP]; [congruence | exact KP]).
  assert (L : lo_links lo = merge_links (other_links sts me mine nd)).
  { unfold local_node in H. rewrite KO in H. destruct (local_channels (fst mine) (p_optical nd)); destruct (local_channels (snd mine) (p_classical nd)); try discriminate; inversion H; reflexivity. }
  set (oh := present (fst mine) (p_optical nd)). set (chh := present (snd mine) (p_classical nd)). set (ot := present (fst ch) (p_optical nd)). set (ct := present (snd ch) (p_classical nd)).
  assert (OH : optical_at mine nd <-> oh = true) by (unfold oh; rewrite present_in; reflexivity).
  assert (CHH : classical_at mine nd <-> chh = true) by (unfold chh; rewrite present_in; reflexivity).
  assert (OT : optical_at ch nd <-> ot = true) by (unfold ot; rewrite present_in; reflexivity).
  assert (CT : classical_at ch nd <-> ct = true) by (unfold ct; rewrite present_in; reflexivity).
  assert (PICK : forall pick, In name (other_names pick sts me mine nd) <-> exists k, kind_of_link oh chh ot ct = Some k /\ pick k = true).
  { intros pick. rewrite in_other_names. split; [intros (_ & ch' & k & I & E); apply UN in I; subst ch'; exists k; exact E | intros (k & E); split; [exact NE|]; exists ch, k; auto]. }
  assert (TO : to_optical (lo_links lo) = to_optical (other_links sts me mine nd)) by (rewrite L; unfold merge_links; destruct (merge_needed _); reflexivity).
  assert (TC : to_classical (lo_links lo) = to_classical (other_links sts me mine nd)) by (rewrite L; unfold merge_links; destruct (merge_needed _); reflexivity).
  assert (TB : In name (to_both (other_links sts me mine nd)) -> In name (to_both (lo_links lo))).
  { rewrite L. unfold merge_links. destruct (merge_needed _); [|auto]. cbn. rewrite !in_app_iff. tauto. }
  assert (HERE : oh = true \/ chh = true) by (rewrite <- OH, <- CHH; exact AM).
  split; [|split; [|split]].
  - rewrite TO. unfold other_links. cbn [to_optical]. rewrite PICK, OH, CHH, OT, CT, !not_true_iff_false. unfold kind_of_link. clearbody oh chh ot ct. clear - HERE.
    destruct oh, chh, ot, ct; cbn; (split; [intros (k & X & Y); inversion X; subst; try discriminate; intuition discriminate |
      intros X; first [exists LinkOptical; split; reflexivity | exfalso; intuition discriminate]]).
  - rewrite TC. unfold other_links. cbn [to_classical]. unfold acts_at. rewrite PICK, OH, OT, CT, !not_true_iff_false. unfold kind_of_link. clearbody oh chh ot ct. clear - HERE.
    destruct oh, chh, ot, ct; cbn; (split; [intros (k & X & Y); inversion X; subst; try discriminate; intuition discriminate |
      intros X; first [exists LinkClassical; split; reflexivity | exfalso; intuition discriminate]]).
  - intros A B C. apply TB. unfold other_links. cbn [to_both]. rewrite PICK. apply OH in A. apply OT in B. rewrite CHH, CT in C. unfold kind_of_link. rewrite A, B.
    clearbody chh ct. clear - C. destruct chh, ct; cbn; try (exists LinkBoth; split; reflexivity); exfalso; intuition discriminate.
  - intros X. apply LK. right; right; exact X.
Qed.
Print Assumptions C60_kinds.
