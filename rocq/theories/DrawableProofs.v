(** C59: proofs about drawings that do not fail. *)
From Coq Require Import List String Arith NArith Bool Lia.
From Verif Require Import DrawModel DrawSpec DrawProofs LayoutProofs.
Import ListNotations.

(** Nodes that are not bridges. *)
Fixpoint solid (nds : list drawn) : nat :=
  match nds with [] => 0 | nd :: rest => (if d_bridge nd then 0 else 1) + solid rest end.

Lemma gate_length_solid g nds : gate_length g nds <= solid nds.
Proof.
  induction nds as [|nd nds IH]; cbn [gate_length solid]; [lia|].
  destruct (d_bridge nd); [lia|]. destruct (String.eqb (d_gate nd) g); lia.
Qed.

(** Nodes of the combined gate of [prev] that are still to come. *)
Definition owed (prev : option drawn) (rest : list drawn) : nat :=
  match prev with Some b => if in_gate b then gate_length (d_gate b) rest else 0 | None => 0 end.

Lemma owed_solid prev rest : owed prev rest <= solid rest.
Proof. unfold owed. destruct prev as [b|]; [|lia]. destruct (in_gate b); [apply gate_length_solid | lia]. Qed.

Definition prepared (cv : canvas) (prev : option drawn) (rest : list drawn) (st : progress) : Prop :=
  owed prev rest = 0 \/
  exists page xs, waiting st = Some (page, xs) /\ List.length xs = owed prev rest /\ per_line cv * page <= List.length (positions st).

Definition plain_node (nd : drawn) : Prop :=
  d_gate nd <> "single"%string -> d_bridge nd = false /\ (d_optical nd <> [] \/ d_classical nd <> []).

Lemma fitting_page cv o pos pl pos' : 0 < per_line cv -> place_fitting cv o pos = (pl, pos') ->
  per_line cv * on_page pl <= List.length pos /\ List.length pos' <= S (List.length pos) /\ List.length pos <= List.length pos'.
Proof.
  intros P H. unfold place_fitting in H. set (p := first_fit _ _ _) in H. destruct (List.length pos <=? p) eqn:E; inversion H; subst; clear H; cbn [on_page].
  - pose proof (Nat.mul_div_le (List.length pos) (per_line cv) ltac:(lia)). rewrite app_length. cbn [List.length]. lia.
  - apply Nat.leb_gt in E. pose proof (Nat.mul_div_le p (per_line cv) ltac:(lia)). rewrite occupy_length. lia.
Qed.

Lemma columns_bound n : 2 <= n -> 4 * ((1 + n) / 2) <= 3 * n.
Proof.
  intros N2. pose proof (Nat.div_mod (1 + n) 2 ltac:(lia)) as D. pose proof (Nat.mod_upper_bound (1 + n) 2 ltac:(lia)).
  set (c := (1 + n) / 2) in *. destruct (Nat.eq_dec n 2) as [->|NE]; [|lia]. lia.
Qed.

Lemma place_gate_some cv n o pos : 2 <= per_line cv -> 2 <= n -> n <= 2 * per_line cv ->
  exists page xs pad, place_gate cv n o pos = Some (Progress (pos ++ pad) (Some (page, xs))) /\ List.length xs = n /\
    per_line cv * page <= List.length (pos ++ pad) /\ 2 * List.length (pos ++ pad) <= 2 * List.length pos + 3 * n /\
    List.length pos < List.length (pos ++ pad).
Proof.
  intros P N2 NL. unfold place_gate. set (len := List.length pos). set (P' := per_line cv) in *. set (k := len mod P'). set (cols := (1 + n) / 2).
  replace (P' <=? 1) with false by (symmetry; apply Nat.leb_gt; lia).
  assert (C5 : cols <= P').
  { unfold cols. apply Nat.lt_succ_r. apply Nat.div_lt_upper_bound; lia. }
  pose proof (columns_bound n N2) as CB. fold cols in CB.
  assert (C6 : 1 <= cols) by (unfold cols; apply Nat.div_le_lower_bound; lia).
  pose proof (Nat.div_mod len P' ltac:(lia)) as DL. fold k in DL. pose proof (Nat.mod_upper_bound len P' ltac:(lia)) as KL. fold k in KL.
  set (page := (len + cols) / P'). pose proof (Nat.div_mod (len + cols) P' ltac:(lia)) as DP. fold page in DP.
  pose proof (Nat.mod_upper_bound (len + cols) P' ltac:(lia)) as MP.
  destruct (page =? len / P') eqn:E; cbn [negb].
  - apply Nat.eqb_eq in E. exists page, (map (fun j => spacing cv * (4 * k + (if Nat.even n then 1 else 2) + 2 * j)) (seq 0 n)), (repeat o cols).
    split; [reflexivity|]. rewrite map_length, seq_length, app_length, repeat_length. fold len. rewrite E. split; [reflexivity|]. split; [lia|]. split; lia.
  - apply Nat.eqb_neq in E. assert (PG : page = len / P' + 1).
    { assert (len / P' <= page) by (apply Nat.div_le_mono; lia). assert (page < len / P' + 2) by (apply Nat.div_lt_upper_bound; lia). lia. }
    exists page, (map (fun j => spacing cv * (4 * 0 + (if Nat.even n then 1 else 2) + 2 * j)) (seq 0 n)), (repeat 0%N (P' - k) ++ repeat o cols).
    rewrite app_assoc. split; [reflexivity|]. rewrite map_length, seq_length, !app_length, !repeat_length. fold len.
    assert (P' - k <= cols) by (rewrite PG in DP; nia). split; [reflexivity|]. rewrite PG. split; [nia|]. split; lia.
Qed.

Lemma used_bits_some no nc nds : 0 < no + nc -> exists x, used_bits no nc nds = Some x.
Proof.
  intros L. induction nds as [|nd nds (y & IH)]; cbn [used_bits]; [eexists; reflexivity|].
  destruct (node_bits_some no nc (d_optical nd) (d_classical nd) L) as (x & ->). rewrite IH. eexists; reflexivity.
Qed.

Lemma all_bits_some no nc : 0 < no + nc -> exists x, all_bits no nc = Some x.
Proof.
  intros L. unfold all_bits. apply int_of_bits_some. destruct (no + nc) as [|m]; [lia|]. discriminate.
Qed.

Lemma touches_own no nc nd : in_range no nc nd -> d_optical nd <> [] \/ d_classical nd <> [] -> exists b, touch no nc nd b.
Proof.
  intros (RO & RC) H. rewrite Forall_forall in RO, RC.
  assert (X : exists m, In m (on_lines no nd) /\ m < no + nc).
  { unfold on_lines. destruct H as [H|H].
    - destruct (d_optical nd) as [|c cs]; [congruence|]. exists c. split; [left; reflexivity|]. specialize (RO c (or_introl eq_refl)). lia.
    - destruct (d_classical nd) as [|c cs]; [congruence|]. exists (no + c). split; [apply in_app_iff; right; left; reflexivity|].
      specialize (RC c (or_introl eq_refl)). lia. }
  destruct X as (m & I & L). exists (no + nc - 1 - m). split; [lia|]. apply in_app_iff. left. replace (no + nc - 1 - (no + nc - 1 - m)) with m by lia. exact I.
Qed.

Lemma own_bits_nonzero no nc nd o : in_range no nc nd -> d_optical nd <> [] \/ d_classical nd <> [] -> covers no nc nd o -> o <> 0%N.
Proof.
  intros R H C. destruct (touches_own no nc nd R H) as (b & T). specialize (C b b b (conj (le_n _) (le_n _)) T T).
  intros ->. destruct (zero_bits 0%N) as (Z & _). exact (Z eq_refl b C).
Qed.

(** One step never fails, and the columns used stay within the budget. *)
Lemma place_node_some cv no nc prev nd rest st B :
  2 <= per_line cv -> 0 < no + nc -> in_range no nc nd -> plain_node nd -> match prev with Some b => plain_node b | None => True end ->
  (starts_gate prev nd = true -> gate_length (d_gate nd) (nd :: rest) <= 2 * per_line cv) ->
  prepared cv prev (nd :: rest) st ->
  2 * List.length (positions st) + 3 * (solid (nd :: rest) - owed prev (nd :: rest)) <= B ->
  exists pl st', place_node cv no nc prev nd (nd :: rest) st = Some (pl, st') /\
    2 * (per_line cv * on_page pl) <= B /\ prepared cv (Some nd) rest st' /\
    2 * List.length (positions st') + 3 * (solid rest - owed (Some nd) rest) <= B.
Proof.
  intros P L R PN PP LIM PR BU. unfold place_node.
  destruct (d_bridge nd) eqn:EB.
  - destruct (all_bits_some no nc L) as (x & ->). unfold place_last. eexists _, _. split; [reflexivity|]. cbn [on_page positions].
    pose proof (Nat.mul_div_le (List.length (positions st)) (per_line cv) ltac:(lia)).
    assert (IG : in_gate nd = false) by (unfold in_gate; rewrite EB; reflexivity).
    split; [lia|]. split; [left; cbn [owed]; rewrite IG; reflexivity|]. rewrite bridge_length. cbn [owed]. rewrite IG.
    cbn [solid] in BU. rewrite EB in BU.
    assert (O : owed prev (nd :: rest) = 0). { unfold owed. destruct prev as [b|]; [|reflexivity]. destruct (in_gate b); [|reflexivity]. cbn [gate_length]. rewrite EB. reflexivity. }
    rewrite O in BU. lia.
  - set (n := gate_length (d_gate nd) (nd :: rest)) in *.
    assert (N1 : n = S (gate_length (d_gate nd) rest)) by (unfold n; cbn [gate_length]; rewrite EB, String.eqb_refl; reflexivity).
    cbn [solid] in BU. rewrite EB in BU.
    assert (GS : gate_length (d_gate nd) rest <= solid rest) by apply gate_length_solid.
    destruct (in_gate nd) eqn:IG; cbn [andb].
    + assert (GI : d_gate nd <> "single"%string).
      { unfold in_gate in IG. apply andb_true_iff in IG. destruct IG as (_ & IG). apply negb_true_iff, String.eqb_neq in IG. exact IG. }
      destruct (PN GI) as (_ & CH).
      destruct (starts_gate prev nd) eqn:SG; cbn [negb andb].
      * specialize (LIM eq_refl).
        assert (O : owed prev (nd :: rest) = 0).
        { unfold starts_gate in SG. rewrite IG in SG. cbn [andb] in SG. unfold owed. destruct prev as [b|]; [|reflexivity].
          destruct (in_gate b); [|reflexivity]. cbn [gate_length]. rewrite EB. rewrite String.eqb_sym in SG. destruct (String.eqb (d_gate nd) (d_gate b)); [discriminate|reflexivity]. }
        rewrite O in BU.
        replace (per_line cv <? n / 2) with false by (symmetry; apply Nat.ltb_ge; apply Nat.div_le_upper_bound; lia). cbn [orb].
        destruct (n <=? 1) eqn:EN; cbn [negb].
        -- apply Nat.leb_le in EN. destruct (node_bits_some no nc (d_optical nd) (d_classical nd) L) as (x & ->).
           set (o := linked_bits _ _ _).
           assert (O2 : owed (Some nd) rest = 0) by (cbn [owed]; rewrite IG; lia).
           destruct ((match prev with None => true | Some _ => false end || match d_optical nd with [] => match d_classical nd with [] => true | _ :: _ => false end | _ :: _ => false end)).
           ++ unfold place_last. eexists _, _. split; [reflexivity|]. cbn [on_page positions].
              pose proof (Nat.mul_div_le (List.length (positions st)) (per_line cv) ltac:(lia)). rewrite app_length. cbn [List.length].
              split; [lia|]. split; [left; exact O2|]. rewrite O2. lia.
           ++ destruct (place_fitting cv o (positions st)) as [pl pos'] eqn:PF. eexists _, _. split; [reflexivity|]. cbn [positions].
              destruct (fitting_page cv o _ _ _ ltac:(lia) PF) as (F1 & F2 & F3). split; [lia|]. split; [left; exact O2|]. rewrite O2. lia.
        -- apply Nat.leb_gt in EN. destruct (used_bits_some no nc (firstn n (nd :: rest)) L) as (used & EU). rewrite EU.
           assert (NZ : fill_bits (no + nc) used <> 0%N).
           { apply (own_bits_nonzero no nc nd _ R CH). apply (gate_covers no nc _ used nd EU); [|exact R|exact GI]. rewrite N1. left. reflexivity. }
           apply N.eqb_neq in NZ. rewrite NZ.
           destruct (place_gate_some cv n (fill_bits (no + nc) used) (positions st) P ltac:(lia) LIM) as (page & xs & pad & EG & LX & G1 & G2 & G3).
           rewrite EG. unfold next_of_gate. cbn [waiting]. destruct xs as [|x xs]; [exfalso; change (0 = n) in LX; lia|]. cbn [List.length] in LX.
           eexists _, _. split; [reflexivity|]. cbn [on_page positions]. split; [lia|]. split.
           ++ right. exists page, xs. cbn [waiting positions owed]. rewrite IG. split; [reflexivity|]. split; [lia | exact G1].
           ++ cbn [owed]. rewrite IG. lia.
      * (* a later node of the gate *)
        assert (O : owed prev (nd :: rest) = n).
        { unfold starts_gate in SG. rewrite IG in SG. cbn [andb] in SG. unfold owed. destruct prev as [b|]; [|discriminate].
          apply negb_false_iff, String.eqb_eq in SG.
          destruct (in_gate b) eqn:IB; [unfold n; rewrite SG; reflexivity|]. exfalso. unfold in_gate in IB. rewrite SG in IB.
          destruct (d_bridge b) eqn:BB.
          - destruct (PP ltac:(congruence)) as (X & _). congruence.
          - cbn [negb andb] in IB. apply negb_false_iff, String.eqb_eq in IB. congruence. }
        destruct PR as [PR|(page & xs & W & LX & G1)]; [rewrite O, N1 in PR; discriminate|]. rewrite O in *.
        unfold next_of_gate. rewrite W. destruct xs as [|x xs]; [exfalso; change (0 = n) in LX; lia|]. cbn [List.length] in LX.
        eexists _, _. split; [reflexivity|]. cbn [on_page positions]. split; [lia|]. split.
        ++ right. exists page, xs. cbn [waiting positions owed]. rewrite IG. split; [reflexivity|]. split; [lia | exact G1].
        ++ cbn [owed]. rewrite IG. lia.
    + assert (O : owed prev (nd :: rest) = 0).
      { unfold owed. destruct prev as [b|]; [|reflexivity]. destruct (in_gate b) eqn:IB; [|reflexivity]. cbn [gate_length]. rewrite EB.
        destruct (String.eqb (d_gate nd) (d_gate b)) eqn:EQ; [|reflexivity]. apply String.eqb_eq in EQ. unfold in_gate in IB, IG. rewrite EB, EQ in IG.
        apply andb_true_iff in IB. destruct IB as (_ & IB). rewrite IB in IG. discriminate. }
      rewrite O in BU. assert (O2 : owed (Some nd) rest = 0) by (cbn [owed]; rewrite IG; reflexivity).
      destruct (node_bits_some no nc (d_optical nd) (d_classical nd) L) as (x & ->).
      set (o := linked_bits _ _ _).
      destruct ((match prev with None => true | Some _ => false end || match d_optical nd with [] => match d_classical nd with [] => true | _ :: _ => false end | _ :: _ => false end)).
      ++ unfold place_last. eexists _, _. split; [reflexivity|]. cbn [on_page positions].
         pose proof (Nat.mul_div_le (List.length (positions st)) (per_line cv) ltac:(lia)). rewrite app_length. cbn [List.length].
         split; [lia|]. split; [left; exact O2|]. rewrite O2. lia.
      ++ destruct (place_fitting cv o (positions st)) as [pl pos'] eqn:PF. eexists _, _. split; [reflexivity|]. cbn [positions].
         destruct (fitting_page cv o _ _ _ ltac:(lia) PF) as (F1 & F2 & F3). split; [lia|]. split; [left; exact O2|]. rewrite O2. lia.
Qed.

Lemma place_nodes_some cv axes no nc B : 2 <= per_line cv -> 0 < no + nc -> B < 2 * (per_line cv * axes) ->
  forall nds prev st, Forall (fun nd => in_range no nc nd /\ plain_node nd) nds ->
    match prev with Some b => plain_node b | None => True end -> gates_fit cv prev nds -> prepared cv prev nds st ->
    2 * List.length (positions st) + 3 * (solid nds - owed prev nds) <= B ->
    exists pls pos', place_nodes cv axes no nc prev nds st = Some (pls, pos') /\ 2 * List.length pos' <= B.
Proof.
  intros P L AX. induction nds as [|nd nds IH]; intros prev st F PP GF PR BU; cbn [place_nodes].
  - exists [], (positions st). split; [reflexivity|]. lia.
  - apply Forall_cons_iff in F. destruct F as ((R & PN) & F). destruct GF as (LIM & GF).
    destruct (place_node_some cv no nc prev nd nds st B P L R PN PP LIM PR BU) as (pl & st' & E & PG & PR' & BU'). rewrite E.
    assert (CD : can_draw axes no nc nd pl = true).
    { unfold can_draw. destruct R as (RO & RC). rewrite !andb_true_iff, !forallb_forall. rewrite Forall_forall in RO, RC.
      split; [split|]; intros; try (apply Nat.ltb_lt; auto).
      assert (per_line cv * on_page pl < per_line cv * axes) by lia. apply Nat.mul_lt_mono_pos_l in H; lia. }
    rewrite CD. destruct (IH (Some nd) st' F PN GF PR' BU') as (pls & pos' & -> & BF). exists (pl :: pls), pos'. split; [reflexivity | exact BF].
Qed.

(** Sharper: what is left of the budget after a circuit. *)
Lemma place_nodes_left cv axes no nc B extra : 2 <= per_line cv -> 0 < no + nc -> B + extra < 2 * (per_line cv * axes) ->
  forall nds pos, Forall (fun nd => in_range no nc nd /\ plain_node nd) nds -> gates_fit cv None nds ->
    2 * List.length pos + 3 * solid nds <= B ->
    exists pls pos', place_nodes cv axes no nc None nds (Progress pos None) = Some (pls, pos') /\ 2 * List.length pos' <= B.
Proof.
  intros P L AX nds pos F GF BU. apply (place_nodes_some cv axes no nc B); auto; [lia | left; reflexivity|]. cbn [positions owed]. lia.
Qed.

Fixpoint solids (ch : list sheet) : nat := match ch with [] => 0 | c :: rest => solid (sh_nodes c) + solids rest end.

Lemma place_chain_some cv axes no nc : 2 <= per_line cv -> 0 < no + nc ->
  forall ch pos, Forall (fun c => sh_nodes c <> [] /\ Forall (fun nd => in_range no nc nd /\ plain_node nd) (sh_nodes c) /\ gates_fit cv None (sh_nodes c)) ch ->
    2 * List.length pos + 3 * solids ch < 2 * (per_line cv * axes) ->
    exists pls pos', place_chain cv axes no nc ch pos = Some (pls, pos').
Proof.
  intros P L. induction ch as [|c ch IH]; intros pos F BU; cbn [place_chain solids] in *; [eexists _, _; reflexivity|].
  apply Forall_cons_iff in F. destruct F as ((NE & FN & GF) & F).
  destruct (place_nodes_left cv axes no nc (2 * List.length pos + 3 * solid (sh_nodes c)) (3 * solids ch) P L ltac:(lia) (sh_nodes c) pos FN GF ltac:(lia)) as (pls & pos' & E & BF).
  destruct (sh_nodes c) as [|n0 nds0] eqn:EN; [congruence|]. rewrite E.
  destruct (IH pos' F ltac:(lia)) as (pls' & pos'' & ->). eexists _, _; reflexivity.
Qed.

Lemma solid_length nds : solid nds <= List.length nds.
Proof. induction nds as [|nd nds IH]; cbn [solid List.length]; [lia|]. destruct (d_bridge nd); lia. Qed.

Lemma solid_app a b : solid (a ++ b) = solid a + solid b.
Proof. induction a as [|nd a IH]; cbn [solid app]; [reflexivity|]. rewrite IH. lia. Qed.

Lemma solids_count ch : solids ch <= count_nodes ch.
Proof.
  unfold count_nodes. induction ch as [|c ch IH]; cbn [solids map list_sum fold_right]; [lia|].
  change (fold_right Nat.add 0) with list_sum.
  assert (X : solid (sh_nodes c) <= List.length (sh_nodes c) - (if ends_in_bridge c then 1 else 0)).
  { destruct (ends_in_bridge c) eqn:E; [|pose proof (solid_length (sh_nodes c)); lia].
    unfold ends_in_bridge in E. destruct (rev (sh_nodes c)) as [|b r] eqn:ER; [discriminate|].
    assert (ES : sh_nodes c = rev r ++ [b]) by (rewrite <- (rev_involutive (sh_nodes c)), ER; reflexivity).
    rewrite ES, solid_app, app_length. cbn [solid List.length]. rewrite E. pose proof (solid_length (rev r)). lia. }
  lia.
Qed.
