(** C59: proofs about the nodes that stay visible. *)
From Coq Require Import List String Arith NArith Bool Lia.
From Verif Require Import DrawModel DrawSpec DrawProofs LayoutProofs DrawableProofs.
Import ListNotations.

Definition starts_used (cv : canvas) (pos : list N) : Prop :=
  forall j, per_line cv * j < List.length pos -> nth (per_line cv * j) pos 0%N <> 0%N.

Lemma replace_nth (acc : list nat) page k : page < List.length acc ->
  List.length (firstn page acc ++ k :: skipn (S page) acc) = List.length acc /\
  forall i, nth i (firstn page acc ++ k :: skipn (S page) acc) 0 = if i =? page then k else nth i acc 0.
Proof.
  revert page. induction acc as [|a acc IH]; intros page L; [cbn in L; lia|]. destruct page as [|page]; cbn [firstn skipn app List.length].
  - split; [reflexivity|]. intros [|i]; reflexivity.
  - cbn [List.length] in L. destruct (IH page ltac:(lia)) as (A & B). cbn [skipn] in A. split; [f_equal; exact A|]. intros [|i]; cbn [nth Nat.eqb]; [reflexivity|]. apply B.
Qed.

Lemma last_columns_spec cv pos : 0 < per_line cv -> starts_used cv pos ->
  forall c, c < List.length pos -> nth c pos 0%N <> 0%N ->
  exists k, nth_error (last_columns cv pos) (c / per_line cv) = Some k /\ c mod per_line cv <= k.
Proof.
  intros P ST. set (P' := per_line cv) in *. unfold last_columns. set (f := fun (acc : list nat) (p : nat) => _).
  assert (G : forall n, n <= List.length pos ->
    let acc := fold_left f (seq 0 n) [] in
    P' * List.length acc < n + P' /\ n <= P' * List.length acc /\
    forall c, c < n -> nth c pos 0%N <> 0%N -> c / P' < List.length acc /\ c mod P' <= nth (c / P') acc 0).
  { induction n as [|n IH]; intros L; cbv zeta.
    - cbn. split; [lia|]. split; [lia|]. intros; lia.
    - rewrite seq_S, fold_left_app. cbn [fold_left]. rewrite Nat.add_0_l. specialize (IH ltac:(lia)). cbv zeta in IH. set (acc := fold_left f (seq 0 n) []) in *.
      destruct IH as (I1 & I2 & I3). unfold f at 1 2 3 4. fold P'.
      pose proof (Nat.div_mod n P' ltac:(lia)) as D. pose proof (Nat.mod_upper_bound n P' ltac:(lia)) as M.
      change (f acc n) with (let page := n / P' in let k := n mod P' in if (nth n pos 0 =? 0)%N then acc
         else if page <? List.length acc then if nth page acc 0 <? k then firstn page acc ++ k :: skipn (S page) acc else acc else acc ++ [k]). cbv zeta.
      destruct (nth n pos 0%N =? 0)%N eqn:Z.
      + apply N.eqb_eq in Z.
        assert (NM : n mod P' <> 0). { intros X. rewrite X in D. apply (ST (n / P')); [|]; fold P'; replace (P' * (n / P')) with n by lia; [lia | exact Z]. }
        split; [lia|]. split.
        * destruct (Nat.eq_dec n (P' * List.length acc)) as [E|E]; [|lia]. exfalso. apply NM. rewrite E, Nat.mul_comm. apply Nat.mod_mul. lia.
        * intros c C NZ. destruct (Nat.eq_dec c n) as [->|NE]; [congruence|]. apply I3; [lia | exact NZ].
      + apply N.eqb_neq in Z. destruct (n / P' <? List.length acc) eqn:EL.
        * apply Nat.ltb_lt in EL. assert (LN : n + 1 <= P' * List.length acc) by nia.
          destruct (nth (n / P') acc 0 <? n mod P') eqn:EK.
          -- apply Nat.ltb_lt in EK. destruct (replace_nth acc (n / P') (n mod P') EL) as (R1 & R2). rewrite R1. split; [lia|]. split; [lia|].
             intros c C NZ. rewrite R2. destruct (Nat.eq_dec c n) as [->|NE]; [rewrite Nat.eqb_refl; split; [exact EL | lia]|].
             destruct (I3 c ltac:(lia) NZ) as (J1 & J2). split; [exact J1|]. destruct (c / P' =? n / P') eqn:E; [|exact J2].
             apply Nat.eqb_eq in E. rewrite E in J2. lia.
          -- apply Nat.ltb_ge in EK. split; [lia|]. split; [lia|]. intros c C NZ. destruct (Nat.eq_dec c n) as [->|NE]; [split; [exact EL | exact EK]|].
             apply I3; [lia | exact NZ].
        * apply Nat.ltb_ge in EL. rewrite app_length. cbn [List.length].
          assert (E : n / P' = List.length acc) by nia. assert (E0 : n mod P' = 0) by nia.
          split; [nia|]. split; [nia|]. intros c C NZ. destruct (Nat.eq_dec c n) as [->|NE].
          -- rewrite E, app_nth2, Nat.sub_diag by lia. cbn [nth]. split; [lia | lia].
          -- destruct (I3 c ltac:(lia) NZ) as (J1 & J2). split; [lia|]. rewrite app_nth1 by exact J1. exact J2. }
  intros c C NZ. destruct (G (List.length pos) (le_n _)) as (_ & _ & G3). destruct (G3 c C NZ) as (A & B).
  set (acc := fold_left f (seq 0 (List.length pos)) []) in *. exists (nth (c / P') acc 0). split; [apply nth_error_nth'; exact A | exact B].
Qed.

(** The place lies in a used column. *)
Definition lit (cv : canvas) (pos : list N) (pl : place) : Prop :=
  exists g, at_coord cv pl g /\ g / 4 < List.length pos /\ nth (g / 4) pos 0%N <> 0%N.

Lemma lit_visible cv pos pl : 0 < per_line cv -> 0 < spacing cv -> starts_used cv pos -> lit cv pos pl -> visible cv pos pl = true.
Proof.
  intros P SP ST (g & (q & X & Q & G) & L & NZ). destruct (last_columns_spec cv pos P ST (g / 4) L NZ) as (k & E & K).
  assert (D : g / 4 = per_line cv * on_page pl + q / 4).
  { rewrite G. rewrite (Nat.mul_comm 4 (per_line cv * on_page pl)), Nat.div_add_l by lia. reflexivity. }
  assert (Q4 : q / 4 < per_line cv) by (apply Nat.div_lt_upper_bound; lia).
  assert (DP : g / 4 / per_line cv = on_page pl).
  { rewrite D, Nat.mul_comm, Nat.div_add_l by lia. rewrite (Nat.div_small (q / 4)) by exact Q4. lia. }
  assert (DM : g / 4 mod per_line cv = q / 4).
  { rewrite D, Nat.add_comm, Nat.mul_comm, Nat.mod_add by lia. apply Nat.mod_small, Q4. }
  unfold visible. rewrite DP in E. rewrite E. apply Nat.ltb_lt. rewrite X.
  pose proof (Nat.div_mod q 4 ltac:(lia)). pose proof (Nat.mod_upper_bound q 4 ltac:(lia)). rewrite DM in K.
  apply Nat.mul_lt_mono_pos_l; lia.
Qed.

(** Which columns are used: all of them if there are no combined gates, the first one of every page if there are no
    bridges. *)
Definition used_columns (cv : canvas) (gates : bool) (pos : list N) : Prop :=
  if gates then starts_used cv pos else forall c, c < List.length pos -> nth c pos 0%N <> 0%N.

Lemma used_starts cv gates pos : used_columns cv gates pos -> starts_used cv pos.
Proof. destruct gates; intros H; [exact H|]. intros j J. apply H, J. Qed.

Definition keeps (pos pos' : list N) : Prop :=
  forall c, c < List.length pos -> nth c pos 0%N <> 0%N -> c < List.length pos' /\ nth c pos' 0%N <> 0%N.

Lemma keeps_lit cv pos pos' pl : keeps pos pos' -> lit cv pos pl -> lit cv pos' pl.
Proof. intros K (g & A & B & C). destruct (K _ B C) as (D & E). exists g. auto. Qed.

Lemma keeps_app pos pad : keeps pos (pos ++ pad).
Proof. intros c L NZ. rewrite app_length, app_nth1 by exact L. split; [lia | exact NZ]. Qed.

Lemma lor_nonzero x y : x <> 0%N -> N.lor x y <> 0%N.
Proof. intros X Y. apply N.lor_eq_0_iff in Y. tauto. Qed.

Lemma keeps_occupy p o pos : p < List.length pos -> keeps pos (occupy p o pos).
Proof.
  intros L c C NZ. rewrite occupy_length, occupy_nth by exact L. split; [exact C|]. destruct (c =? p); [apply lor_nonzero, NZ | exact NZ].
Qed.

Lemma used_app cv gates pos o : o <> 0%N -> used_columns cv gates pos -> used_columns cv gates (pos ++ [o]).
Proof.
  intros O U. assert (G : forall c, c < List.length (pos ++ [o]) -> (c < List.length pos -> nth c pos 0%N <> 0%N) -> nth c (pos ++ [o]) 0%N <> 0%N).
  { intros c C H. rewrite app_length in C. cbn [List.length] in C. destruct (Nat.lt_ge_cases c (List.length pos)) as [L|L].
    - rewrite app_nth1 by exact L. auto.
    - rewrite app_nth2 by exact L. replace (c - List.length pos) with 0 by lia. exact O. }
  destruct gates; cbn [used_columns] in *; [intros j J; apply G; [exact J | apply U] | intros c C; apply G; [exact C | apply U]].
Qed.

Lemma used_occupy cv gates pos p o : p < List.length pos -> used_columns cv gates pos -> used_columns cv gates (occupy p o pos).
Proof.
  intros L U. assert (G : forall c, nth c pos 0%N <> 0%N -> nth c (occupy p o pos) 0%N <> 0%N).
  { intros c NZ. rewrite occupy_nth by exact L. destruct (c =? p); [apply lor_nonzero, NZ | exact NZ]. }
  destruct gates; cbn [used_columns] in *; [intros j J | intros c C]; rewrite occupy_length in *; apply G, U; assumption.
Qed.

Lemma used_gate cv n o pos st : 2 <= n -> n + 2 <= 2 * per_line cv -> o <> 0%N -> place_gate cv n o pos = Some st ->
  starts_used cv pos -> starts_used cv (positions st).
Proof.
  intros N2 NL O H U. unfold place_gate in H. set (len := List.length pos) in *. set (P' := per_line cv) in *. set (k := len mod P') in *. set (cols := (1 + n) / 2) in *.
  destruct (P' <=? 1) eqn:EP; [discriminate|]. apply Nat.leb_gt in EP.
  assert (C5 : cols < P') by (unfold cols; apply Nat.div_lt_upper_bound; lia).
  pose proof (Nat.div_mod len P' ltac:(lia)) as DL. fold k in DL. pose proof (Nat.mod_upper_bound len P' ltac:(lia)) as KL. fold k in KL.
  set (page := (len + cols) / P') in *.
  pose proof (Nat.div_mod (len + cols) P' ltac:(lia)) as DP. fold page in DP.
  pose proof (Nat.mod_upper_bound (len + cols) P' ltac:(lia)) as MP.
  assert (RO : forall i, i < cols -> nth i (repeat o cols) 0%N = o).
  { intros i I. rewrite (nth_indep _ 0%N o) by (rewrite repeat_length; exact I). apply nth_repeat. }
  inversion H as [H']. clear H H'. cbn [positions]. destruct (page =? len / P') eqn:E; cbn [negb]; intros j J.
  - fold P' in J |- *. destruct (Nat.lt_ge_cases (P' * j) len) as [L|L].
    + rewrite app_nth1 by exact L. apply U, L.
    + rewrite app_length, repeat_length in J. fold len in J. rewrite app_nth2 by exact L. fold len. rewrite RO by lia. exact O.
  - apply Nat.eqb_neq in E. fold P' in J |- *. assert (PG : page = len / P' + 1).
    { assert (len / P' <= page) by (apply Nat.div_le_mono; lia). assert (page < len / P' + 2) by (apply Nat.div_lt_upper_bound; lia). lia. }
    assert (K0 : 0 < k) by (rewrite PG in DP; nia).
    rewrite !app_length, !repeat_length in J. fold len in J.
    destruct (Nat.lt_ge_cases (P' * j) len) as [L|L].
    + rewrite <- app_assoc, app_nth1 by exact L. apply U, L.
    + assert (J2 : len + (P' - k) <= P' * j).
      { set (m := len / P') in *. assert (m < j) by nia. nia. }
      rewrite app_nth2; rewrite app_length, repeat_length; fold len; [|exact J2]. rewrite RO by lia. exact O.
Qed.

Definition ready_lit (cv : canvas) (st : progress) : Prop :=
  forall page xs x, waiting st = Some (page, xs) -> In x xs -> lit cv (positions st) (Place page x).

Lemma ready_keeps cv st st' : waiting st' = waiting st -> keeps (positions st) (positions st') -> ready_lit cv st -> ready_lit cv st'.
Proof. intros W K R page xs x E I. apply (keeps_lit _ _ _ _ K). apply (R page xs x); congruence. Qed.

Lemma lit_last cv o pos : 0 < per_line cv -> o <> 0%N ->
  lit cv (pos ++ [o]) (Place (List.length pos / per_line cv) (node_x cv (List.length pos mod per_line cv))).
Proof.
  intros P O. exists (4 * List.length pos + 2). split; [apply column_coord, P|].
  replace ((4 * List.length pos + 2) / 4) with (List.length pos).
  2: { rewrite (Nat.mul_comm 4), Nat.div_add_l by lia. change (2 / 4) with 0. lia. }
  rewrite app_length, app_nth2, Nat.sub_diag by lia. cbn [List.length nth]. split; [lia | exact O].
Qed.

Lemma fitting_lit cv gates (lines : nat) o pos pl pos' : 0 < per_line cv -> o <> 0%N -> place_fitting cv o pos = (pl, pos') ->
  used_columns cv gates pos -> used_columns cv gates pos' /\ keeps pos pos' /\ lit cv pos' pl.
Proof.
  intros P O H U. destruct (fitting_spec cv lines o pos pl pos' P H) as (p & C & _ & _ & [(L & -> & _)|(-> & ->)]).
  - split; [apply used_occupy; auto|]. split; [apply keeps_occupy, L|].
    exists (4 * p + 2). split; [exact C|]. replace ((4 * p + 2) / 4) with p.
    2: { rewrite (Nat.mul_comm 4), Nat.div_add_l by lia. change (2 / 4) with 0. lia. }
    rewrite occupy_length, occupy_nth, Nat.eqb_refl by exact L. split; [exact L|]. rewrite N.lor_comm. apply lor_nonzero, O.
  - split; [apply used_app; auto|]. split; [apply keeps_app|].
    exists (4 * List.length pos + 2). split; [exact C|]. replace ((4 * List.length pos + 2) / 4) with (List.length pos).
    2: { rewrite (Nat.mul_comm 4), Nat.div_add_l by lia. change (2 / 4) with 0. lia. }
    rewrite app_length, app_nth2, Nat.sub_diag by lia. cbn [List.length nth]. split; [lia | exact O].
Qed.

Lemma node_lit cv no nc (gates : bool) prev nd rest st pl st' :
  0 < per_line cv -> in_range no nc nd -> (d_bridge nd = false -> d_optical nd <> [] \/ d_classical nd <> []) ->
  (if gates then d_bridge nd = false else in_gate nd = false) ->
  (starts_gate prev nd = true -> gate_length (d_gate nd) (nd :: rest) + 2 <= 2 * per_line cv) ->
  place_node cv no nc prev nd (nd :: rest) st = Some (pl, st') ->
  used_columns cv gates (positions st) -> ready_lit cv st ->
  used_columns cv gates (positions st') /\ ready_lit cv st' /\ keeps (positions st) (positions st') /\
  (d_bridge nd = true \/ lit cv (positions st') pl).
Proof.
  intros P R CH MODE LIM H U RL. unfold place_node in H.
  destruct (d_bridge nd) eqn:EB.
  - destruct gates; [discriminate|]. destruct (all_bits no nc) as [x|] eqn:EX; [|discriminate]. unfold place_last in H. inversion H; subst; clear H. cbn [positions waiting].
    assert (XZ : x <> 0%N).
    { assert (no + nc <> 0) by (intros Z; unfold all_bits in EX; rewrite Z in EX; discriminate). intros ->.
      pose proof (proj2 (all_bits_has no nc 0%N EX 0) ltac:(lia)) as Y. destruct (zero_bits 0%N) as (Z & _). exact (Z eq_refl _ Y). }
    pose proof (used_app cv false (positions st) x XZ U) as U'. cbn [used_columns] in *.
    assert (UT : forall c, c < List.length (tl (positions st ++ [x])) -> nth c (tl (positions st ++ [x])) 0%N <> 0%N).
    { intros c C. destruct (positions st ++ [x]) as [|y l] eqn:E; cbn [tl List.length] in *; [lia|]. apply (U' (S c)). cbn [List.length]. lia. }
    assert (K : keeps (positions st) (tl (positions st ++ [x]))).
    { intros c C _. rewrite bridge_length. split; [exact C|]. apply UT. rewrite bridge_length. exact C. }
    split; [exact UT|]. split; [apply (ready_keeps cv st); auto|]. split; [exact K | left; reflexivity].
  - specialize (CH eq_refl). set (n := gate_length (d_gate nd) (nd :: rest)) in *.
    assert (SINGLE : match int_of_bits (channel_bits no nc (d_optical nd) (d_classical nd)) with
      | Some used => let '(pl, pos) := if match prev with None => true | Some _ => false end || match d_optical nd with [] => match d_classical nd with [] => true | _ :: _ => false end | _ :: _ => false end
           then place_last cv false (linked_bits (no + nc) (d_linked nd) (fill_bits (no + nc) used)) (positions st)
           else place_fitting cv (linked_bits (no + nc) (d_linked nd) (fill_bits (no + nc) used)) (positions st) in Some (pl, Progress pos (waiting st))
      | None => None end = Some (pl, st') ->
      used_columns cv gates (positions st') /\ ready_lit cv st' /\ keeps (positions st) (positions st') /\ (false = true \/ lit cv (positions st') pl)).
    { clear H. intros H. destruct (int_of_bits _) as [used|] eqn:EU; [|discriminate]. set (o := linked_bits _ _ _) in H.
      assert (NZ : o <> 0%N) by (apply (own_bits_nonzero no nc nd o R CH); apply (single_covers no nc nd used EU R)).
      match type of H with context [if ?b then place_last _ _ _ _ else _] => destruct b end.
      - unfold place_last in H. inversion H; subst; clear H. cbn [positions waiting]. split; [apply used_app; auto|].
        split; [apply (ready_keeps cv st); auto; apply keeps_app|]. split; [apply keeps_app | right; apply lit_last; auto].
      - destruct (place_fitting cv o (positions st)) as [pl1 pos1] eqn:PF. inversion H; subst; clear H. cbn [positions waiting].
        destruct (fitting_lit cv gates (no + nc) o _ _ _ P NZ PF U) as (A & B & C). split; [exact A|].
        split; [apply (ready_keeps cv st); auto|]. split; [exact B | right; exact C]. }
    destruct (in_gate nd) eqn:IG; cbn [andb] in H; [|apply SINGLE, H].
    destruct gates; [|discriminate]. destruct (starts_gate prev nd) eqn:SG; cbn [negb andb] in H.
    + specialize (LIM eq_refl). destruct (n <=? 1) eqn:EN; rewrite ?orb_true_r in H; cbn [negb] in H; [apply SINGLE, H|]. apply Nat.leb_gt in EN.
      destruct ((per_line cv <? n / 2) || false); cbn [negb] in H; [apply SINGLE, H|].
      destruct (used_bits no nc (firstn n (nd :: rest))) as [used|]; [|discriminate]. set (o := fill_bits (no + nc) used) in H.
      destruct (o =? 0)%N eqn:OZ; [discriminate|]. apply N.eqb_neq in OZ.
      destruct (place_gate cv n o (positions st)) as [st1|] eqn:PG; [|discriminate].
      pose proof (used_gate cv n o (positions st) st1 ltac:(lia) LIM OZ PG U) as U1.
      destruct (gate_spec cv n o (positions st) st1 ltac:(lia) ltac:(lia) PG) as (s & e & page & xs & gs & W & LX & F2 & SS & FG & S1 & S2 & S3 & (pad & S4) & S5).
      assert (RL1 : ready_lit cv st1).
      { intros page' xs' x E I. rewrite W in E. inversion E; subst page' xs'. clear -F2 FG I S3 S5 OZ. induction F2 as [|x' g xs' gs' CX F2 IH]; [contradiction|].
        apply Forall_cons_iff in FG. destruct FG as (G0 & FG). destruct I as [->|I]; [|apply IH; assumption].
        exists g. split; [exact CX|]. assert (G1 : s <= g / 4 <= e).
        { split; [apply Nat.div_le_lower_bound; lia|]. apply Nat.lt_succ_r, Nat.div_lt_upper_bound; lia. }
        split; [lia|]. rewrite S5 by exact G1. exact OZ. }
      assert (K1 : keeps (positions st) (positions st1)) by (rewrite S4; apply keeps_app).
      unfold next_of_gate in H. rewrite W in H. destruct xs as [|x xs]; [discriminate|]. inversion H; subst pl st'; clear H. cbn [positions].
      split; [exact U1|]. split; [|split; [exact K1 | right; apply (RL1 page (x :: xs) x W); left; reflexivity]].
      intros page' xs' x' E I. inversion E; subst. apply (RL1 page' (x :: xs') x' W). right. exact I.
    + unfold next_of_gate in H. destruct (waiting st) as [[page [|x xs]]|] eqn:W; try discriminate. inversion H; subst pl st'; clear H. cbn [positions].
      split; [exact U|]. split; [|split; [intros c C NZ; auto | right; apply (RL page (x :: xs) x W); left; reflexivity]].
      intros page' xs' x' E I. inversion E; subst. apply (RL page' (x :: xs') x' W). right. exact I.
Qed.

Fixpoint short_gates (cv : canvas) (prev : option drawn) (nds : list drawn) : Prop :=
  match nds with
  | [] => True
  | nd :: rest => (starts_gate prev nd = true -> gate_length (d_gate nd) nds + 2 <= 2 * per_line cv) /\ short_gates cv (Some nd) rest
  end.

Lemma keeps_trans a b c : keeps a b -> keeps b c -> keeps a c.
Proof. intros H K x X NZ. destruct (H x X NZ) as (A & B). apply (K x A B). Qed.

Definition node_fine (no nc : nat) (gates : bool) (nd : drawn) : Prop :=
  (d_bridge nd = false -> d_optical nd <> [] \/ d_classical nd <> []) /\ (if gates then d_bridge nd = false else in_gate nd = false).

Lemma nodes_lit cv axes no nc gates : 0 < per_line cv -> forall nds prev st pls pos',
  Forall (in_range no nc) nds -> Forall (node_fine no nc gates) nds -> short_gates cv prev nds ->
  place_nodes cv axes no nc prev nds st = Some (pls, pos') ->
  used_columns cv gates (positions st) -> ready_lit cv st ->
  used_columns cv gates pos' /\ keeps (positions st) pos' /\ Forall2 (fun nd pl => d_bridge nd = true \/ lit cv pos' pl) nds pls.
Proof.
  intros P. induction nds as [|nd nds IH]; intros prev st pls pos' F G SG H U RL; cbn [place_nodes] in H.
  - inversion H; subst. split; [exact U|]. split; [intros c C NZ; auto | constructor].
  - destruct (place_node cv no nc prev nd (nd :: nds) st) as [[pl st']|] eqn:E; [|discriminate]. destruct (can_draw axes no nc nd pl); [|discriminate].
    destruct (place_nodes cv axes no nc (Some nd) nds st') as [[pls1 pos1]|] eqn:E1; [|discriminate]. inversion H; subst pls pos'; clear H.
    apply Forall_cons_iff in F. destruct F as (R & F). apply Forall_cons_iff in G. destruct G as ((G1 & G2) & G). destruct SG as (SG1 & SG).
    destruct (node_lit cv no nc gates prev nd nds st pl st' P R G1 G2 SG1 E U RL) as (A & B & C & D).
    destruct (IH (Some nd) st' pls1 pos1 F G SG E1 A B) as (A' & B' & C'). split; [exact A'|]. split; [apply (keeps_trans _ _ _ C B')|].
    constructor; [|exact C']. destruct D as [D|D]; [left; exact D | right; apply (keeps_lit _ _ _ _ B' D)].
Qed.

Lemma chain_lit cv axes no nc gates : 0 < per_line cv -> forall ch pos pls pos',
  Forall (fun c => Forall (in_range no nc) (sh_nodes c) /\ Forall (node_fine no nc gates) (sh_nodes c) /\ short_gates cv None (sh_nodes c)) ch ->
  place_chain cv axes no nc ch pos = Some (pls, pos') -> used_columns cv gates pos ->
  used_columns cv gates pos' /\ keeps pos pos' /\ Forall2 (fun nd pl => d_bridge nd = true \/ lit cv pos' pl) (flat_map sh_nodes ch) pls.
Proof.
  intros P. induction ch as [|c ch IH]; intros pos pls pos' F H U; cbn [place_chain] in H.
  - inversion H; subst. split; [exact U|]. split; [intros c C NZ; auto | constructor].
  - apply Forall_cons_iff in F. destruct F as ((R & G & SG) & F). destruct (sh_nodes c) as [|n0 nds0] eqn:EN; [discriminate|].
    destruct (place_nodes cv axes no nc None (n0 :: nds0) (Progress pos None)) as [[pls1 pos1]|] eqn:PN; [|discriminate].
    destruct (place_chain cv axes no nc ch pos1) as [[pls2 pos2]|] eqn:PC; [|discriminate]. inversion H; subst pls pos'; clear H.
    destruct (nodes_lit cv axes no nc gates P _ _ _ _ _ R G SG PN U ltac:(intros page xs x E; discriminate)) as (A & B & C). cbn [positions] in B.
    destruct (IH pos1 pls2 pos2 F PC A) as (A' & B' & C'). split; [exact A'|]. split; [apply (keeps_trans _ _ _ B B')|].
    cbn [flat_map]. rewrite EN. apply Forall2_app; [|exact C']. eapply forall2_weaken; [|exact C]. intros nd pl [D|D]; [left; exact D | right; apply (keeps_lit _ _ _ _ B' D)].
Qed.
