(** C59: the drawing of a circuit. *)
From Coq Require Import List String Arith NArith Bool Lia.
From Verif Require Import DrawModel DrawSpec DrawProofs LayoutProofs.
Import ListNotations.

(** ** The circuits of a chain *)

Lemma ends_closing c : ends_in_bridge c = true <-> closing (sh_nodes c).
Proof.
  unfold ends_in_bridge, closing. split.
  - intros H. destruct (rev (sh_nodes c)) as [|b r] eqn:E; [discriminate|]. exists (rev r), b. split; [|exact H].
    rewrite <- (rev_involutive (sh_nodes c)), E. reflexivity.
  - intros (front & b & E & B). rewrite E, rev_app_distr. exact B.
Qed.

Lemma closed_closing c : closed_by_bridge c <-> closing (sh_nodes c).
Proof. reflexivity. Qed.

Lemma connected_chain cs : connected cs -> chain cs = Some cs.
Proof.
  intros (front & final & -> & F & N). induction F as [|c front H F IH]; cbn [app chain].
  - destruct (ends_in_bridge final) eqn:E; [|reflexivity]. exfalso. apply N. apply ends_closing, E.
  - assert (E : ends_in_bridge c = true) by (apply ends_closing, H). rewrite E, IH. reflexivity.
Qed.

Lemma connected_closing cs : connected cs -> forall c d rest front, cs = front ++ c :: d :: rest -> closing (sh_nodes c).
Proof.
  intros (fr & final & -> & F & N) c d rest front E.
  assert (I : In c fr).
  { assert (X : exists r' z, c :: d :: rest = c :: r' ++ [z]).
    { destruct (exists_last (l := d :: rest) ltac:(discriminate)) as (r' & z & X). exists r', z. rewrite X. reflexivity. }
    destruct X as (r' & z & X). rewrite X in E. replace (front ++ c :: r' ++ [z]) with ((front ++ c :: r') ++ [z]) in E by (rewrite <- app_assoc; reflexivity).
    apply app_inj_tail in E. destruct E as (-> & _). apply in_or_app. right. left. reflexivity. }
  rewrite Forall_forall in F. apply (F c I).
Qed.

Lemma max_fold (f : sheet -> nat) cs : fold_left (fun a c => Nat.max a (f c)) cs 0 = list_max (map f cs).
Proof.
  rewrite <- (fold_left_rev_right). cbn. assert (G : forall cs a, fold_left (fun a c => Nat.max a (f c)) cs a = Nat.max a (list_max (map f cs))).
  { induction cs0 as [|c cs0 IH]; intros a; cbn [fold_left map list_max]; [cbn; lia|]. rewrite IH. cbn [list_max fold_right map]. fold (list_max (map f cs0)). lia. }
  rewrite fold_left_rev_right, G. reflexivity.
Qed.

Lemma optical_lines_eq cs : lines_optical cs = optical_lines cs.
Proof. apply (max_fold sh_optical). Qed.
Lemma classical_lines_eq cs : lines_classical cs = classical_lines cs.
Proof. apply (max_fold sh_classical). Qed.

Lemma nodes_in_range cv axes no nc : forall nds prev st r, place_nodes cv axes no nc prev nds st = Some r -> Forall (in_range no nc) nds.
Proof.
  induction nds as [|nd nds IH]; intros prev st r H; cbn [place_nodes] in H; [constructor|].
  destruct (place_node cv no nc prev nd (nd :: nds) st) as [[pl st']|]; [|discriminate].
  destruct (can_draw axes no nc nd pl) eqn:CD; [|discriminate].
  destruct (place_nodes cv axes no nc (Some nd) nds st') as [[pls pos]|] eqn:E; [|discriminate].
  constructor; [|apply (IH _ _ _ E)]. unfold can_draw in CD. apply andb_true_iff in CD. destruct CD as (CD & C2). apply andb_true_iff in CD. destruct CD as (_ & C1).
  rewrite forallb_forall in C1, C2. split; apply Forall_forall; intros c I; apply Nat.ltb_lt; auto.
Qed.

Lemma chain_in_range cv axes no nc : forall ch pos r, place_chain cv axes no nc ch pos = Some r ->
  Forall (fun c => Forall (in_range no nc) (sh_nodes c)) ch /\ List.length (numbered 0 ch) = List.length (fst r).
Proof.
  induction ch as [|c ch IH]; intros pos r H; cbn [place_chain] in H; [inversion H; split; [constructor | reflexivity]|].
  destruct (sh_nodes c) as [|n0 nds0] eqn:EN; [discriminate|].
  destruct (place_nodes cv axes no nc None (n0 :: nds0) (Progress pos None)) as [[pls1 pos1]|] eqn:PN; [|discriminate].
  destruct (place_chain cv axes no nc ch pos1) as [[pls2 pos2]|] eqn:PC; [|discriminate]. inversion H; subst; clear H.
  rewrite <- EN in PN. destruct (IH _ _ PC) as (A & B). split; [constructor; [apply (nodes_in_range _ _ _ _ _ _ _ _ PN) | exact A]|].
  assert (LN : forall nds prev st pls pos', place_nodes cv axes no nc prev nds st = Some (pls, pos') -> List.length nds = List.length pls).
  { clear. induction nds as [|nd nds IH]; intros prev st pls pos' H; cbn [place_nodes] in H; [inversion H; reflexivity|].
    destruct (place_node cv no nc prev nd (nd :: nds) st) as [[pl st']|]; [|discriminate]. destruct (can_draw axes no nc nd pl); [|discriminate].
    destruct (place_nodes cv axes no nc (Some nd) nds st') as [[pls1 pos]|] eqn:E; [|discriminate]. inversion H; subst. cbn. f_equal. apply (IH _ _ _ _ E). }
  assert (NK : forall ch k k', List.length (numbered k ch) = List.length (numbered k' ch)).
  { clear. induction ch as [|c ch IH]; intros k k'; cbn [numbered]; [reflexivity|]. rewrite !app_length, !map_length. f_equal. apply IH. }
  cbn [numbered fst] in *. rewrite !app_length, map_length, (LN _ _ _ _ _ PN), (NK ch 1 0), B. reflexivity.
Qed.

Lemma gates_fit_of cv nds : (forall before run after g, nds = before ++ run ++ after -> g <> "single"%string ->
    Forall (fun nd => d_bridge nd = false /\ d_gate nd = g) run -> List.length run <= 2 * per_line cv) ->
  forall before rest prev, nds = before ++ rest -> gates_fit cv prev rest.
Proof.
  intros H before rest. revert before. induction rest as [|nd rest IH]; intros before prev E; cbn [gates_fit]; [exact I|]. split.
  - intros SG. set (n := gate_length (d_gate nd) (nd :: rest)).
    pose proof (gate_run (d_gate nd) (nd :: rest)) as RUN. fold n in RUN.
    pose proof (gate_length_le (d_gate nd) (nd :: rest)) as L. fold n in L.
    specialize (H before (firstn n (nd :: rest)) (skipn n (nd :: rest)) (d_gate nd)). rewrite firstn_length_le in H by exact L.
    apply H; [rewrite firstn_skipn; exact E | | exact RUN].
    unfold starts_gate, in_gate in SG. apply andb_true_iff in SG. destruct SG as (SG & _). apply andb_true_iff in SG. destruct SG as (_ & SG).
    apply negb_true_iff, String.eqb_neq in SG. exact SG.
  - apply (IH (before ++ [nd])). rewrite <- app_assoc. exact E.
Qed.

(** Everything the loop invariant gives about a drawing. *)
Lemma draw_spec cv cs l : connected cs -> gates_at_most (2 * per_line cv) cs -> draw cv cs = Some l ->
  0 < per_line cv /\ List.length l = List.length (numbered 0 cs) /\
  Forall (fun c => Forall (in_range (optical_lines cs) (classical_lines cs)) (sh_nodes c)) cs /\
  ForallOrdPairs (ordered cv (optical_lines cs) (classical_lines cs)) (combine (numbered 0 cs) (map fst l)).
Proof.
  intros CN GA H. unfold draw in H. rewrite (connected_chain cs CN) in H.
  destruct ((per_line cv =? 0) || (expected_pages cv cs =? 0)) eqn:Z; [discriminate|].
  apply orb_false_iff in Z. destruct Z as (P & _). apply Nat.eqb_neq in P.
  rewrite optical_lines_eq, classical_lines_eq in H.
  destruct (place_chain cv _ _ _ cs []) as [[pls pos]|] eqn:PC; [|discriminate]. inversion H; subst; clear H.
  destruct (chain_in_range _ _ _ _ _ _ _ PC) as (R & LEN). cbn [fst] in LEN.
  split; [lia|]. split; [rewrite map_length, LEN; reflexivity|]. split; [exact R|].
  rewrite map_map. cbn [fst]. rewrite map_id.
  refine (proj2 (chain_spec cv _ _ _ ltac:(lia) cs 0 [] pls pos _ (connected_closing cs CN) PC)).
  apply Forall_forall. intros c I. rewrite Forall_forall in R. split; [apply R, I|].
  apply (gates_fit_of cv (sh_nodes c)) with (before := []); [|reflexivity].
  intros before run after g E NS F. apply (GA c before run after g I E NS F).
Qed.

Lemma nth_combine {A B} (l : list A) (m : list B) i a b : nth_error l i = Some a -> nth_error m i = Some b -> nth_error (combine l m) i = Some (a, b).
Proof. revert m i. induction l as [|x l IH]; intros [|y m] [|i] X Y; cbn in *; try discriminate; [congruence | auto]. Qed.

Lemma nth_numbered_in cs : forall k i k' a, nth_error (numbered k cs) i = Some (k', a) -> exists c, In c cs /\ In a (sh_nodes c).
Proof.
  intros k i k' a H. apply nth_error_In in H. revert k H. induction cs as [|c cs IH]; intros k H; cbn [numbered] in H; [contradiction|].
  apply in_app_iff in H. destruct H as [H|H].
  - apply in_map_iff in H. destruct H as (x & E & I). inversion E; subst. exists c. split; [left; reflexivity | exact I].
  - destruct (IH _ H) as (d & I & J). exists d. split; [right; exact I | exact J].
Qed.

Lemma pair_of cv cs l i j k a p v k' b q w : connected cs -> gates_at_most (2 * per_line cv) cs -> draw cv cs = Some l ->
  i < j -> nth_error (numbered 0 cs) i = Some (k, a) -> nth_error (numbered 0 cs) j = Some (k', b) ->
  nth_error l i = Some (p, v) -> nth_error l j = Some (q, w) -> d_bridge a = false -> d_bridge b = false ->
  exists h h', placed_as cv (optical_lines cs) (classical_lines cs) a p h /\ placed_as cv (optical_lines cs) (classical_lines cs) b q h' /\
    bounds h /\ bounds h' /\ (conflict h h' \/ k <> k' -> h_g h < h_g h') /\ clear_of h h' /\
    in_range (optical_lines cs) (classical_lines cs) a /\ in_range (optical_lines cs) (classical_lines cs) b.
Proof.
  intros CN GA H L NI NJ LI LJ BA BB. destruct (draw_spec cv cs l CN GA H) as (P & LEN & R & O).
  assert (LI' : nth_error (map fst l) i = Some p) by (rewrite nth_error_map, LI; reflexivity).
  assert (LJ' : nth_error (map fst l) j = Some q) by (rewrite nth_error_map, LJ; reflexivity).
  pose proof (fop_nth _ _ O i j _ _ L (nth_combine _ _ _ _ _ NI LI') (nth_combine _ _ _ _ _ NJ LJ')) as X. cbn in X.
  destruct X as [X|[X|(h & h' & A & B & C & D & E & F)]]; [congruence | congruence|].
  exists h, h'. repeat (split; [assumption|]).
  rewrite Forall_forall in R. destruct (nth_numbered_in _ _ _ _ _ NI) as (c & I1 & I2). destruct (nth_numbered_in _ _ _ _ _ NJ) as (d & J1 & J2).
  pose proof (R c I1) as RC. pose proof (R d J1) as RD. cbv beta in RC, RD. rewrite Forall_forall in RC, RD. split; [apply RC, I2 | apply RD, J2].
Qed.

Lemma reach_in_range cs nd : in_range (optical_lines cs) (classical_lines cs) nd ->
  forall l, In l (reach cs nd) -> touch (optical_lines cs) (classical_lines cs) nd (optical_lines cs + classical_lines cs - 1 - l) /\
    l < optical_lines cs + classical_lines cs.
Proof.
  intros (RO & RC) l I. set (n := optical_lines cs + classical_lines cs).
  assert (LL : forall m, In m (on_lines (optical_lines cs) nd) -> m < n).
  { intros m J. unfold on_lines in J. apply in_app_iff in J. rewrite Forall_forall in RO, RC. destruct J as [J|J]; [specialize (RO m J); unfold n; lia|].
    apply in_map_iff in J. destruct J as (c & <- & J). specialize (RC c J). unfold n. lia. }
  assert (Ll : l < n).
  { unfold reach in I. change (lines_of cs nd) with (on_lines (optical_lines cs) nd) in I. apply in_app_iff in I. destruct I as [I|I]; [apply LL, I|].
    destruct (on_lines (optical_lines cs) nd) as [|m ms] eqn:E; [rewrite andb_false_r in I; contradiction|].
    destruct (d_linked nd && (d_gate nd =? "single")%string && negb false); [|contradiction]. destruct I as [<-|[]]. specialize (LL m (or_introl eq_refl)). fold n. lia. }
  split; [|exact Ll]. split; [fold n; lia|]. fold n. replace (n - 1 - (n - 1 - l)) with l by lia.
  unfold reach in I. change (lines_of cs nd) with (on_lines (optical_lines cs) nd) in I. exact I.
Qed.

(** ** The theorems *)

(** Whenever a circuit, or a chain of circuits connected by bridges, can be drawn, two nodes that have a channel in
    common appear in the order in which they are executed, and so do any two nodes of different circuits of the
    chain.  This holds for every number of nodes per line that leaves room between them, and for every circuit in
    which no more than [2 * per_line] consecutive nodes belong to the same combined gate. *)
Theorem C59_order cv cs l : 0 < spacing cv -> connected cs -> gates_at_most (2 * per_line cv) cs -> draw cv cs = Some l ->
  List.length l = List.length (numbered 0 cs) /\
  forall i j k a p v k' b q w, i < j ->
    nth_error (numbered 0 cs) i = Some (k, a) -> nth_error (numbered 0 cs) j = Some (k', b) ->
    nth_error l i = Some (p, v) -> nth_error l j = Some (q, w) ->
    d_bridge a = false -> d_bridge b = false ->
    share_channel a b \/ k <> k' ->
    read_before p q.
Proof.
  intros SP CN GA H. split; [apply (draw_spec cv cs l CN GA H)|].
  intros i j k a p v k' b q w L NI NJ LI LJ BA BB SH.
  destruct (pair_of cv cs l i j k a p v k' b q w CN GA H L NI NJ LI LJ BA BB) as
    (h & h' & (A1 & A2 & A3) & (B1 & B2 & B3) & C & D & E & F & RA & RB).
  apply (coord_before cv p q _ _ SP A1 B1). apply E. destruct SH as [(c & SH)|SH]; [left | right; exact SH].
  set (no := optical_lines cs) in *. set (nc := classical_lines cs) in *.
  assert (X : exists m, In m (on_lines no a) /\ In m (on_lines no b)).
  { destruct SH as [(X & Y)|(X & Y)]; [exists c | exists (no + c)]; unfold on_lines; split; apply in_app_iff; auto;
      right; apply in_map_iff; exists c; auto. }
  destruct X as (m & MA & MB).
  assert (TA : touch no nc a (no + nc - 1 - m)) by (apply (reach_in_range cs a RA), in_app_iff; left; exact MA).
  assert (TB : touch no nc b (no + nc - 1 - m)) by (apply (reach_in_range cs b RB), in_app_iff; left; exact MB).
  exists (no + nc - 1 - m). split; [apply (A2 _ _ _ (conj (le_n _) (le_n _)) TA TA) | apply (B2 _ _ _ (conj (le_n _) (le_n _)) TB TB)].
Qed.
Print Assumptions C59_order.

(** Two nodes in the same column do not overlap: one is completely above the other, with a free line in between,
    unless they belong to the same combined gate. *)
Theorem C59_apart cv cs l : 0 < spacing cv -> connected cs -> gates_at_most (2 * per_line cv) cs -> draw cv cs = Some l ->
  forall i j k a p v k' b q w, i < j ->
    nth_error (numbered 0 cs) i = Some (k, a) -> nth_error (numbered 0 cs) j = Some (k', b) ->
    nth_error l i = Some (p, v) -> nth_error l j = Some (q, w) ->
    d_bridge a = false -> d_bridge b = false -> ~ same_gate a b ->
    same_column cv p q ->
    apart (reach cs a) (reach cs b).
Proof.
  intros SP CN GA H i j k a p v k' b q w L NI NJ LI LJ BA BB NG SC.
  destruct (pair_of cv cs l i j k a p v k' b q w CN GA H L NI NJ LI LJ BA BB) as
    (h & h' & (A1 & A2 & A3) & (B1 & B2 & B3) & C & D & E & F & RA & RB).
  pose proof (coord_column cv p q _ _ SP A1 B1 SC) as Q.
  assert (SEP : forall x, has (h_o h) x -> has (with_boundaries (h_o h')) x -> False).
  { destruct F as [(F1 & F2)|F]; [|exfalso; apply NG; split; congruence | exact F].
    exists (h_g h / 4). unfold bounds in C, D.
    pose proof (Nat.div_mod (h_g h) 4 ltac:(lia)). pose proof (Nat.mod_upper_bound (h_g h) 4 ltac:(lia)).
    pose proof (Nat.div_mod (h_g h') 4 ltac:(lia)). pose proof (Nat.mod_upper_bound (h_g h') 4 ltac:(lia)). rewrite <- Q in *. lia. }
  set (no := optical_lines cs) in *. set (nc := classical_lines cs) in *. set (n := no + nc).
  assert (CA : forall l1 x l2, l1 <= x <= l2 -> In l1 (reach cs a) -> In l2 (reach cs a) -> has (h_o h) (n - 1 - x)).
  { intros l1 x l2 X I1 I2. destruct (reach_in_range cs a RA l1 I1) as (T1 & L1). destruct (reach_in_range cs a RA l2 I2) as (T2 & L2).
    apply (A2 (n - 1 - l2) (n - 1 - x) (n - 1 - l1)); [fold no nc n in L1, L2; lia | exact T2 | exact T1]. }
  assert (CB : forall l1 x l2, l1 <= x <= l2 -> In l1 (reach cs b) -> In l2 (reach cs b) -> has (h_o h') (n - 1 - x)).
  { intros l1 x l2 X I1 I2. destruct (reach_in_range cs b RB l1 I1) as (T1 & L1). destruct (reach_in_range cs b RB l2 I2) as (T2 & L2).
    apply (B2 (n - 1 - l2) (n - 1 - x) (n - 1 - l1)); [fold no nc n in L1, L2; lia | exact T2 | exact T1]. }
  assert (LT : forall nd, in_range no nc nd -> forall l, In l (reach cs nd) -> l < n) by (intros nd R l1 I1; apply (reach_in_range cs nd R l1 I1)).
  assert (WB : forall l1 x l2 y, l1 <= x <= l2 -> In l1 (reach cs b) -> In l2 (reach cs b) -> (y = x \/ y = x + 1 \/ x = y + 1) -> y < n ->
                has (with_boundaries (h_o h')) (n - 1 - y)).
  { intros l1 x l2 y X I1 I2 Y Ly. pose proof (CB l1 x l2 X I1 I2) as HB. pose proof (LT b RB l1 I1). pose proof (LT b RB l2 I2).
    apply with_boundaries_has. destruct Y as [->|[->| ->]]; [left; exact HB | right; left | right; right].
    - replace (S (n - 1 - (x + 1))) with (n - 1 - x) by lia. exact HB.
    - split; [lia|]. replace (n - 1 - y - 1) with (n - 1 - (y + 1)) by lia. exact HB. }
  destruct (reach cs a) as [|l0 la] eqn:EA; [left; intros x y []|]. rewrite <- EA in *.
  destruct (reach cs b) as [|m0 lb] eqn:EB; [left; intros x y _ []|]. rewrite <- EB in *.
  assert (I0 : In l0 (reach cs a)) by (rewrite EA; left; reflexivity). assert (J0 : In m0 (reach cs b)) by (rewrite EB; left; reflexivity).
  clear EA EB.
  assert (FAR : forall x y, In x (reach cs a) -> In y (reach cs b) -> x + 1 < y \/ y + 1 < x).
  { intros x y X Y. destruct (Nat.lt_ge_cases (x + 1) y) as [G|G]; [left; exact G|]. destruct (Nat.lt_ge_cases (y + 1) x) as [G'|G']; [right; exact G'|].
    exfalso. apply (SEP (n - 1 - x)); [apply (CA x x x); auto; lia | apply (WB y y y x); auto; try lia; apply (LT a RA x X)]. }
  destruct (FAR l0 m0 I0 J0) as [G|G]; [left | right]; intros x y X Y; destruct (FAR x y X Y) as [K|K]; auto; exfalso.
  - (* l0 + 1 < m0 and y + 1 < x *)
    destruct (Nat.lt_ge_cases x m0) as [M|M].
    + apply (SEP (n - 1 - x)); [apply (CA x x x); auto; lia | apply (WB y x m0 x); auto; try lia; apply (LT a RA x X)].
    + apply (SEP (n - 1 - m0)); [apply (CA l0 m0 x); auto; lia | apply (WB m0 m0 m0 m0); auto; try lia; apply (LT b RB m0 J0)].
  - destruct (Nat.lt_ge_cases m0 x) as [M|M].
    + apply (SEP (n - 1 - x)); [apply (CA x x x); auto; lia | apply (WB m0 x y x); auto; try lia; apply (LT a RA x X)].
    + apply (SEP (n - 1 - m0)); [apply (CA x m0 l0); auto; lia | apply (WB m0 m0 m0 m0); auto; try lia; apply (LT b RB m0 J0)].
Qed.
Print Assumptions C59_apart.
