(** The invariant of the layout loop of DrawModel.v. *)
From Coq Require Import List String Arith NArith Bool Lia Sorted.
From Verif Require Import DrawModel DrawSpec DrawProofs.
Import ListNotations.

(** ** Coordinates: quarters of a column, counted through all pages *)

Definition at_coord (cv : canvas) (pl : place) (g : nat) : Prop :=
  exists q, at_x pl = spacing cv * q /\ q < 4 * per_line cv /\ g = 4 * (per_line cv * on_page pl) + q.

Lemma coord_before cv p p' g g' : 0 < spacing cv -> at_coord cv p g -> at_coord cv p' g' -> g < g' -> read_before p p'.
Proof.
  intros SP (q & A & B & C) (q' & A' & B' & C') L. unfold read_before.
  destruct (Nat.lt_trichotomy (on_page p) (on_page p')) as [H|[H|H]]; [left; exact H | right | exfalso].
  - split; [exact H|]. rewrite A, A'. rewrite H in C. apply Nat.mul_lt_mono_pos_l; [exact SP | lia].
  - assert (per_line cv * S (on_page p') <= per_line cv * on_page p) by (apply Nat.mul_le_mono_l; lia). nia.
Qed.

Lemma coord_column cv p p' g g' : 0 < spacing cv -> at_coord cv p g -> at_coord cv p' g' -> same_column cv p p' -> g / 4 = g' / 4.
Proof.
  intros SP (q & A & B & C) (q' & A' & B' & C') (H & K). subst g g'. rewrite H.
  rewrite (Nat.mul_comm 4 (per_line cv * on_page p')), !Nat.div_add_l by lia. f_equal.
  rewrite A, A' in K. rewrite (Nat.mul_comm 4) in K.
  rewrite !Nat.div_mul_cancel_l in K by lia. exact K.
Qed.

Lemma column_coord cv c : 0 < per_line cv -> at_coord cv (Place (c / per_line cv) (node_x cv (c mod per_line cv))) (4 * c + 2).
Proof.
  intros P. exists (4 * (c mod per_line cv) + 2). cbn [at_x on_page]. unfold node_x.
  pose proof (Nat.mod_upper_bound c (per_line cv) ltac:(lia)). pose proof (Nat.div_mod c (per_line cv) ltac:(lia)).
  split; [reflexivity|]. split; lia.
Qed.

(** ** Nodes that have been placed *)

Record entry := Entry { h_g : nat; h_s : nat; h_e : nat; h_o : N; h_gate : string }.

Definition live (h : entry) (pos : list N) : Prop :=
  forall c, h_s h <= c <= h_e h -> forall b, has (h_o h) b -> has (nth c pos 0%N) b.
Definition settled (lines : nat) (h : entry) (pos : list N) : Prop :=
  exists c, h_e h <= c < List.length pos /\ forall b, b < lines -> has (nth c pos 0%N) b.
Definition tracked (lines : nat) (h : entry) (pos : list N) : Prop :=
  h_e h < List.length pos /\ (4 * h_s h < h_g h < 4 * (h_e h + 1)) /\ (live h pos \/ settled lines h pos).

(** The nodes of a combined gate that still have to be placed. *)
Record group := Group { gr_s : nat; gr_e : nat; gr_o : N; gr_gs : list nat }.

Definition touch (no nc : nat) (nd : drawn) (b : nat) : Prop :=
  b < no + nc /\
  In (no + nc - 1 - b) (on_lines no nd ++
    (if d_linked nd && String.eqb (d_gate nd) "single" && negb (match on_lines no nd with [] => true | _ => false end)
     then [no + nc - 1] else [])).
Definition covers (no nc : nat) (nd : drawn) (o : N) : Prop :=
  forall b1 b b2, b1 <= b <= b2 -> touch no nc nd b1 -> touch no nc nd b2 -> has o b.

Definition pending (cv : canvas) (no nc : nat) (grp : option group) (prev : option drawn) (rest : list drawn) (st : progress) : Prop :=
  match grp with
  | None => waiting st = None \/ exists page, waiting st = Some (page, [])
  | Some G => exists b page xs, prev = Some b /\ in_gate b = true /\ waiting st = Some (page, xs) /\ xs <> [] /\
      Forall2 (fun x g => at_coord cv (Place page x) g) xs (gr_gs G) /\ StronglySorted lt (gr_gs G) /\
      Forall (fun g => 4 * gr_s G < g < 4 * (gr_e G + 1)) (gr_gs G) /\ gr_e G < List.length (positions st) /\
      (forall c, gr_s G <= c <= gr_e G -> forall i, has (gr_o G) i -> has (nth c (positions st) 0%N) i) /\
      (forall i, has (gr_o G) i -> i < no + nc) /\ gr_o G <> 0%N /\
      List.length xs <= List.length rest /\
      Forall (fun nd => d_bridge nd = false /\ d_gate nd = d_gate b /\ covers no nc nd (gr_o G)) (firstn (List.length xs) rest)
  end.

Definition behind (grp : option group) (prev : option drawn) (h : entry) : Prop :=
  match grp with
  | None => True
  | Some G => Forall (fun g => h_g h < g) (gr_gs G) /\
              ((exists b, prev = Some b /\ h_gate h = d_gate b) \/ h_e h < gr_s G)
  end.

(** What is known about a node [h] placed before and a node [h'] placed later. *)
Definition relation (lines : nat) (pos : list N) (h h' : entry) : Prop :=
  ((exists b, has (h_o h) b /\ has (h_o h') b) -> h_g h < h_g h') /\
  (settled lines h pos -> h_g h < h_g h') /\
  ((exists c, h_s h <= c <= h_e h /\ h_s h' <= c <= h_e h') ->
     (h_gate h = h_gate h' /\ h_gate h <> "single"%string) \/
     forall b, has (h_o h) b -> has (with_boundaries (h_o h')) b -> False).

Lemma nth_app_l (l l' : list N) c : c < List.length l -> nth c (l ++ l') 0%N = nth c l 0%N.
Proof. apply app_nth1. Qed.

Lemma live_app h pos pos' : h_e h < List.length pos -> live h pos -> live h (pos ++ pos').
Proof. intros L H c C b B. rewrite nth_app_l by lia. apply H; assumption. Qed.

Lemma settled_app lines h pos pos' : settled lines h pos -> settled lines h (pos ++ pos').
Proof. intros (c & C & B). exists c. rewrite app_length. split; [lia|]. intros b Lb. rewrite nth_app_l by lia. auto. Qed.

Lemma tracked_app lines h pos pos' : tracked lines h pos -> tracked lines h (pos ++ pos').
Proof.
  intros (A & B & [C|C]); (split; [rewrite app_length; lia | split; [exact B|]]).
  - left. apply live_app; assumption.
  - right. apply settled_app, C.
Qed.

Lemma live_occupy h p o pos : p < List.length pos -> live h pos -> live h (occupy p o pos).
Proof.
  intros L H c C b B. rewrite occupy_nth by exact L. destruct (c =? p); [apply lor_bits; left|]; apply (H c C b B).
Qed.

Lemma settled_occupy lines h p o pos : p < List.length pos -> settled lines h pos -> settled lines h (occupy p o pos).
Proof.
  intros L (c & C & B). exists c. rewrite occupy_length. split; [exact C|]. intros b Lb. rewrite occupy_nth by exact L.
  destruct (c =? p); [apply lor_bits; left|]; auto.
Qed.

Lemma tracked_occupy lines h p o pos : p < List.length pos -> tracked lines h pos -> tracked lines h (occupy p o pos).
Proof.
  intros L (A & B & [C|C]); (split; [rewrite occupy_length; exact A | split; [exact B|]]).
  - left. apply live_occupy; assumption.
  - right. apply settled_occupy; assumption.
Qed.

Lemma settled_bridge lines h pos o : h_e h < List.length pos -> (forall b, b < lines -> has o b) -> settled lines h (tl (pos ++ [o])).
Proof.
  intros L O. destruct pos as [|a pos]; cbn in L; [lia|]. cbn [app tl]. exists (List.length pos). rewrite app_length. cbn [List.length].
  split; [lia|]. intros b Lb. rewrite app_nth2 by lia. rewrite Nat.sub_diag. cbn. apply O. exact Lb.
Qed.

Lemma bridge_length (pos : list N) o : List.length (tl (pos ++ [o])) = List.length pos.
Proof. destruct pos; cbn; [reflexivity|]. rewrite app_length. cbn. lia. Qed.

(** ** The bits of a node cover it *)

Lemma single_covers no nc nd used : int_of_bits (channel_bits no nc (d_optical nd) (d_classical nd)) = Some used -> in_range no nc nd ->
  let o := linked_bits (no + nc) (d_linked nd) (fill_bits (no + nc) used) in
  covers no nc nd o /\ (forall b, has o b -> b < no + nc).
Proof.
  intros U R. cbv zeta. pose proof (node_bits _ _ _ _ U R) as NB.
  assert (F : forall b, has (fill_bits (no + nc) used) b -> b < no + nc) by (intros b H; apply fill_bits_has in H; apply H).
  split.
  - intros b1 b b2 L T1 T2. apply linked_bits_has; [exact F|].
    destruct T1 as (L1 & T1), T2 as (L2 & T2). apply in_app_iff in T1. apply in_app_iff in T2.
    assert (U2 : has used b2 \/ (d_linked nd = true /\ on_lines no nd <> [] /\ no + nc - 1 = no + nc - 1 - b2)).
    { destruct T2 as [T2|T2]; [left; apply NB; split; assumption | right].
      destruct (d_linked nd); cbn [andb] in T2; [|contradiction]. destruct (d_gate nd =? "single")%string; cbn [andb] in T2; [|contradiction].
      destruct (on_lines no nd) eqn:E; cbn in T2; [contradiction|]. split; [reflexivity|]. split; [discriminate|]. destruct T2 as [T2|[]]. exact T2. }
    assert (U1 : has used b1 \/ (d_linked nd = true /\ on_lines no nd <> [] /\ no + nc - 1 = no + nc - 1 - b1)).
    { destruct T1 as [T1|T1]; [left; apply NB; split; assumption | right].
      destruct (d_linked nd); cbn [andb] in T1; [|contradiction]. destruct (d_gate nd =? "single")%string; cbn [andb] in T1; [|contradiction].
      destruct (on_lines no nd) eqn:E; cbn in T1; [contradiction|]. split; [reflexivity|]. split; [discriminate|]. destruct T1 as [T1|[]]. exact T1. }
    assert (ANY : on_lines no nd <> [] -> exists w, has used w /\ w < no + nc).
    { intros NE. destruct (on_lines no nd) as [|l ls] eqn:E; [contradiction|].
      assert (Ll : l < no + nc).
      { assert (I : In l (on_lines no nd)) by (rewrite E; left; reflexivity). unfold on_lines in I. apply in_app_iff in I.
        destruct R as (RO & RC). rewrite Forall_forall in RO, RC. destruct I as [I|I]; [specialize (RO l I); lia|].
        apply in_map_iff in I. destruct I as (c & Ec & I). specialize (RC c I). lia. }
      exists (no + nc - 1 - l). split; [|lia]. apply NB. split; [lia|]. replace (no + nc - 1 - (no + nc - 1 - l)) with l by lia. left. reflexivity. }
    (* bits of fill up to its lowest one, when linked *)
    assert (LOW : d_linked nd = true -> on_lines no nd <> [] -> exists w, has used w /\ (b <= w -> has (fill_bits (no + nc) used) b \/
              (exists m, b <= m /\ has (fill_bits (no + nc) used) m /\ forall b3, has (fill_bits (no + nc) used) b3 -> m <= b3))).
    { intros LK NE. destruct (ANY NE) as (w & W & Lw).
      assert (FW : has (fill_bits (no + nc) used) w) by (apply fill_bits_has; split; [exact Lw|]; exists w, w; repeat split; auto).
      assert (MIN : exists m, has (fill_bits (no + nc) used) m /\ forall b3, has (fill_bits (no + nc) used) b3 -> m <= b3).
      { clear -FW. induction w as [w IH] using (well_founded_induction lt_wf).
        destruct (List.find (fun i => N.testbit (fill_bits (no + nc) used) (N.of_nat i)) (seq 0 w)) as [i|] eqn:E.
        - apply find_some in E. destruct E as (I & E). apply in_seq in I. apply (IH i); [lia | exact E].
        - exists w. split; [exact FW|]. intros b3 H. destruct (Nat.lt_ge_cases b3 w) as [L|L]; [|exact L].
          pose proof (find_none _ _ E b3) as G. cbv beta in G. unfold has in H. rewrite G in H; [discriminate|]. apply in_seq. lia. }
      exists w. split; [exact W|]. intros Lb. destruct MIN as (m & M1 & M2).
      destruct (Nat.lt_ge_cases b m) as [G|G]; [right; exists m; repeat split; auto; lia|].
      left. apply fill_bits_has in M1. destruct M1 as (_ & c1 & c2 & C & C1 & C2).
      apply fill_bits_has. split; [lia|]. exists c1, w. repeat split; auto; lia. }
    destruct U2 as [U2|(LK & NE & E2)].
    + destruct U1 as [U1|(LK & NE & E1)].
      * left. apply fill_bits_has. split; [lia|]. exists b1, b2. repeat split; auto; lia.
      * destruct (LOW LK NE) as (w & W & C).
        destruct (Nat.le_ge_cases b w) as [G|G].
        -- destruct (C G) as [D|(m & D)]; [left; exact D | right; split; [exact LK | exists m; exact D]].
        -- left. apply fill_bits_has. split; [lia|]. exists w, b2. repeat split; auto; lia.
    + assert (b2 = 0) by lia. assert (b = 0) by lia. subst.
      destruct (LOW LK NE) as (w & W & C). destruct (C ltac:(lia)) as [D|(m & D)]; [left; exact D | right; split; [exact LK | exists m; exact D]].
  - intros b H. apply linked_bits_has in H; [|exact F]. destruct H as [H|(_ & b1 & A & B & _)]; [apply F, H|]. apply F in B. lia.
Qed.

Lemma used_bits_in no nc nds : forall used, used_bits no nc nds = Some used ->
  forall nd, In nd nds -> exists x, int_of_bits (channel_bits no nc (d_optical nd) (d_classical nd)) = Some x /\ forall b, has x b -> has used b.
Proof.
  induction nds as [|a nds IH]; intros used H nd I; [contradiction|]. cbn [used_bits] in H.
  destruct (int_of_bits (channel_bits no nc (d_optical a) (d_classical a))) as [x|] eqn:E; [|discriminate].
  destruct (used_bits no nc nds) as [y|] eqn:E'; [|discriminate]. inversion H; subst. destruct I as [->|I].
  - exists x. split; [exact E|]. intros b B. apply lor_bits. left. exact B.
  - destruct (IH y eq_refl nd I) as (z & A & B). exists z. split; [exact A|]. intros b C. apply lor_bits. right. auto.
Qed.

Lemma gate_covers no nc nds used nd : used_bits no nc nds = Some used -> In nd nds -> in_range no nc nd -> d_gate nd <> "single"%string ->
  covers no nc nd (fill_bits (no + nc) used).
Proof.
  intros U I R G b1 b b2 L T1 T2. destruct (used_bits_in _ _ _ _ U nd I) as (x & X & S).
  pose proof (node_bits _ _ _ _ X R) as NB.
  assert (NG : (d_gate nd =? "single")%string = false) by (apply String.eqb_neq; exact G).
  unfold touch in T1, T2. rewrite NG, andb_false_r, andb_false_l, app_nil_r in T1, T2. apply NB in T1. apply NB in T2.
  apply fill_bits_has. split; [apply NB in T2; lia|]. exists b1, b2. repeat split; auto; lia.
Qed.

(** ** Columns *)

Lemma fitting_spec cv (lines : nat) o pos pl pos' : 0 < per_line cv -> place_fitting cv o pos = (pl, pos') ->
  exists p, at_coord cv pl (4 * p + 2) /\ p <= List.length pos /\
    (forall c, p <= c -> c < List.length pos -> N.land (nth c pos 0%N) o = 0%N) /\
    ((p < List.length pos /\ pos' = occupy p o pos /\ N.land (nth p pos 0%N) (with_boundaries o) = 0%N) \/
     (p = List.length pos /\ pos' = pos ++ [o])).
Proof.
  intros P H. unfold place_fitting in H.
  set (p0 := leftmost o pos (List.length pos)) in H.
  pose proof (leftmost_le o pos (List.length pos)) as L0. fold p0 in L0.
  pose proof (first_fit_spec (with_boundaries o) pos _ p0 eq_refl L0) as F. cbv zeta in F.
  set (p := first_fit (with_boundaries o) (skipn p0 pos) p0) in *.
  destruct F as (F1 & F2).
  assert (D : forall c, p <= c -> c < List.length pos -> N.land (nth c pos 0%N) o = 0%N).
  { intros c C1 C2. apply (leftmost_spec o pos (List.length pos) c); [fold p0; lia | exact C2]. }
  destruct (List.length pos <=? p) eqn:E; inversion H; subst; clear H.
  - apply Nat.leb_le in E. assert (p = List.length pos) as Ep by lia. exists (List.length pos).
    split; [apply column_coord; exact P|]. split; [lia|]. split; [intros; lia|]. right. split; reflexivity.
  - apply Nat.leb_gt in E. exists p. split; [apply column_coord; exact P|]. split; [lia|]. split; [exact D|]. left.
    split; [exact E|]. split; [reflexivity | apply F2; exact E].
Qed.

Lemma gate_spec cv n o pos st : 2 <= n -> n <= 2 * per_line cv -> place_gate cv n o pos = Some st ->
  exists s e page xs gs, waiting st = Some (page, xs) /\ List.length xs = n /\
    Forall2 (fun x g => at_coord cv (Place page x) g) xs gs /\ StronglySorted lt gs /\
    Forall (fun g => 4 * s < g < 4 * (e + 1)) gs /\ List.length pos <= s /\ s <= e /\ e < List.length (positions st) /\
    (exists pad, positions st = pos ++ pad) /\
    (forall c, s <= c <= e -> nth c (positions st) 0%N = o).
Proof.
  intros N2 NL H. unfold place_gate in H.
  set (len := List.length pos) in *. set (P := per_line cv) in *. set (k := len mod P) in *. set (cols := (1 + n) / 2) in *.
  destruct (P <=? 1) eqn:EP; [discriminate|]. apply Nat.leb_gt in EP.
  assert (C1 : 2 * cols <= n + 1 /\ n <= 2 * cols /\ (Nat.even n = true -> n = 2 * cols) /\ (Nat.even n = false -> n + 1 = 2 * cols)).
  { unfold cols. pose proof (Nat.div_mod (1 + n) 2 ltac:(lia)) as D. pose proof (Nat.mod_upper_bound (1 + n) 2 ltac:(lia)).
    rewrite <- Nat.bit0_mod in D. rewrite Nat.bit0_odd in D. replace (1 + n) with (S n) in D by lia. rewrite Nat.odd_succ in D.
    replace (1 + n) with (S n) in * by lia.
    destruct (Nat.even n); cbn [Nat.b2n] in D; repeat split; intros; try discriminate; lia. }
  destruct C1 as (C1 & C2 & C3 & C4). assert (C5 : cols <= P) by lia. assert (C6 : 1 <= cols) by lia.
  pose proof (Nat.div_mod len P ltac:(lia)) as DL. fold k in DL. pose proof (Nat.mod_upper_bound len P ltac:(lia)) as KL. fold k in KL.
  set (page := (len + cols) / P) in *.
  set (moved := negb (page =? len / P)) in *.
  set (k' := if moved then 0 else k) in *.
  set (pos1 := if moved then pos ++ repeat 0%N (P - k) else pos) in *.
  set (s := P * page + k').
  assert (MV : List.length pos1 = s /\ len <= s /\ k' + cols <= P).
  { unfold s, pos1, k', moved. destruct (page =? len / P) eqn:E; cbn [negb].
    - apply Nat.eqb_eq in E. rewrite E. fold len. split; [lia|]. split; [lia|].
      pose proof (Nat.div_mod (len + cols) P ltac:(lia)) as D. pose proof (Nat.mod_upper_bound (len + cols) P ltac:(lia)).
      fold page in D. rewrite E in D. lia.
    - apply Nat.eqb_neq in E. assert (PG : page = len / P + 1).
      { assert (len / P <= page) by (apply Nat.div_le_mono; lia).
        assert (page < len / P + 2) by (apply Nat.div_lt_upper_bound; lia). lia. }
      rewrite app_length, repeat_length. fold len. rewrite PG. split; [nia|]. split; [nia | lia]. }
  destruct MV as (M1 & M2 & M3).
  inversion H as [H']. clear H. cbn [positions waiting].
  exists s, (s + cols - 1), page, (map (fun j => spacing cv * (4 * k' + (if Nat.even n then 1 else 2) + 2 * j)) (seq 0 n)),
    (map (fun j => 4 * s + (if Nat.even n then 1 else 2) + 2 * j) (seq 0 n)).
  split; [reflexivity|]. split; [rewrite map_length, seq_length; reflexivity|].
  assert (JB : forall j, j < n -> (if Nat.even n then 1 else 2) + 2 * j < 4 * cols).
  { intros j J. destruct (Nat.even n); [specialize (C3 eq_refl) | specialize (C4 eq_refl)]; lia. }
  split; [|split; [|split; [|split; [|split; [|split; [|split]]]]]].
  - assert (G : forall l, (forall j, In j l -> j < n) -> Forall2 (fun x g => at_coord cv (Place page x) g)
       (map (fun j => spacing cv * (4 * k' + (if Nat.even n then 1 else 2) + 2 * j)) l) (map (fun j => 4 * s + (if Nat.even n then 1 else 2) + 2 * j) l)).
    { induction l as [|j l IH]; intros I; cbn [map]; constructor; [|apply IH; intros; apply I; right; assumption].
      exists (4 * k' + (if Nat.even n then 1 else 2) + 2 * j). cbn [at_x on_page]. specialize (JB j (I j (or_introl eq_refl))).
      fold P. split; [reflexivity|]. split; [lia|]. unfold s. lia. }
    apply G. intros j J. apply in_seq in J. lia.
  - assert (G : forall m a, StronglySorted lt (map (fun j => 4 * s + (if Nat.even n then 1 else 2) + 2 * j) (seq a m))).
    { induction m as [|m IH]; intros a; cbn [seq map]; constructor; [apply IH|]. apply Forall_forall. intros x X.
      apply in_map_iff in X. destruct X as (j & <- & J). apply in_seq in J. lia. }
    apply G.
  - apply Forall_forall. intros x X. apply in_map_iff in X. destruct X as (j & <- & J). apply in_seq in J.
    specialize (JB j ltac:(lia)). destruct (Nat.even n); lia.
  - exact M2.
  - lia.
  - rewrite app_length, repeat_length, M1. lia.
  - unfold pos1. destruct moved; [exists (repeat 0%N (P - k) ++ repeat o cols); rewrite app_assoc; reflexivity | eexists; reflexivity].
  - intros c C. rewrite app_nth2 by lia. rewrite M1.
    rewrite (nth_indep _ 0%N o) by (rewrite repeat_length; lia). apply nth_repeat.
Qed.

(** ** One round of the loop *)

Lemma in_firstn {A} (x : A) n l : In x (firstn n l) -> In x l.
Proof. revert n. induction l as [|a l IH]; intros [|n] I; cbn in *; try contradiction. destruct I; [left; assumption | right; eauto]. Qed.

Lemma gate_run g nds : Forall (fun nd => d_bridge nd = false /\ d_gate nd = g) (firstn (gate_length g nds) nds).
Proof.
  induction nds as [|nd nds IH]; cbn [gate_length]; [constructor|].
  destruct (d_bridge nd) eqn:B; [constructor|]. destruct (String.eqb_spec (d_gate nd) g) as [E|E]; [|constructor].
  cbn [firstn]. constructor; [split; assumption | exact IH].
Qed.

Lemma gate_length_le g nds : gate_length g nds <= List.length nds.
Proof. induction nds as [|nd nds IH]; cbn [gate_length List.length]; [lia|]. destruct (d_bridge nd); [lia|]. destruct (_ =? g)%string; lia. Qed.

Lemma pending_next cv no nc G prev nd rest st : pending cv no nc (Some G) prev (nd :: rest) st ->
  exists b, prev = Some b /\ d_bridge nd = false /\ d_gate nd = d_gate b /\ in_gate nd = true /\ starts_gate prev nd = false.
Proof.
  intros (b & page & xs & -> & IG & W & NE & F2 & SS & FG & LE & GL & GO & GZ & LX & FN).
  destruct xs as [|x xs]; [contradiction|]. cbn [List.length firstn] in FN. apply Forall_cons_iff in FN. destruct FN as ((A & B & C) & _).
  exists b. unfold starts_gate, in_gate in *. rewrite A, B. cbn [negb andb].
  apply andb_true_iff in IG. destruct IG as (I1 & I2). rewrite I2. cbn [andb]. rewrite String.eqb_refl. repeat split; auto.
Qed.

Definition placed_as (cv : canvas) (no nc : nat) (nd : drawn) (pl : place) (h : entry) : Prop :=
  at_coord cv pl (h_g h) /\ covers no nc nd (h_o h) /\ h_gate h = d_gate nd.

Lemma step cv no nc grp prev nd rest st pl st' :
  0 < per_line cv -> Forall (in_range no nc) (nd :: rest) ->
  pending cv no nc grp prev (nd :: rest) st -> (starts_gate prev nd = true -> gate_length (d_gate nd) (nd :: rest) <= 2 * per_line cv) ->
  place_node cv no nc prev nd (nd :: rest) st = Some (pl, st') ->
  exists grp', pending cv no nc grp' (Some nd) rest st' /\
    (forall h, tracked (no + nc) h (positions st) -> behind grp prev h ->
       tracked (no + nc) h (positions st') /\ behind grp' (Some nd) h /\
       (settled (no + nc) h (positions st) \/ d_bridge nd = true -> settled (no + nc) h (positions st'))) /\
    (d_bridge nd = true \/
     exists h', placed_as cv no nc nd pl h' /\ tracked (no + nc) h' (positions st') /\ behind grp' (Some nd) h' /\
       forall h, tracked (no + nc) h (positions st) -> behind grp prev h -> relation (no + nc) (positions st) h h').
Proof.
  intros P R PD LIM H. unfold place_node in H. set (n := gate_length (d_gate nd) (nd :: rest)) in *.
  destruct (d_bridge nd) eqn:BR.
  - (* a bridge *)
    destruct grp as [G|]; [apply pending_next in PD; destruct PD as (b & _ & X & _); congruence|].
    destruct (all_bits no nc) as [o|] eqn:EO; [|discriminate]. unfold place_last in H. inversion H; subst; clear H. cbn [positions].
    exists None. split; [exact PD|]. split; [|left; reflexivity]. intros h (T1 & T2 & T3) _.
    assert (S : settled (no + nc) h (tl (positions st ++ [o]))) by (apply settled_bridge; [exact T1 | intros b; apply (all_bits_has _ _ _ EO)]).
    split; [split; [rewrite bridge_length; exact T1 | split; [exact T2 | right; exact S]]|]. split; [exact I | intros _; exact S].
  - destruct (in_gate nd && negb (starts_gate prev nd && ((per_line cv <? n / 2) || (n <=? 1)))) eqn:CO.
    + apply andb_true_iff in CO. destruct CO as (IG & CO). destruct (starts_gate prev nd) eqn:SG.
      * (* the first node of a gate *)
        destruct grp as [G|]; [apply pending_next in PD; destruct PD as (b & _ & _ & _ & _ & X); congruence|].
        cbn [andb] in CO. apply negb_true_iff, orb_false_iff in CO. destruct CO as (_ & N1). apply Nat.leb_gt in N1.
        destruct (used_bits no nc (firstn n (nd :: rest))) as [used|] eqn:EU; [|discriminate].
        set (o := fill_bits (no + nc) used) in *. destruct (o =? 0)%N eqn:OZ; [discriminate|]. apply N.eqb_neq in OZ.
        destruct (place_gate cv n o (positions st)) as [st1|] eqn:PG; [|discriminate].
        destruct (gate_spec cv n o (positions st) st1 ltac:(lia) (LIM eq_refl) PG) as
          (s & e & page & xs & gs & W & LX & F2 & SS & FG & S1 & S2 & S3 & (pad & S4) & S5).
        unfold next_of_gate in H. rewrite W in H. destruct xs as [|x xs]; [discriminate|]. inversion H; subst pl st'; clear H.
        inversion F2 as [|x' g xs' gs' CX F2' E1 E2]. subst x' xs' gs. apply Forall_cons_iff in FG. destruct FG as (FG0 & FG).
        apply StronglySorted_inv in SS. destruct SS as (SS & SG0).
        assert (OB : forall i, has o i -> i < no + nc) by (intros i Hi; apply fill_bits_has in Hi; apply Hi).
        assert (GI : d_gate nd <> "single"%string).
        { unfold in_gate in IG. apply andb_true_iff in IG. destruct IG as (_ & IG). apply negb_true_iff, String.eqb_neq in IG. exact IG. }
        pose proof (gate_run (d_gate nd) (nd :: rest)) as RUN. fold n in RUN.
        assert (FN : Forall (fun nd' => d_bridge nd' = false /\ d_gate nd' = d_gate nd /\ covers no nc nd' o) (firstn n (nd :: rest))).
        { rewrite Forall_forall in RUN, R |- *. intros nd' I'. destruct (RUN nd' I') as (A & B). split; [exact A|]. split; [exact B|].
          apply (gate_covers no nc _ used nd' EU I'); [apply R; exact (in_firstn _ _ _ I') | congruence]. }
        cbn [List.length] in LX.
        assert (NN : n = S (List.length xs)) by lia.
        pose proof (gate_length_le (d_gate nd) (nd :: rest)) as GL. fold n in GL. cbn [List.length] in GL.
        rewrite NN in FN. cbn [firstn] in FN. apply Forall_cons_iff in FN. destruct FN as ((_ & _ & CV) & FN).
        exists (Some (Group s e o gs')). split.
        { exists nd, page, xs. cbn [waiting positions gr_gs gr_s gr_e gr_o]. split; [reflexivity|]. split; [exact IG|]. split; [reflexivity|].
          split; [intros ->; cbn [List.length] in LX; lia|]. split; [exact F2'|]. split; [exact SS|]. split; [exact FG|]. split; [exact S3|].
          split; [intros c C i Hi; rewrite (S5 c C); exact Hi|]. split; [exact OB|]. split; [exact OZ|]. split; [lia | exact FN]. }
        cbn [positions].
        split.
        { intros h T _. rewrite S4. split; [apply tracked_app, T|]. split.
          - cbn [behind gr_gs gr_s]. destruct T as (T1 & T2 & _). split; [|right; lia].
            apply Forall_forall. intros g' G'. rewrite Forall_forall in FG. specialize (FG g' G'). lia.
          - intros [X|X]; [apply settled_app, X | congruence]. }
        right. exists (Entry g s e o (d_gate nd)). cbn [h_g h_s h_e h_o h_gate]. split; [split; [exact CX | split; [exact CV | reflexivity]]|].
        split.
        { split; [exact S3|]. split; [exact FG0|]. left. intros c C i Hi. rewrite (S5 c C). exact Hi. }
        split.
        { split; [exact SG0|]. left. exists nd. split; reflexivity. }
        intros h (T1 & T2 & _) _. assert (LT : h_g h < g) by lia.
        split; [intros _; exact LT|]. split; [intros _; exact LT|]. intros (c & C1 & C2). cbn [h_s h_e] in *. lia.
      * (* a further node of a gate *)
        destruct grp as [G|].
        2:{ exfalso. unfold next_of_gate in H. destruct PD as [W|(page & W)]; rewrite W in H; discriminate. }
        pose proof (pending_next _ _ _ _ _ _ _ _ PD) as (b0 & PB & _ & GB & _ & _).
        destruct PD as (b & page & xs & EB & IB & W & NE & F2 & SS & FG & LE & GL & GO & GZ & LX & FN).
        rewrite PB in EB. inversion EB; subst b0. clear EB.
        unfold next_of_gate in H. rewrite W in H. destruct xs as [|x xs]; [discriminate|]. inversion H; subst pl st'; clear H. cbn [positions].
        destruct G as [s e o gs]. cbn [gr_s gr_e gr_o gr_gs] in *.
        inversion F2 as [|x' g xs' gs' CX F2' E1 E2]. subst x' xs' gs. apply Forall_cons_iff in FG. destruct FG as (FG0 & FG).
        apply StronglySorted_inv in SS. destruct SS as (SS & SG0). cbn [List.length firstn] in FN, LX.
        apply Forall_cons_iff in FN. destruct FN as ((_ & _ & CV) & FN).
        assert (PE : behind (Some (Group s e o gs')) (Some nd) (Entry g s e o (d_gate nd))).
        { split; [exact SG0|]. left. exists nd. split; reflexivity. }
        assert (ST : forall h, behind (Some (Group s e o (g :: gs'))) prev h -> behind (Some (Group s e o gs')) (Some nd) h).
        { intros h (B1 & B2). cbn [gr_gs gr_s] in *. apply Forall_cons_iff in B1. split; [apply B1|]. destruct B2 as [(bb & B2 & B3)|B2]; [left | right; exact B2].
          exists nd. split; [reflexivity|]. rewrite PB in B2. inversion B2; subst. congruence. }
        exists (match xs with [] => None | _ => Some (Group s e o gs') end).
        split.
        { destruct xs as [|x2 xs2] eqn:EX.
          - right. exists page. reflexivity.
          - rewrite <- EX in *. exists nd, page, xs. cbn [waiting positions gr_gs gr_s gr_e gr_o]. split; [reflexivity|]. split; [exact IG|]. split; [reflexivity|].
            split; [rewrite EX; discriminate|]. split; [exact F2'|]. split; [exact SS|]. split; [exact FG|]. split; [exact LE|]. split; [exact GL|].
            split; [exact GO|]. split; [exact GZ|]. split; [lia|]. rewrite GB. exact FN. }
        split.
        { intros h T B. split; [exact T|]. split; [destruct xs; [exact I | apply ST, B]|]. intros [X|X]; [exact X | congruence]. }
        right. exists (Entry g s e o (d_gate nd)). cbn [h_g h_s h_e h_o h_gate]. split; [split; [exact CX | split; [exact CV | reflexivity]]|].
        split; [split; [exact LE | split; [exact FG0 | left; exact GL]]|].
        split; [destruct xs; [exact I | exact PE]|].
        intros h T (B1 & B2). cbn [gr_gs gr_s] in *. apply Forall_cons_iff in B1. destruct B1 as (B1 & _).
        split; [intros _; exact B1|]. split; [intros _; exact B1|]. intros (c & C1 & C2). cbn [h_s h_e h_gate] in *. left.
        destruct B2 as [(bb & B2 & B3)|B2]; [|lia]. rewrite PB in B2. inversion B2; subst bb.
        split; [congruence|]. rewrite B3, <- GB. unfold in_gate in IG. apply andb_true_iff in IG. destruct IG as (_ & IG).
        apply negb_true_iff, String.eqb_neq in IG. exact IG.
    + (* a node on its own *)
      destruct grp as [G|].
      { exfalso. apply pending_next in PD. destruct PD as (b & _ & _ & _ & X & Y). rewrite X, Y in CO. discriminate. }
      destruct (int_of_bits (channel_bits no nc (d_optical nd) (d_classical nd))) as [used|] eqn:EU; [|discriminate].
      set (o := linked_bits (no + nc) (d_linked nd) (fill_bits (no + nc) used)) in *.
      pose proof (single_covers no nc nd used EU ltac:(apply Forall_inv in R; exact R)) as SC. cbv zeta in SC. fold o in SC.
      destruct SC as (CV & OB).
      set (nothing := match d_optical nd, d_classical nd with [], [] => true | _, _ => false end) in *.
      assert (LASTCASE : forall w, pl = Place (List.length (positions st) / per_line cv) (node_x cv (List.length (positions st) mod per_line cv)) ->
        (w = None \/ exists page, w = Some (page, [])) ->
        st' = Progress (positions st ++ [o]) w ->
        exists grp', pending cv no nc grp' (Some nd) rest st' /\
    (forall h, tracked (no + nc) h (positions st) -> behind None prev h ->
       tracked (no + nc) h (positions st') /\ behind grp' (Some nd) h /\
       (settled (no + nc) h (positions st) \/ false = true -> settled (no + nc) h (positions st'))) /\
    (false = true \/
     exists h', placed_as cv no nc nd pl h' /\ tracked (no + nc) h' (positions st') /\ behind grp' (Some nd) h' /\
       forall h, tracked (no + nc) h (positions st) -> behind None prev h -> relation (no + nc) (positions st) h h')).
      { intros w -> HW ->. exists None. split; [exact HW|]. cbn [positions]. split.
        - intros h T _. split; [apply tracked_app, T|]. split; [exact I|]. intros [X|X]; [apply settled_app, X | discriminate].
        - right. set (len := List.length (positions st)). exists (Entry (4 * len + 2) len len o (d_gate nd)).
          split; [split; [apply column_coord, P | split; [exact CV | reflexivity]]|].
          split.
          { split; cbn [h_e h_s h_g]; [rewrite app_length; fold len; cbn; lia|]. split; [lia|]. left. intros c C b B. cbn [h_s h_e h_o] in *.
            assert (c = len) as -> by lia. rewrite app_nth2 by (fold len; lia). fold len. rewrite Nat.sub_diag. exact B. }
          split; [exact I|]. intros h (T1 & T2 & _) _. fold len in T1. assert (LT : h_g h < 4 * len + 2) by lia.
          split; [intros _; exact LT|]. split; [intros _; exact LT|]. intros (c & C1 & C2). cbn [h_s h_e] in *. lia. }
      destruct (match prev with None => true | Some _ => false end || nothing) eqn:LA.
      { unfold place_last in H. injection H as H1 H2. apply (LASTCASE (waiting st)); [symmetry; exact H1 | exact PD | symmetry; exact H2]. }
      apply orb_false_iff in LA. destruct LA as (_ & NTH).
      assert (OZ : exists b, has o b).
      { assert (I1 : exists l, In l (on_lines no nd)).
        { unfold on_lines. unfold nothing in NTH. destruct (d_optical nd) as [|a l]; [destruct (d_classical nd) as [|a l]; [discriminate|]|];
          eexists; left; reflexivity. }
        destruct I1 as (l & Il). assert (Ll : l < no + nc).
        { apply Forall_inv in R. destruct R as (RO & RC). rewrite Forall_forall in RO, RC. unfold on_lines in Il. apply in_app_iff in Il. destruct Il as [Il|Il].
          - specialize (RO l Il). lia.
          - apply in_map_iff in Il. destruct Il as (c & <- & Il). specialize (RC c Il). lia. }
        assert (T : touch no nc nd (no + nc - 1 - l)).
        { split; [lia|]. apply in_app_iff. left. replace (no + nc - 1 - (no + nc - 1 - l)) with l by lia. exact Il. }
        exists (no + nc - 1 - l). apply (CV _ _ _ (conj (le_n _) (le_n _)) T T). }
      destruct OZ as (bz & BZ).
      destruct (place_fitting cv o (positions st)) as [pl1 pos1] eqn:PF. inversion H; subst pl1 st'; clear H. cbn [positions].
      destruct (fitting_spec cv (no + nc) o (positions st) pl pos1 P PF) as (p & AC & LP & DJ & FIT).
      exists None. split; [exact PD|].
      assert (KEEP : forall h, tracked (no + nc) h (positions st) -> tracked (no + nc) h pos1 /\ (settled (no + nc) h (positions st) -> settled (no + nc) h pos1)).
      { intros h T. destruct FIT as [(L & -> & _)|(_ & ->)].
        - split; [apply tracked_occupy; assumption | intros X; apply settled_occupy; assumption].
        - split; [apply tracked_app, T | intros X; apply settled_app, X]. }
      split.
      { intros h T _. destruct (KEEP h T) as (K1 & K2). split; [exact K1|]. split; [exact I|]. intros [X|X]; [apply K2, X | discriminate]. }
      right. exists (Entry (4 * p + 2) p p o (d_gate nd)). split; [split; [exact AC | split; [exact CV | reflexivity]]|].
      split.
      { split; cbn [h_e h_s h_g h_o].
        - destruct FIT as [(L & -> & _)|(-> & ->)]; [rewrite occupy_length; exact L | rewrite app_length; cbn; lia].
        - split; [lia|]. left. intros c C b B. cbn [h_s h_e h_o] in *. assert (c = p) as -> by lia.
          destruct FIT as [(L & -> & _)|(-> & ->)].
          + rewrite occupy_nth by exact L. rewrite Nat.eqb_refl. apply lor_bits. right. exact B.
          + rewrite app_nth2 by lia. rewrite Nat.sub_diag. exact B. }
      split; [exact I|]. intros h (T1 & T2 & T3) _.
      assert (SETL : settled (no + nc) h (positions st) -> h_e h < p).
      { intros (c & C & B). destruct (Nat.lt_ge_cases c p) as [L|L]; [lia|]. exfalso.
        specialize (DJ c L ltac:(lia)). rewrite disjoint_bits in DJ. apply (DJ bz); [apply B, OB, BZ | exact BZ]. }
      split; [|split].
      * intros (b & B1 & B2). cbn [h_o h_g] in *. assert (h_e h < p); [|lia]. destruct T3 as [LV|SE]; [|apply SETL, SE].
        destruct (Nat.lt_ge_cases (h_e h) p) as [L|L]; [exact L|]. exfalso. specialize (DJ (h_e h) L T1). rewrite disjoint_bits in DJ.
        apply (DJ b); [|exact B2]. apply (LV (h_e h)); [lia | exact B1].
      * intros SE. specialize (SETL SE). cbn [h_g]. lia.
      * intros (c & C1 & C2). cbn [h_s h_e h_o] in *. right. intros b B1 B2. assert (c = p) as -> by lia.
        destruct T3 as [LV|SE]; [|specialize (SETL SE); lia].
        destruct FIT as [(L & _ & Z)|(-> & _)]; [|lia]. rewrite disjoint_bits in Z. apply (Z b); [|exact B2]. apply (LV p); assumption.
Qed.

(** ** The loop *)

Fixpoint gates_fit (cv : canvas) (prev : option drawn) (nds : list drawn) : Prop :=
  match nds with
  | [] => True
  | nd :: rest => (starts_gate prev nd = true -> gate_length (d_gate nd) nds <= 2 * per_line cv) /\ gates_fit cv (Some nd) rest
  end.

Definition closing (nds : list drawn) : Prop := exists front b, nds = front ++ [b] /\ d_bridge b = true.

Definition bounds (h : entry) : Prop := 4 * h_s h < h_g h < 4 * (h_e h + 1).
Definition clear_of (h h' : entry) : Prop :=
  (exists c, h_s h <= c <= h_e h /\ h_s h' <= c <= h_e h') ->
     (h_gate h = h_gate h' /\ h_gate h <> "single"%string) \/
     forall b, has (h_o h) b -> has (with_boundaries (h_o h')) b -> False.
Definition conflict (h h' : entry) : Prop := exists b, has (h_o h) b /\ has (h_o h') b.

(** The node [nd], placed at [pl] after [h]; [S]: the circuit of [h] has been left. *)
Definition after (cv : canvas) (no nc : nat) (h : entry) (S : Prop) (nd : drawn) (pl : place) : Prop :=
  d_bridge nd = true \/
  exists h', placed_as cv no nc nd pl h' /\ bounds h' /\ (conflict h h' -> h_g h < h_g h') /\ (S -> h_g h < h_g h') /\ clear_of h h'.

Lemma after_weaken cv no nc h (S S' : Prop) nd pl : (S' -> S) -> after cv no nc h S nd pl -> after cv no nc h S' nd pl.
Proof. intros I [H|(h' & A & B & C & D & E)]; [left; exact H | right; exists h'; repeat (split; [assumption|]); split; [auto | exact E]]. Qed.

Definition ordered (cv : canvas) (no nc : nat) (x y : nat * drawn * place) : Prop :=
  let '(k, nd, pl) := x in let '(k', nd', pl') := y in
  d_bridge nd = true \/ d_bridge nd' = true \/
  exists h h', placed_as cv no nc nd pl h /\ placed_as cv no nc nd' pl' h' /\ bounds h /\ bounds h' /\
    (conflict h h' \/ k <> k' -> h_g h < h_g h') /\ clear_of h h'.

Lemma forall2_weaken {A B} (P Q : A -> B -> Prop) l l' : (forall a b, P a b -> Q a b) -> Forall2 P l l' -> Forall2 Q l l'.
Proof. intros I H. induction H; constructor; auto. Qed.

Lemma closing_cons nd rest : closing (nd :: rest) -> (rest = [] /\ d_bridge nd = true) \/ closing rest.
Proof.
  intros (front & b & E & B). destruct front as [|f front]; inversion E; subst; [left; split; [reflexivity | exact B] | right; exists front, b; split; [reflexivity | exact B]].
Qed.

Lemma nodes_spec cv axes no nc k : 0 < per_line cv -> forall nds prev st grp pls pos',
  Forall (in_range no nc) nds -> pending cv no nc grp prev nds st -> gates_fit cv prev nds ->
  place_nodes cv axes no nc prev nds st = Some (pls, pos') ->
  (forall h, tracked (no + nc) h (positions st) -> behind grp prev h ->
     tracked (no + nc) h pos' /\ (settled (no + nc) h (positions st) \/ closing nds -> settled (no + nc) h pos') /\
     Forall2 (after cv no nc h (settled (no + nc) h (positions st))) nds pls) /\
  Forall2 (fun nd pl => d_bridge nd = true \/ exists h, placed_as cv no nc nd pl h /\ tracked (no + nc) h pos' /\
              (closing nds -> settled (no + nc) h pos')) nds pls /\
  ForallOrdPairs (ordered cv no nc) (combine (map (pair k) nds) pls).
Proof.
  intros P. induction nds as [|nd rest IH]; intros prev st grp pls pos' R PD GF H; cbn [place_nodes] in H.
  - inversion H; subst. split; [|split; constructor]. intros h T B. split; [exact T|]. split; [|constructor].
    intros [X|(f & b & X & _)]; [exact X | destruct f; discriminate].
  - destruct (place_node cv no nc prev nd (nd :: rest) st) as [[pl st']|] eqn:PN; [|discriminate].
    destruct (can_draw axes no nc nd pl); [|discriminate].
    destruct (place_nodes cv axes no nc (Some nd) rest st') as [[pls1 pos1]|] eqn:PS; [|discriminate]. inversion H; subst; clear H.
    destruct GF as (GF1 & GF2).
    destruct (step cv no nc grp prev nd rest st pl st' P R PD GF1 PN) as (grp' & PD' & KEEP & NEW).
    apply Forall_cons_iff in R as R'. destruct R' as (_ & R').
    destruct (IH (Some nd) st' grp' pls1 pos' R' PD' GF2 PS) as (A & B & C).
    split; [|split].
    + intros h T Bh. destruct (KEEP h T Bh) as (K1 & K2 & K3). destruct (A h K1 K2) as (A1 & A2 & A3). split; [exact A1|]. split.
      * intros [X|X]; [apply A2; left; apply K3; left; exact X|]. apply closing_cons in X. destruct X as [(_ & X)|X].
        -- apply A2. left. apply K3. right. exact X.
        -- apply A2. right. exact X.
      * constructor.
        -- destruct NEW as [NEW|(h' & N1 & N2 & N3 & N4)]; [left; exact NEW | right]. exists h'. destruct (N4 h T Bh) as (Q1 & Q2 & Q3).
           split; [exact N1|]. split; [apply N2|]. split; [exact Q1|]. split; [exact Q2 | exact Q3].
        -- eapply forall2_weaken; [|exact A3]. intros a b. apply after_weaken. intros X. apply K3. left. exact X.
    + constructor.
      * destruct NEW as [NEW|(h' & N1 & N2 & N3 & N4)]; [left; exact NEW | right]. exists h'. destruct (A h' N2 N3) as (A1 & A2 & _).
        split; [exact N1|]. split; [exact A1|]. intros X. apply closing_cons in X. destruct X as [(-> & X)|X]; [|apply A2; right; exact X].
        cbn in PS. inversion PS; subst. clear -X PN N2. unfold place_node in PN. rewrite X in PN.
        destruct (all_bits no nc) as [o|] eqn:EO; [|discriminate]. unfold place_last in PN. inversion PN; subst. cbn [positions] in *.
        destruct N2 as (T1 & _ & _). rewrite bridge_length in T1. apply settled_bridge; [exact T1 | intros b; apply (all_bits_has _ _ _ EO)].
      * destruct rest as [|r rest']; [inversion B; constructor|].
        eapply forall2_weaken; [|exact B]. intros a b [X|(h & X1 & X2 & X3)]; [left; exact X | right; exists h; split; [exact X1|]; split; [exact X2|]].
        intros X. apply closing_cons in X. destruct X as [(X & _)|X]; [discriminate | apply X3, X].
    + cbn [map combine]. constructor; [|exact C].
      destruct NEW as [NEW|(h' & N1 & N2 & N3 & N4)].
      * apply Forall_forall. intros [[k' nd'] pl'] _. left. exact NEW.
      * destruct (A h' N2 N3) as (_ & _ & A3). clear -A3 N1 N2.
        assert (G : forall l l', Forall2 (after cv no nc h' (settled (no + nc) h' (positions st'))) l l' ->
                  Forall (ordered cv no nc (k, nd, pl)) (combine (map (pair k) l) l')).
        { intros l l' F. induction F as [|a b l l' X F IHF]; cbn [map combine]; constructor; [|exact IHF].
          destruct X as [X|(h2 & X1 & X2 & X3 & X4 & X5)]; [right; left; exact X | right; right].
          exists h', h2. split; [exact N1|]. split; [exact X1|]. split; [apply N2|]. split; [exact X2|]. split; [|exact X5].
          intros [Y|Y]; [apply X3, Y | congruence]. }
        apply G. exact A3.
Qed.

Lemma fop_app {A} (R : A -> A -> Prop) l l' : ForallOrdPairs R l -> ForallOrdPairs R l' -> (forall x y, In x l -> In y l' -> R x y) ->
  ForallOrdPairs R (l ++ l').
Proof.
  intros H H' X. induction H as [|a l F H IH]; cbn [app]; [exact H'|]. constructor.
  - apply Forall_app. split; [exact F|]. apply Forall_forall. intros y Y. apply X; [left; reflexivity | exact Y].
  - apply IH. intros x y I J. apply X; [right; exact I | exact J].
Qed.

Lemma fop_nth {A} (R : A -> A -> Prop) l : ForallOrdPairs R l -> forall i j x y, i < j -> nth_error l i = Some x -> nth_error l j = Some y -> R x y.
Proof.
  intros H. induction H as [|a l F H IH]; intros i j x y L X Y; [destruct i; discriminate|].
  destruct j as [|j]; [lia|]. destruct i as [|i]; cbn in X, Y.
  - inversion X; subst. rewrite Forall_forall in F. apply F. eapply nth_error_In; exact Y.
  - apply (IH i j); auto. lia.
Qed.

Lemma combine_app_eq {A B} (l1 l2 : list A) (m1 m2 : list B) : List.length l1 = List.length m1 ->
  combine (l1 ++ l2) (m1 ++ m2) = combine l1 m1 ++ combine l2 m2.
Proof. revert m1. induction l1 as [|a l1 IH]; intros [|b m1] H; cbn in *; try discriminate; [reflexivity|]. f_equal. apply IH. lia. Qed.

Lemma forall2_len {A B} (R : A -> B -> Prop) l l' : Forall2 R l l' -> List.length l = List.length l'.
Proof. intros H. induction H; cbn; auto. Qed.

Lemma forall2_in {A B} (R : A -> B -> Prop) l l' : Forall2 R l l' -> forall a b, In (a, b) (combine l l') -> R a b.
Proof. intros H. induction H; cbn; intros a b I; [contradiction|]. destruct I as [E|I]; [inversion E; subst; assumption | auto]. Qed.

Lemma combine_tag {A B} (k : nat) (l : list A) (m : list B) x : In x (combine (map (pair k) l) m) ->
  exists a b, x = (k, a, b) /\ In (a, b) (combine l m).
Proof.
  revert m. induction l as [|a l IH]; intros [|b m] I; cbn in I; try contradiction. destruct I as [<-|I].
  - exists a, b. split; [reflexivity | left; reflexivity].
  - destruct (IH m I) as (a' & b' & -> & I'). exists a', b'. split; [reflexivity | right; exact I'].
Qed.

Lemma numbered_after cv no nc h S ch : forall k pls, Forall2 (after cv no nc h S) (flat_map sh_nodes ch) pls ->
  forall k' nd pl, In (k', nd, pl) (combine (numbered k ch) pls) -> k <= k' /\ after cv no nc h S nd pl.
Proof.
  induction ch as [|c ch IH]; intros k pls F k' nd pl I; cbn [numbered flat_map] in *; [contradiction|].
  apply Forall2_app_inv_l in F. destruct F as (p1 & p2 & F1 & F2 & ->).
  rewrite combine_app_eq in I by (rewrite map_length; apply (forall2_len _ _ _ F1)). apply in_app_iff in I. destruct I as [I|I].
  - apply combine_tag in I. destruct I as (a & b & E & I). inversion E; subst. split; [lia|]. apply (forall2_in _ _ _ F1), I.
  - destruct (IH _ _ F2 _ _ _ I). split; [lia | assumption].
Qed.

(** ** The chain *)

Lemma chain_spec cv axes no nc : 0 < per_line cv -> forall ch k pos pls pos',
  Forall (fun c => Forall (in_range no nc) (sh_nodes c) /\ gates_fit cv None (sh_nodes c)) ch ->
  (forall c d rest front, ch = front ++ c :: d :: rest -> closing (sh_nodes c)) ->
  place_chain cv axes no nc ch pos = Some (pls, pos') ->
  (forall h, tracked (no + nc) h pos -> Forall2 (after cv no nc h (settled (no + nc) h pos)) (flat_map sh_nodes ch) pls) /\
  ForallOrdPairs (ordered cv no nc) (combine (numbered k ch) pls).
Proof.
  intros P. induction ch as [|c ch IH]; intros k pos pls pos' R CL H; cbn [place_chain] in H.
  - inversion H; subst. split; [intros; constructor | constructor].
  - destruct (sh_nodes c) as [|n0 nds0] eqn:EN; [discriminate|].
    destruct (place_nodes cv axes no nc None (n0 :: nds0) (Progress pos None)) as [[pls1 pos1]|] eqn:PN; [|discriminate].
    rewrite <- EN in PN. clear EN n0 nds0.
    destruct (place_chain cv axes no nc ch pos1) as [[pls2 pos2]|] eqn:PC; [|discriminate]. inversion H; subst; clear H.
    apply Forall_cons_iff in R. destruct R as ((R1 & R2) & R).
    destruct (nodes_spec cv axes no nc k P (sh_nodes c) None (Progress pos None) None pls1 pos1 R1 (or_introl eq_refl) R2 PN) as (A & B & C).
    cbn [positions] in A.
    assert (CL' : forall c d rest front, ch = front ++ c :: d :: rest -> closing (sh_nodes c)).
    { intros c' d rest front E. apply (CL c' d rest (c :: front)). rewrite E. reflexivity. }
    destruct (IH (S k) pos1 pls2 pos' R CL' PC) as (A' & C').
    split.
    + intros h T. destruct (A h T I) as (A1 & A2 & A3). cbn [flat_map]. apply Forall2_app; [exact A3|].
      eapply forall2_weaken; [|apply (A' h A1)]. intros a b. apply after_weaken. intros X. apply A2. left. exact X.
    + cbn [numbered]. rewrite combine_app_eq by (rewrite map_length; apply (forall2_len _ _ _ B)). apply fop_app; [exact C | exact C' |].
      intros x [[k' nd'] pl'] X Y. apply combine_tag in X. destruct X as (nd & pl & -> & X). apply (forall2_in _ _ _ B) in X.
      destruct X as [X|(h & X1 & X2 & X3)]; [left; exact X|].
      destruct (numbered_after _ _ _ _ _ _ _ _ (A' h X2) _ _ _ Y) as (K & [Z|(h' & Z1 & Z2 & Z3 & Z4 & Z5)]); [right; left; exact Z|].
      right. right. exists h, h'. split; [exact X1|]. split; [exact Z1|]. split; [apply X2|]. split; [exact Z2|]. split; [|exact Z5].
      intros _. apply Z4, X3. destruct ch as [|d ch']; [contradiction|]. apply (CL c d ch' []). reflexivity.
Qed.
