(** C60: the figures of the stations. *)
From Coq Require Import List String Arith NArith Bool Lia Sorted.
From Verif Require Import DrawModel DrawSpec StationModel StationSpec DrawProofs LayoutProofs PropDraw PropDrawn PropStation.
Import ListNotations.

(** ** The text at a link *)

Lemma insert_in n l x : In x (insert_name n l) <-> x = n \/ In x l.
Proof.
  induction l as [|m l IH]; cbn [insert_name]; [cbn; intuition|]. destruct (String.eqb n m) eqn:E; [apply String.eqb_eq in E; subst; cbn; intuition|].
  destruct (String.ltb n m); cbn [In]; [intuition|]. rewrite IH. intuition.
Qed.

Lemma sorted_set_in l x : In x (sorted_set l) <-> In x l.
Proof. induction l as [|n l IH]; cbn [sorted_set fold_right]; [reflexivity|]. fold (sorted_set l). rewrite insert_in, IH. cbn. intuition. Qed.

Definition alphabetical : list string -> Prop := Sorted (fun a b => String.ltb a b = true).

Lemma ltb_other a b : String.eqb a b = false -> String.ltb a b = false -> String.ltb b a = true.
Proof.
  intros E L. unfold String.ltb in *. rewrite (String.compare_antisym b a). destruct (String.compare a b) eqn:C; cbn in *; try reflexivity; try discriminate.
  apply String.compare_eq_iff in C. subst. rewrite String.eqb_refl in E. discriminate.
Qed.

Lemma insert_sorted n l : alphabetical l -> alphabetical (insert_name n l).
Proof.
  unfold alphabetical. induction l as [|m l IH]; intros H; cbn [insert_name]; [repeat constructor|].
  destruct (String.eqb n m) eqn:E; [exact H|]. destruct (String.ltb n m) eqn:L; [constructor; [exact H | constructor; exact L]|].
  apply Sorted_inv in H. destruct H as (H & HD). constructor; [apply IH, H|]. pose proof (ltb_other _ _ E L) as NM.
  destruct l as [|x l]; cbn [insert_name]; [constructor; exact NM|]. destruct (String.eqb n x) eqn:EX; [apply String.eqb_eq in EX; subst; exact (HdRel_cons _ _ _ _ NM)|].
  destruct (String.ltb n x); constructor; [exact NM|]. inversion HD; assumption.
Qed.

Lemma sorted_set_sorted l : alphabetical (sorted_set l).
Proof. induction l as [|n l IH]; cbn [sorted_set fold_right]; [constructor | apply insert_sorted, IH]. Qed.

(** The text at a link names exactly the stations the links of the node lead to, each once, in alphabetical order;
    there is no text if there is no link. *)
Theorem C60_link_text sts me mine i nd lo : local_node sts me mine i nd = Some lo ->
  match lo_label lo with
  | Some t => exists names, t = String.append "To station(s):
" (String.concat "," names) /\ alphabetical names /\ names <> [] /\ forall n, In n names <-> leads_to lo n
  | None => forall n, ~ leads_to lo n
  end.
Proof.
  intros H.
  assert (G : forall k, match link_label k with
    | Some t => exists names, t = String.append "To station(s):
" (String.concat "," names) /\ alphabetical names /\ names <> [] /\ forall n, In n names <-> (In n (to_classical (merge_links k)) \/ In n (to_optical (merge_links k)) \/ In n (to_both (merge_links k)))
    | None => forall n, ~ (In n (to_classical (merge_links k)) \/ In n (to_optical (merge_links k)) \/ In n (to_both (merge_links k))) end).
  { assert (NE : forall l, some_of l = true -> sorted_set l <> []).
    { intros l S E. apply some_of_in in S. destruct S as (x & I). apply sorted_set_in in I. rewrite E in I. exact I. }
    intros k. unfold link_label. destruct (merge_needed k) eqn:M.
    - exists (sorted_set (to_both (merge_links k))). split; [reflexivity|]. split; [apply sorted_set_sorted|].
      assert (X : forall n, In n (to_both (merge_links k)) <-> In n (to_classical k) \/ In n (to_optical k) \/ In n (to_both k)).
      { intros n. unfold merge_links. rewrite M. cbn. rewrite !in_app_iff. tauto. }
      split.
      + apply NE. apply some_of_in. unfold merge_needed in M. apply orb_true_iff in M. destruct M as [M|M].
        * apply some_of_in in M. destruct M as (x & I). exists x. apply X. tauto.
        * apply andb_true_iff in M. destruct M as (M & _). apply some_of_in in M. destruct M as (x & I). exists x. apply X. tauto.
      + intros n. rewrite merged_in, sorted_set_in, X. reflexivity.
    - assert (MB : some_of (to_both k) = false /\ some_of (to_optical k) && some_of (to_classical k) = false) by (apply orb_false_iff, M). destruct MB as (B & OC).
      assert (NIL : forall l, some_of l = false -> l = []) by (intros [|x l] E; [reflexivity | discriminate]).
      apply NIL in B. destruct (some_of (to_optical k)) eqn:O.
      + cbn [andb] in OC. apply NIL in OC. exists (sorted_set (to_optical k)). split; [reflexivity|]. split; [apply sorted_set_sorted|]. split; [apply NE, O|].
        intros n. rewrite merged_in, sorted_set_in, B, OC. cbn. tauto.
      + apply NIL in O. destruct (some_of (to_classical k)) eqn:C.
        * exists (sorted_set (to_classical k)). split; [reflexivity|]. split; [apply sorted_set_sorted|]. split; [apply NE, C|].
          intros n. rewrite merged_in, sorted_set_in, B, O. cbn. tauto.
        * apply NIL in C. intros n. rewrite merged_in, B, O, C. cbn. tauto. }
  unfold local_node in H. destruct (p_kind nd).
  - inversion H; subst. cbn [lo_label]. intros n. unfold leads_to. cbn. tauto.
  - destruct (local_channels (fst mine) (p_optical nd)); destruct (local_channels (snd mine) (p_classical nd)); try discriminate; inversion H; subst; cbn [lo_label]; apply G.
  - destruct (local_channels (fst mine) (p_optical nd)); destruct (local_channels (snd mine) (p_classical nd)); try discriminate; inversion H; subst; cbn [lo_label]; apply G.
Qed.
Print Assumptions C60_link_text.

(** ** The labels of the lines *)

Lemma set_label_spec : forall ls i t ls', set_label ls i t = Some ls' ->
  i < List.length ls /\ List.length ls' = List.length ls /\ forall j, nth_error ls' j = if j =? i then Some t else nth_error ls j.
Proof.
  induction ls as [|l ls IH]; intros [|i] t ls' H; cbn [set_label] in H; try discriminate.
  - inversion H; subst. cbn. split; [lia|]. split; [reflexivity|]. intros [|j]; reflexivity.
  - destruct (set_label ls i t) as [r|] eqn:E; [|discriminate]. inversion H; subst. destruct (IH _ _ _ E) as (A & B & C). cbn. split; [lia|]. split; [lia|].
    intros [|j]; cbn; [reflexivity | apply C].
Qed.

Lemma set_label_some ls i t : i < List.length ls -> exists ls', set_label ls i t = Some ls'.
Proof.
  revert i. induction ls as [|l ls IH]; intros i L; cbn in L; [lia|]. destruct i as [|i]; cbn [set_label]; [eexists; reflexivity|].
  destruct (IH i ltac:(lia)) as (r & ->). eexists; reflexivity.
Qed.

Lemma name_channels_spec st kind : forall chs k ls ls', name_channels st kind k chs ls = Some ls' -> NoDup chs ->
  List.length ls' = List.length ls /\ Forall (fun c => c < List.length ls) chs /\
  (forall j c, nth_error chs j = Some c -> nth_error ls' c = Some (String.append st (String.append kind (number (k + j))))) /\
  (forall c, ~ In c chs -> nth_error ls' c = nth_error ls c).
Proof.
  induction chs as [|c0 chs IH]; intros k ls ls' H ND; cbn [name_channels] in H.
  - inversion H; subst. split; [reflexivity|]. split; [constructor|]. split; [intros [|j] c E; discriminate | reflexivity].
  - destruct (set_label ls c0 _) as [ls1|] eqn:E; [|discriminate]. apply NoDup_cons_iff in ND. destruct ND as (NI & ND).
    destruct (set_label_spec _ _ _ _ E) as (A & B & C). destruct (IH _ _ _ H ND) as (L & F & J & K).
    split; [lia|]. split; [constructor; [exact A | rewrite B in F; exact F]|]. split.
    + intros [|j] c EJ; cbn [nth_error] in EJ.
      * inversion EJ; subst. rewrite (K c NI), C, Nat.eqb_refl, Nat.add_0_r. reflexivity.
      * rewrite (J j c EJ). replace (k + S j) with (S k + j) by lia. reflexivity.
    + intros c NC. rewrite (K c) by (intros X; apply NC; right; exact X). rewrite C. destruct (c =? c0) eqn:Q; [|reflexivity].
      apply Nat.eqb_eq in Q. exfalso. apply NC. left. congruence.
Qed.

Lemma name_channels_some st kind : forall chs k ls, Forall (fun c => c < List.length ls) chs -> exists ls', name_channels st kind k chs ls = Some ls' /\ List.length ls' = List.length ls.
Proof.
  induction chs as [|c chs IH]; intros k ls F; cbn [name_channels]; [eexists; split; reflexivity|]. apply Forall_cons_iff in F. destruct F as (L & F).
  destruct (set_label_some ls c (String.append st (String.append kind (number k))) L) as (ls1 & E). rewrite E. destruct (set_label_spec _ _ _ _ E) as (_ & B & _).
  destruct (IH (S k) ls1 ltac:(rewrite B; exact F)) as (ls' & X & Y). exists ls'. split; [exact X | congruence].
Qed.

Lemma name_all_spec pick kind : forall sts ls ls', name_all pick kind sts ls = Some ls' -> separate pick sts ->
  List.length ls' = List.length ls /\
  (forall name ch j c, In (name, ch) sts -> nth_error (pick ch) j = Some c -> c < List.length ls /\ nth_error ls' c = Some (String.append name (String.append kind (number j)))) /\
  (forall c, ~ In c (flat_map (fun s => pick (snd s)) sts) -> nth_error ls' c = nth_error ls c).
Proof.
  unfold separate. induction sts as [|(n0 & ch0) sts IH]; intros ls ls' H ND; cbn [name_all fst snd flat_map] in *.
  - inversion H; subst. split; [reflexivity|]. split; [contradiction | reflexivity].
  - destruct (name_channels n0 kind 0 (pick ch0) ls) as [ls1|] eqn:E; [|discriminate].
    assert (N1 : NoDup (pick ch0) /\ NoDup (flat_map (fun s => pick (snd s)) sts) /\ forall c, In c (pick ch0) -> ~ In c (flat_map (fun s => pick (snd s)) sts)).
    { clear - ND. induction (pick ch0) as [|x l IH]; cbn [app] in ND; [split; [constructor|]; split; [exact ND | contradiction]|].
      apply NoDup_cons_iff in ND. destruct ND as (NI & ND). destruct (IH ND) as (A & B & C). rewrite in_app_iff in NI. split; [constructor; tauto|]. split; [exact B|].
      intros c [<-|I]; [tauto | apply C, I]. }
    destruct N1 as (N1 & N2 & N3). destruct (name_channels_spec _ _ _ _ _ _ E N1) as (L & F & J & K). destruct (IH _ _ H N2) as (L' & J' & K').
    split; [lia|]. split.
    + intros name ch j c [X|X] EJ.
      * inversion X; subst. rewrite (K' c) by (apply N3, (nth_error_In _ j EJ)). rewrite Forall_forall in F. split; [apply F, (nth_error_In _ j EJ)|]. apply (J j c EJ).
      * destruct (J' name ch j c X EJ) as (A & B). split; [lia | exact B].
    + intros c NC. rewrite in_app_iff in NC. rewrite K' by tauto. apply K. tauto.
Qed.

Lemma name_all_some pick kind : forall sts ls, (forall name ch, In (name, ch) sts -> Forall (fun c => c < List.length ls) (pick ch)) ->
  exists ls', name_all pick kind sts ls = Some ls' /\ List.length ls' = List.length ls.
Proof.
  induction sts as [|(n0 & ch0) sts IH]; intros ls F; cbn [name_all fst snd]; [eexists; split; reflexivity|].
  destruct (name_channels_some n0 kind (pick ch0) 0 ls (F n0 ch0 (or_introl eq_refl))) as (ls1 & E & L). rewrite E.
  destruct (IH ls1) as (ls' & X & Y); [intros name ch I; rewrite L; apply (F name ch); right; exact I|]. exists ls'. split; [exact X | congruence].
Qed.

(** The line of the [j]-th channel of a station is labelled with the name of the station and [j], in the figure of the
    station and in that of the total circuit (where the other lines keep their labels). *)
Theorem C60_labels cs sts total per name ch : named_apart sts -> separate fst sts -> separate snd sts ->
  station_settings cs sts = Some (total, per) -> In (name, ch) sts ->
  exists lab, In (name, lab) per /\ List.length (optical_labels lab) = List.length (fst ch) /\ List.length (classical_labels lab) = List.length (snd ch) /\
  (forall j c, nth_error (fst ch) j = Some c ->
     nth_error (optical_labels lab) j = Some (String.append name (String.append ", Opt." (number j))) /\
     nth_error (optical_labels total) c = Some (String.append name (String.append ", Opt." (number j)))) /\
  (forall j c, nth_error (snd ch) j = Some c ->
     nth_error (classical_labels lab) j = Some (String.append name (String.append ", Clas." (number j))) /\
     nth_error (classical_labels total) c = Some (String.append name (String.append ", Clas." (number j)))).
Proof.
  intros ND SO SC H I. unfold station_settings in H. destruct (existsb _ sts); [discriminate|]. destruct (chain (map total_sheet cs)) as [cs'|]; [|discriminate].
  destruct (name_all fst _ sts _) as [lo|] eqn:EO; [|discriminate]. destruct (name_all snd _ sts _) as [lc|] eqn:EC; [|discriminate]. inversion H; subst; clear H.
  destruct (name_all_spec _ _ _ _ _ EO SO) as (LO & JO & _). destruct (name_all_spec _ _ _ _ _ EC SC) as (LC & JC & _).
  eexists. split; [apply in_map_iff; exists (name, ch); split; [reflexivity | exact I]|]. cbn [fst snd optical_labels classical_labels]. rewrite !map_length.
  split; [reflexivity|]. split; [reflexivity|]. split; intros j c E.
  - destruct (JO name ch j c I E) as (L & X). split; [|exact X]. rewrite nth_error_map, E. cbn [option_map]. f_equal. apply nth_error_nth with (d := EmptyString) in X. exact X.
  - destruct (JC name ch j c I E) as (L & X). split; [|exact X]. rewrite nth_error_map, E. cbn [option_map]. f_equal. apply nth_error_nth with (d := EmptyString) in X. exact X.
Qed.
Print Assumptions C60_labels.

(** ** Drawing the stations *)

Lemma count_all l n : NoDup l -> Forall (fun c => c < n) l -> count_channels l n = List.length l.
Proof.
  intros ND F. unfold count_channels. replace (filter (fun c => c <? n) l) with l.
  - rewrite nodup_fixed_point; [reflexivity | exact ND].
  - clear ND. induction F as [|c l L F IH]; cbn [filter]; [reflexivity|]. apply Nat.ltb_lt in L. rewrite L, <- IH. reflexivity.
Qed.

Lemma count_le l n : NoDup l -> count_channels l n <= List.length l.
Proof.
  intros ND. unfold count_channels. etransitivity; [apply NoDup_incl_length; [apply NoDup_nodup|]; intros x X; apply nodup_In in X; exact X|].
  clear. induction l as [|c l IH]; cbn [filter List.length]; [lia|]. destruct (c <? n); cbn [List.length]; lia.
Qed.

Lemma list_max_in l : l <> [] -> In (list_max l) l.
Proof.
  induction l as [|x l IH]; intros NE; [congruence|]. destruct l as [|y l]; [left; cbn; lia|]. change (list_max (x :: y :: l)) with (Nat.max x (list_max (y :: l))).
  destruct (Nat.max_spec x (list_max (y :: l))) as [(_ & ->)|(_ & ->)]; [right; apply IH; discriminate | left; reflexivity].
Qed.

Lemma station_lines (f : plan -> nat) (station : list nat) cs : cs <> [] -> NoDup station -> Forall (fun c => c < list_max (map f cs)) station ->
  list_max (map (fun c => count_channels station (f c)) cs) = List.length station.
Proof.
  intros NE ND F. apply Nat.le_antisymm.
  - apply list_max_le. apply Forall_forall. intros n I. apply in_map_iff in I. destruct I as (c & <- & _). apply count_le, ND.
  - assert (NE' : map f cs <> []) by (destruct cs; [congruence | discriminate]). pose proof (list_max_in _ NE') as M. apply in_map_iff in M. destruct M as (c & E & I).
    pose proof (proj1 (list_max_le (map (fun c => count_channels station (f c)) cs) _) (le_n _)) as G. rewrite Forall_forall in G.
    etransitivity; [|apply G, (in_map (fun c => count_channels station (f c))), I]. rewrite count_all; [lia | exact ND | rewrite E; exact F].
Qed.

Lemma local_nodes_app sts me mine : forall l r i, local_nodes sts me mine i (l ++ r) = local_nodes sts me mine i l ++ local_nodes sts me mine (i + List.length l) r.
Proof.
  induction l as [|nd l IH]; intros r i; cbn [local_nodes app List.length]; [rewrite Nat.add_0_r; reflexivity|].
  rewrite IH. replace (S i + List.length l) with (i + S (List.length l)) by lia. destruct (local_node sts me mine i nd); reflexivity.
Qed.

Lemma total_closed c : closed_by_bridge (total_sheet c) <-> exists front nd, pl_nodes c = front ++ [nd] /\ p_kind nd = Bridge.
Proof.
  unfold closed_by_bridge, total_sheet. cbn [sh_nodes]. split.
  - intros (nds & b & E & B). destruct (pl_nodes c) as [|x l] eqn:EN; [destruct nds; discriminate|]. rewrite <- EN in *.
    destruct (exists_last (l := pl_nodes c) ltac:(rewrite EN; discriminate)) as (front & nd & E'). exists front, nd. split; [exact E'|].
    rewrite E', map_app in E. cbn [map] in E. apply app_inj_tail in E. destruct E as (_ & <-). cbn in B. destruct (p_kind nd); congruence.
  - intros (front & nd & E & B). rewrite E, map_app. cbn [map]. eexists _, _. split; [reflexivity|]. cbn. rewrite B. reflexivity.
Qed.

Lemma station_closed sts me mine c : bridges_at_end c -> closed_by_bridge (station_sheet sts me mine c) <-> closed_by_bridge (total_sheet c).
Proof.
  intros BE. rewrite total_closed. unfold closed_by_bridge, station_sheet. cbn [sh_nodes]. split.
  - intros (nds & b & E & B). set (los := local_nodes sts me mine 0 (pl_nodes c)) in *.
    destruct los as [|x l] eqn:EL; [destruct nds; discriminate|]. destruct (exists_last (l := x :: l) ltac:(discriminate)) as (front & lo & EX). rewrite EX in *.
    rewrite map_app in E. cbn [map] in E. apply app_inj_tail in E. destruct E as (_ & <-).
    assert (N : nth_error (local_nodes sts me mine 0 (pl_nodes c)) (List.length front) = Some lo) by (fold los; rewrite EL, nth_error_app2, Nat.sub_diag by lia; reflexivity).
    destruct (local_nodes_at _ _ _ _ _ _ _ N) as (k & nd & A & C & _). destruct (local_node_some _ _ _ _ _ _ C) as ((R & _) & _).
    assert (KB : p_kind nd = Bridge) by (cbn in B; rewrite R in B; destruct (p_kind nd); congruence).
    apply nth_error_split in A. destruct A as (l1 & l2 & A & _). destruct (BE l1 nd l2 A KB) as (-> & _). exists l1, nd. split; [exact A | exact KB].
  - intros (front & nd & E & B). rewrite E, local_nodes_app, map_app. cbn [local_nodes].
    assert (X : local_node sts me mine (0 + List.length front) nd = Some (Local Bridge (local_channels (fst mine) (p_optical nd)) (local_channels (snd mine) (p_classical nd)) (p_gate nd) (Links [] [] []) None None)) by (unfold local_node; rewrite B; reflexivity).
    rewrite X. cbn [map]. eexists _, _. split; reflexivity.
Qed.

Lemma station_connected cs sts me mine : Forall bridges_at_end cs -> connected (map total_sheet cs) -> connected (map (station_sheet sts me mine) cs).
Proof.
  intros BE (front & final & E & F & N).
  assert (X : exists fr fi, cs = fr ++ [fi] /\ map total_sheet fr = front /\ total_sheet fi = final).
  { destruct cs as [|x l] eqn:EC; [destruct front; discriminate|]. rewrite <- EC in *. destruct (exists_last (l := cs) ltac:(rewrite EC; discriminate)) as (fr & fi & EX).
    exists fr, fi. split; [exact EX|]. rewrite EX, map_app in E. cbn [map] in E. apply app_inj_tail in E. tauto. }
  destruct X as (fr & fi & -> & <- & <-). apply Forall_app in BE. destruct BE as (BE & BF). apply Forall_cons_iff in BF. destruct BF as (BF & _).
  exists (map (station_sheet sts me mine) fr), (station_sheet sts me mine fi). split; [rewrite map_app; reflexivity|]. split.
  - rewrite Forall_forall in *. intros s I. apply in_map_iff in I. destruct I as (c & <- & I). apply (station_closed sts me mine c (BE c I)). apply F. apply in_map, I.
  - intros C. apply N. apply (station_closed sts me mine fi BF), C.
Qed.

(** The figure of a station can be drawn if every circuit has a node at the station (and there are no too long runs of
    nodes to be drawn together). *)
Theorem C60_draws cv cs sts me mine : 2 <= per_line cv -> stationed cs sts -> channels_of sts me = Some mine -> NoDup (fst mine) -> NoDup (snd mine) ->
  (forall c, In c cs -> exists nd, In nd (pl_nodes c) /\ (p_kind nd = Bridge \/ acts_at mine nd)) ->
  gates_at_most (2 * per_line cv) (map (station_sheet sts me mine) cs) ->
  exists lab nodes, draw_station cv cs sts (OneStation me) = Some [Figure me lab nodes] /\ draw cv (map (station_sheet sts me mine) cs) = Some nodes.
Proof.
  intros P (CN & BE & NA & NT & RG) CH NO NC HAS GA.
  destruct (find_unique sts me mine NA CH) as (IN & _). destruct (RG me mine IN) as (RO & RC).
  assert (NE : cs <> []) by (destruct CN as (front & final & E & _); destruct cs; [destruct front; discriminate | discriminate]).
  assert (MT : forall (f : sheet -> nat) (g : plan -> nat), (forall c, f (total_sheet c) = g c) -> list_max (map f (map total_sheet cs)) = list_max (map g cs)).
  { intros f g E. rewrite map_map. f_equal. apply map_ext, E. }
  assert (OL : optical_lines (map (station_sheet sts me mine) cs) = List.length (fst mine)).
  { unfold optical_lines. rewrite map_map. cbn [station_sheet sh_optical]. apply (station_lines pl_optical); auto.
    unfold optical_lines in RO. rewrite (MT _ pl_optical) in RO by reflexivity. exact RO. }
  assert (CL : classical_lines (map (station_sheet sts me mine) cs) = List.length (snd mine)).
  { unfold classical_lines. rewrite map_map. cbn [station_sheet sh_classical]. apply (station_lines pl_classical); auto.
    unfold classical_lines in RC. rewrite (MT _ pl_classical) in RC by reflexivity. exact RC. }
  assert (DR : exists l, draw cv (map (station_sheet sts me mine) cs) = Some l).
  { apply C59_draws. split; [exact P|]. rewrite OL, CL. split; [|split; [apply station_connected; auto|split; [exact GA|]]].
    - destruct CN as (front & final & E & _ & N).
      assert (X : exists c, In c cs /\ total_sheet c = final).
      { assert (In final (map total_sheet cs)) by (rewrite E; apply in_or_app; right; left; reflexivity). apply in_map_iff in H. destruct H as (c & A & B). exists c; auto. }
      destruct X as (c & I & <-). destruct (HAS c I) as (nd & J & K).
      assert (NB : p_kind nd <> Bridge).
      { intros B. apply N. apply total_closed. apply in_split in J. destruct J as (l1 & l2 & J). rewrite Forall_forall in BE. destruct (BE c I l1 nd l2 J B) as (-> & _). exists l1, nd. auto. }
      destruct K as [K|[(x & K & _)|(x & K & _)]]; [congruence| |]; [destruct (fst mine); [contradiction|] | destruct (snd mine); [contradiction|]]; cbn [List.length]; lia.
    - apply Forall_forall. intros s I. apply in_map_iff in I. destruct I as (c & <- & I). split.
      + unfold station_sheet. cbn [sh_nodes]. destruct (HAS c I) as (nd & J & K). apply In_nth_error in J. destruct J as (k & J).
        destruct (C60_nodes sts me mine (pl_nodes c)) as (places & _ & F & KK). apply (KK k nd J) in K. clear - F K.
        destruct F; [contradiction | discriminate].
      + apply Forall_forall. intros d J. unfold station_sheet in J. cbn [sh_nodes] in J. apply in_map_iff in J. destruct J as (lo & <- & J).
        apply In_nth_error in J. destruct J as (n & J). destruct (local_nodes_at _ _ _ _ _ _ _ J) as (k & nd & A & B & _).
        destruct (local_node_some _ _ _ _ _ _ B) as ((R1 & R2 & (_ & R3) & (_ & R4)) & KP). unfold drawn_local. cbn [d_optical d_classical d_gate d_bridge].
        split; [apply Forall_forall; intros j X; apply R3 in X; destruct X as (x & X & _); apply nth_error_Some; congruence|].
        split; [apply Forall_forall; intros j X; apply R4 in X; destruct X as (x & X & _); apply nth_error_Some; congruence|].
        intros NS. rewrite R1. rewrite R2 in NS.
        assert (NB : p_kind nd <> Bridge).
        { intros BB. rewrite Forall_forall in BE. apply nth_error_split in A. destruct A as (l1 & l2 & A & _). destruct (BE c I l1 nd l2 A BB) as (_ & X). congruence. }
        split; [destruct (p_kind nd); congruence|]. destruct KP as [KP|[(x & K1 & K2)|(x & K1 & K2)]]; [congruence| |]; [left | right]; intros X;
          apply In_nth_error in K1; destruct K1 as (j & K1); [assert (Y : In j (lo_optical lo)) by (apply R3; exists x; auto) | assert (Y : In j (lo_classical lo)) by (apply R4; exists x; auto)];
          rewrite X in Y; exact Y. }
  destruct DR as (l & DR).
  assert (ST : exists total per, station_settings cs sts = Some (total, per) /\ map fst per = map fst sts).
  { unfold station_settings.
    assert (EX : existsb (fun s => String.eqb (fst s) "total_circuit") sts = false).
    { destruct (existsb _ sts) eqn:E; [|reflexivity]. exfalso. apply existsb_exists in E. destruct E as ((n & c) & I & E). apply String.eqb_eq in E. cbn in E. subst.
      apply NT. apply (in_map fst) in I. exact I. }
    rewrite EX, (connected_chain _ CN), optical_lines_eq, classical_lines_eq.
    assert (LD : forall kind n, List.length (default_labels kind n) = n) by (intros; unfold default_labels; rewrite map_length, seq_length; reflexivity).
    destruct (name_all_some fst ", Opt." sts (default_labels "optical " (optical_lines (map total_sheet cs)))) as (lo & -> & _); [intros name c I; rewrite LD; apply (RG name c I)|].
    destruct (name_all_some snd ", Clas." sts (default_labels "classical " (classical_lines (map total_sheet cs)))) as (lc & -> & _); [intros name c I; rewrite LD; apply (RG name c I)|].
    eexists _, _. split; [reflexivity|]. rewrite map_map. reflexivity. }
  destruct ST as (total & per & ST & PM). unfold draw_station. rewrite ST. cbn [stations_to_draw each_figure]. unfold station_figure. rewrite CH.
  assert (FP : exists lab, List.find (fun s => String.eqb (fst s) me) per = Some (me, lab)).
  { assert (I : In me (map fst per)) by (rewrite PM; apply (in_map fst) in IN; exact IN). clear - I.
    induction per as [|(n & lab) per IH]; [contradiction|]. cbn [find fst]. destruct (String.eqb n me) eqn:E; [apply String.eqb_eq in E; subst; exists lab; reflexivity|].
    destruct I as [I|I]; [cbn in I; subst; rewrite String.eqb_refl in E; discriminate | apply IH, I]. }
  destruct FP as (lab & ->). rewrite DR. cbn [option_map]. exists lab, l. split; reflexivity.
Qed.
Print Assumptions C60_draws.

(** In the figure of a station nothing is drawn below a node with a link to another station: the link can be drawn down
    to the edge of the figure.  Another node in the same column lies completely above it. *)
Theorem C60_room cv cs sts me mine nodes : 0 < spacing cv -> stationed cs sts -> channels_of sts me = Some mine -> NoDup (fst mine) -> NoDup (snd mine) ->
  gates_at_most (2 * per_line cv) (map (station_sheet sts me mine) cs) -> draw cv (map (station_sheet sts me mine) cs) = Some nodes ->
  forall i j k lo p v k' b q w name, i <> j ->
    nth_error (numbered 0 (map (station_sheet sts me mine) cs)) i = Some (k, drawn_local lo) ->
    nth_error (numbered 0 (map (station_sheet sts me mine) cs)) j = Some (k', b) ->
    nth_error nodes i = Some (p, v) -> nth_error nodes j = Some (q, w) ->
    leads_to lo name -> lo_kind lo <> Bridge -> d_bridge b = false -> lo_gate lo = "single"%string ->
    same_column cv p q ->
    forall l m, In l (lines_of (map (station_sheet sts me mine) cs) (drawn_local lo)) -> In m (lines_of (map (station_sheet sts me mine) cs) b) -> m + 1 < l.
Proof.
  intros SP ST CH NO NC GA H i j k lo p v k' b q w name NE NI NJ LI LJ LT KB BB GS SC l m IL IM.
  destruct ST as (CN0 & BE & NA & NT & RGS). pose proof (station_connected cs sts me mine BE CN0) as CN.
  assert (RG : Forall (fun c => Forall (fun ch => ch < optical_lines (map (station_sheet sts me mine) cs)) (flat_map d_optical (sh_nodes c)) /\
                   Forall (fun ch => ch < classical_lines (map (station_sheet sts me mine) cs)) (flat_map d_classical (sh_nodes c))) (map (station_sheet sts me mine) cs)).
  { destruct (find_unique sts me mine NA CH) as (IN & _). destruct (RGS me mine IN) as (RO & RC).
    assert (NEC : cs <> []) by (destruct CN0 as (front & final & E & _); destruct cs; [destruct front; discriminate | discriminate]).
    assert (MT : forall (f : sheet -> nat) (g : plan -> nat), (forall c, f (total_sheet c) = g c) -> list_max (map f (map total_sheet cs)) = list_max (map g cs)).
    { intros f g E. rewrite map_map. f_equal. apply map_ext, E. }
    assert (OL : optical_lines (map (station_sheet sts me mine) cs) = List.length (fst mine)).
    { unfold optical_lines. rewrite map_map. cbn [station_sheet sh_optical]. apply (station_lines pl_optical); auto.
      unfold optical_lines in RO. rewrite (MT _ pl_optical) in RO by reflexivity. exact RO. }
    assert (CL : classical_lines (map (station_sheet sts me mine) cs) = List.length (snd mine)).
    { unfold classical_lines. rewrite map_map. cbn [station_sheet sh_classical]. apply (station_lines pl_classical); auto.
      unfold classical_lines in RC. rewrite (MT _ pl_classical) in RC by reflexivity. exact RC. }
    rewrite OL, CL. apply Forall_forall. intros s I. apply in_map_iff in I. destruct I as (c & <- & I).
    assert (R34 : forall d, In d (sh_nodes (station_sheet sts me mine c)) -> Forall (fun ch => ch < List.length (fst mine)) (d_optical d) /\ Forall (fun ch => ch < List.length (snd mine)) (d_classical d)).
    { intros d J. unfold station_sheet in J. cbn [sh_nodes] in J. apply in_map_iff in J. destruct J as (lo' & <- & J).
      apply In_nth_error in J. destruct J as (n & J). destruct (local_nodes_at _ _ _ _ _ _ _ J) as (k1 & nd & A & B & _).
      destruct (local_node_some _ _ _ _ _ _ B) as ((R1 & R2 & (_ & R3) & (_ & R4)) & KP). unfold drawn_local. cbn [d_optical d_classical d_gate d_bridge].
      split; apply Forall_forall; intros y X; [apply R3 in X | apply R4 in X]; destruct X as (x & X & _); apply nth_error_Some; congruence. }
    split; apply Forall_forall; intros x X; apply in_flat_map in X; destruct X as (d & J & X); destruct (R34 d J) as (A & B); rewrite Forall_forall in A, B; auto. }
  set (sh := map (station_sheet sts me mine) cs) in *.
  assert (LK : d_linked (drawn_local lo) = true).
  { unfold drawn_local. cbn [d_linked]. rewrite !orb_true_iff. unfold leads_to in LT.
    assert (SO : forall x : list string, In name x -> some_of x = true) by (intros x I; apply some_of_in; exists name; exact I).
    destruct LT as [T|[T|T]]; apply SO in T; auto. }
  assert (BA : d_bridge (drawn_local lo) = false) by (unfold drawn_local; cbn [d_bridge]; destruct (lo_kind lo); congruence).
  assert (NG : ~ same_gate (drawn_local lo) b /\ ~ same_gate b (drawn_local lo)).
  { unfold same_gate. cbn [drawn_local d_gate]. rewrite GS. split; [intros (_ & X); congruence | intros (X & Y); congruence]. }
  assert (LAST : In (optical_lines sh + classical_lines sh - 1) (reach sh (drawn_local lo))).
  { unfold reach. rewrite LK. cbn [drawn_local d_gate]. rewrite GS. destruct (lines_of sh _) eqn:E; [contradiction|]. apply in_or_app. right. left. reflexivity. }
  assert (SUB : forall nd x, In x (lines_of sh nd) -> In x (reach sh nd)) by (intros; unfold reach; apply in_or_app; left; assumption).
  assert (NUM : forall css n k' b, In (k', b) (numbered n css) -> exists c, In c css /\ In b (sh_nodes c)).
  { clear. induction css as [|c css IH]; intros n k' b I; cbn [numbered] in I; [contradiction|]. apply in_app_iff in I. destruct I as [I|I].
    - apply in_map_iff in I. destruct I as (x & E & I). inversion E; subst. exists c. split; [left; reflexivity | exact I].
    - destruct (IH _ _ _ I) as (c' & A & B). exists c'. split; [right; exact A | exact B]. }
  assert (MB : m < optical_lines sh + classical_lines sh).
  { destruct (NUM _ _ _ _ (nth_error_In _ _ NJ)) as (c & A & B). rewrite Forall_forall in RG. destruct (RG c A) as (R1 & R2). rewrite Forall_forall in R1, R2.
    unfold lines_of in IM. apply in_app_iff in IM. destruct IM as [X|X].
    - assert (m < optical_lines sh) by (apply R1; apply in_flat_map; exists b; auto). lia.
    - apply in_map_iff in X. destruct X as (x & <- & X). assert (x < classical_lines sh) by (apply R2; apply in_flat_map; exists b; auto). lia. }
  assert (AP : apart (reach sh (drawn_local lo)) (reach sh b)).
  { destruct (Nat.lt_trichotomy i j) as [L|[L|L]]; [| contradiction |].
    - apply (C59_apart cv sh nodes SP CN GA H i j k _ p v k' b q w L NI NJ LI LJ BA BB (proj1 NG) SC).
    - assert (SC' : same_column cv q p) by (destruct SC; split; congruence).
      destruct (C59_apart cv sh nodes SP CN GA H j i k' b q w k _ p v L NJ NI LJ LI BB BA (proj2 NG) SC') as [X|X]; [right | left]; intros; apply X; assumption. }
  destruct AP as [X|X].
  - exfalso. specialize (X _ _ LAST (SUB _ _ IM)). lia.
  - apply X; apply SUB; assumption.
Qed.
Print Assumptions C60_room.

(** ** Which stations are drawn *)

(** One figure per station if no selection is made, and one if one station is selected. *)
Theorem C60_selection cv cs sts sel figs : (sel = AllStations \/ exists name, sel = OneStation name) -> draw_station cv cs sts sel = Some figs ->
  map f_station figs = match sel with OneStation name => [name] | _ => map fst sts end.
Proof.
  intros S H. unfold draw_station in H. destruct (station_settings cs sts) as [(total & per)|]; [|discriminate].
  assert (G : forall names figs, each_figure (station_figure cv cs sts per) names = Some figs -> map f_station figs = names).
  { clear. induction names as [|n names IH]; intros figs H; cbn [each_figure] in H; [inversion H; reflexivity|].
    destruct (station_figure cv cs sts per n) as [x|] eqn:E; [|discriminate]. destruct (each_figure _ names) as [l|] eqn:El; [|discriminate]. inversion H; subst. cbn [map]. f_equal; [|apply IH; reflexivity].
    unfold station_figure in E. destruct (channels_of sts n); [|discriminate]. destruct (List.find _ per) as [(a & lab)|]; [|discriminate]. destruct (draw _ _); [|discriminate]. inversion E. reflexivity. }
  rewrite (G _ _ H). destruct S as [->|(name & ->)]; reflexivity.
Qed.
Print Assumptions C60_selection.

(** Two stations, with a node at each of them and one that connects them. *)
Definition alice_bob : stations := [("alice", ([0; 1], [0])); ("bob", ([3; 2], [1]))]%string.
Definition small_circuit : list plan :=
  [Plan 4 2 [Part Other [0; 1] [] "single"; Part Other [2; 3] [] "single"; Part Other [1; 2] [] "single"; Part Measurement [0; 2] [0; 1] "single"; Part Measurement [1] [1] "single"]].

(** A list of stations, which the documentation allows, is ignored: all stations are drawn. *)
Theorem C60_selection_refuted :
  exists figs, draw_station default_canvas small_circuit alice_bob (ListOfStations ["alice"%string]) = Some figs /\ map f_station figs = ["alice"; "bob"]%string.
Proof.
  destruct (draw_station default_canvas small_circuit alice_bob (ListOfStations ["alice"%string])) as [figs|] eqn:E; [|vm_compute in E; discriminate].
  exists figs. split; [reflexivity|]. vm_compute in E. inversion E. reflexivity.
Qed.
Print Assumptions C60_selection_refuted.

(** The kind of a link can differ between its two ends: a node acts on optical channels of alice and bob and on a
    classical channel of charlie.  Charlie's link to alice is classical, alice's link to charlie is also shown as
    optical and classical. *)
Theorem C60_kinds_refuted :
  let sts := [("alice", ([0], [])); ("bob", ([1], [])); ("charlie", ([], [0]))]%string in
  let nd := Part Other [0; 1] [0] "single" in
  exists la lc, local_node sts "alice" ([0], []) 0 nd = Some la /\ local_node sts "charlie" ([], [0]) 0 nd = Some lc /\
    In "charlie"%string (to_both (lo_links la)) /\ ~ In "alice"%string (to_both (lo_links lc)) /\
    ~ optical_at ([], [0]) nd.
Proof.
  cbv zeta. eexists _, _. split; [vm_compute; reflexivity|]. split; [vm_compute; reflexivity|]. cbn [lo_links to_both].
  split; [left; reflexivity|]. split; [intros [] | intros (c & [] & _)].
Qed.
Print Assumptions C60_kinds_refuted.

(** A station at which no node acts cannot be drawn; so nothing is drawn unless the station is left out. *)
Theorem C60_empty_station_refuted :
  let sts := [("alice", ([0; 1], [0])); ("bob", ([2; 3], [1]))]%string in
  let cs := [Plan 4 2 [Part Other [0; 1] [] "single"]] in
  draw_station default_canvas cs sts AllStations = None /\ (exists figs, draw_station default_canvas cs sts (OneStation "alice") = Some figs) /\ stationed cs sts.
Proof.
  cbv zeta. split; [vm_compute; reflexivity|]. split.
  - destruct (draw_station default_canvas _ _ (OneStation "alice")) as [figs|] eqn:E; [exists figs; reflexivity | vm_compute in E; discriminate].
  - split; [|split; [|split; [|split]]].
    + eexists [], _. split; [reflexivity|]. split; [constructor|]. intros C. apply closed_closing, ends_closing in C. vm_compute in C. discriminate.
    + constructor; [|constructor]. intros [|a [|b l]] nd after E K; cbn in E; inversion E; subst; try discriminate.
    + repeat constructor; cbn; intuition discriminate.
    + cbn. intuition discriminate.
    + intros name ch [E|[E|[]]]; inversion E; subst; cbn; repeat constructor.
Qed.
Print Assumptions C60_empty_station_refuted.

(** Gates that are separated by a node of another station are joined in the figure of a station: eleven beam splitters
    of alice, separated by nodes of bob, can be drawn in the total circuit, but not at alice's station. *)
Fixpoint alternating (n : nat) : list part :=
  match n with 0 => [] | S m => [Part Other [0; 2] [] "NPBS"; Part Other [1; 3] [] "NPBS"; Part Other [4] [] "single"] ++ alternating m end.

Theorem C60_joined_gates_refuted :
  let sts := [("alice", ([0; 1; 2; 3], [])); ("bob", ([4], []))]%string in
  let cs := [Plan 5 0 (alternating 11)] in
  (exists l, draw default_canvas (map total_sheet cs) = Some l) /\ draw_station default_canvas cs sts (OneStation "alice") = None.
Proof.
  cbv zeta. split; [|vm_compute; reflexivity]. destruct (draw default_canvas _) as [l|] eqn:E; [exists l; reflexivity | vm_compute in E; discriminate].
Qed.
Print Assumptions C60_joined_gates_refuted.

(** In a chain of circuits the same marker is used for different nodes. *)
Theorem C60_marks_refuted :
  let sts := [("alice", ([0], [])); ("bob", ([1], []))]%string in
  let nd := Part Other [0; 1] [] "single" in
  exists l1 l2, nth_error (local_nodes sts "alice" ([0], []) 0 [nd; Part Bridge [] [] "single"]) 0 = Some l1 /\
    nth_error (local_nodes sts "alice" ([0], []) 0 [nd]) 0 = Some l2 /\ lo_mark l1 = Some 49 /\ lo_mark l2 = Some 49.
Proof. cbv zeta. eexists _, _. split; [vm_compute; reflexivity|]. split; [vm_compute; reflexivity|]. split; reflexivity. Qed.
Print Assumptions C60_marks_refuted.

(** ** Examples *)

Example C60_case : stationed small_circuit alice_bob /\ separate fst alice_bob /\ separate snd alice_bob /\
  exists figs, draw_station default_canvas small_circuit alice_bob AllStations = Some figs /\
    map (fun f => optical_labels (f_labels f)) figs = [["alice, Opt.0"; "alice, Opt.1"]; ["bob, Opt.0"; "bob, Opt.1"]]%string /\
    map (fun f => List.length (f_nodes f)) figs = [4; 4].
Proof.
  split; [|split; [|split]].
  - split; [|split; [|split; [|split]]].
    + eexists [], _. split; [reflexivity|]. split; [constructor|]. intros C. apply closed_closing, ends_closing in C. vm_compute in C. discriminate.
    + constructor; [|constructor]. intros before nd after E K. exfalso. assert (I : In nd (pl_nodes (List.hd (Plan 0 0 []) small_circuit))) by (cbn [small_circuit List.hd]; rewrite E; apply in_or_app; right; left; reflexivity).
      cbn in I. repeat (destruct I as [<-|I]; [discriminate|]). exact I.
    + repeat constructor; cbn; intuition discriminate.
    + cbn. intuition discriminate.
    + intros name ch [E|[E|[]]]; inversion E; subst; cbn; repeat constructor.
  - unfold separate. cbn. repeat constructor; cbn; intuition discriminate.
  - unfold separate. cbn. repeat constructor; cbn; intuition discriminate.
  - destruct (draw_station default_canvas small_circuit alice_bob AllStations) as [figs|] eqn:E; [|vm_compute in E; discriminate]. exists figs. split; [reflexivity|].
    vm_compute in E. inversion E. split; reflexivity.
Qed.

(** The third node connects the stations optically, the last one classically (alice's photon is written to bob's
    register); the fourth one is local at both stations. *)
Example C60_links_case :
  map (fun lo => (to_optical (lo_links lo), to_classical (lo_links lo), lo_optical lo)) (local_nodes alice_bob "bob" ([3; 2], [1]) 0 (pl_nodes (List.hd (Plan 0 0 []) small_circuit)))
  = [([], [], [0; 1]); (["alice"], [], [1]); ([], [], [1]); ([], ["alice"], [])]%string.
Proof. vm_compute. reflexivity. Qed.
