(** Property theorem C28: bridges and compound circuits. *)
From Coq Require Import Reals List Arith Lia Lra Bool Permutation Sorting.Sorted.
From Coquelicot Require Import Complex.
From Verif Require Import Prelude NamesModel NamesSpec NamesProofs FockModel FockSpec StateModel StateSpec StateProofs
  ApplyProofs CollectionModel CollectionSpec EvalModel EvalSpec EvalProofs MeasureSpec MeasureProofs WfProofs
  PropState PropMeasure PropEval PropCollection PropProducts ReshapeSpec ReshapeProofs PropReshape CompoundModel BridgeSpec.
Import ListNotations.

(** ** Lists *)
Lemma readout_firstn n vs : n <= length vs -> readout (seq 0 n) vs = firstn n vs.
Proof.
  revert vs. induction n as [|n IH]; intros [|v vs] H; cbn [length] in H; try lia; try reflexivity.
  cbn [seq firstn]. unfold readout in *. cbn [map nth]. f_equal. rewrite <- IH by lia. rewrite <- seq_shift, map_map. reflexivity.
Qed.
Lemma other_channels_seq n m : m <= n -> other_channels n (seq 0 m) = seq m (n - m).
Proof.
  intros H. unfold other_channels. replace (seq 0 n) with (seq 0 m ++ seq m (n - m)) by (rewrite <- seq_app; f_equal; lia).
  assert (Hf : forall l, (forall x, In x l -> x < m) -> filter (fun c => negb (existsb (Nat.eqb c) (seq 0 m))) l = []).
  { induction l as [|x l IH]; intros Hl; [reflexivity|]. cbn [filter].
    replace (existsb (Nat.eqb x) (seq 0 m)) with true; [apply IH; intros; apply Hl; now right|].
    symmetry. apply existsb_exists. exists x. split; [apply in_seq; specialize (Hl x (or_introl eq_refl)); lia|apply Nat.eqb_refl]. }
  rewrite filter_app, Hf by (intros x Hx; apply in_seq in Hx; lia). cbn [app]. apply filter_all.
  intros x Hx. apply negb_true_iff, not_true_is_false. intros E. apply existsb_exists in E. destruct E as (y & Hy & E).
  apply Nat.eqb_eq in E. subst y. apply in_seq in Hx, Hy. lia.
Qed.
Lemma resized_same l : resized (length l) l = l.
Proof. unfold resized. rewrite firstn_all, Nat.sub_diag. apply app_nil_r. Qed.
Lemma resized_longer l n : length l <= n -> resized n l = l ++ repeat 0%R (n - length l).
Proof. intros H. unfold resized. now rewrite firstn_all2. Qed.
Lemma resized_shorter l n : n <= length l -> resized n l = firstn n l.
Proof. intros H. unfold resized. replace (n - length l) with 0 by lia. apply app_nil_r. Qed.
Lemma map_nth_firstn n (l : list R) : n <= length l -> map (fun c => nth c l 0%R) (seq 0 n) = firstn n l.
Proof.
  revert l. induction n as [|n IH]; intros [|v l] H; cbn [length] in H; try lia; try reflexivity.
  cbn [seq firstn map nth]. f_equal. rewrite <- IH by lia. rewrite <- seq_shift, map_map. reflexivity.
Qed.
Lemma carried_values_same vs : carried_values (length vs) vs = vs.
Proof. unfold carried_values. rewrite firstn_all, Nat.sub_diag. apply app_nil_r. Qed.
Lemma carried_values_longer vs n : length vs <= n -> carried_values n vs = vs ++ repeat 0 (n - length vs).
Proof. intros H. unfold carried_values. now rewrite firstn_all2. Qed.
Lemma carried_values_shorter vs n : n <= length vs -> carried_values n vs = firstn n vs.
Proof. intros H. unfold carried_values. replace (n - length vs) with 0 by lia. apply app_nil_r. Qed.

(** ** The step from one state to one state *)

(** [s2] is [s] with resized classical values in a shape with the same channels. *)
Definition onward (D1 D2 : dims) (ncl2 : nat) (s s2 : state) : Prop :=
  s_init s2 = s_init s /\ s_results s2 = s_results s /\ s_aux s2 = s_aux s /\
  s_classical s2 = resized ncl2 (s_classical s) /\ s_cum s2 = s_cum s /\
  wf_state D2 s2 /\ state_norm2 s2 = state_norm2 s /\
  (forall vs, valid D1 vs -> valid D2 vs -> amp_of D2 s2 vs = amp_of D1 s vs) /\
  (forall vs, valid D2 vs -> ~ valid D1 vs -> amp_of D2 s2 vs = RtoC 0).

Lemma resized_resized n m l : n = length l -> resized m (resized n l) = resized m l.
Proof. intros ->. now rewrite resized_same. Qed.

Lemma carried_onward D D1 D2 ncl1 ncl2 o st s s2 :
  1 <= dL D -> dN D1 = dN D2 -> dL D1 = dL D -> length (s_classical st) = ncl1 ->
  carried D D1 ncl1 o st s -> onward D1 D2 ncl2 s s2 -> carried D D2 ncl2 o st s2.
Proof.
  intros HL HN HLL Hcl (C1 & C2 & C3 & C4 & C5 & C6 & C7 & C8 & C9 & C10) (O1 & O2 & O3 & O4 & O5 & O6 & O7 & O8 & O9).
  unfold carried. rewrite <- HN. split; [congruence|]. split; [congruence|]. split; [congruence|].
  split; [rewrite O4, C4; now apply resized_resized|]. split; [congruence|]. split; [exact C6|]. split; [exact O6|].
  split; [congruence|].
  assert (Hc : forall vs, valid D vs -> valid D1 (carried_values (dN D1) vs)).
  { intros vs [Hl HF]. unfold carried_values. split; [rewrite app_length, firstn_length, repeat_length; lia|].
    rewrite HLL. apply Forall_app. split.
    - apply Forall_forall. intros v Hv. rewrite Forall_forall in HF. apply HF. rewrite <- (firstn_skipn (dN D1) vs). apply in_or_app. now left.
    - apply Forall_forall. intros v Hv. apply repeat_spec in Hv. lia. }
  split.
  - intros vs V Er Hf. pose proof (Hc vs V) as Vc. rewrite O8; [|exact Vc|split; [rewrite <- HN; exact (proj1 Vc)|exact Hf]].
    apply C9; auto. exact (proj2 Vc).
  - intros ws V Hne. assert (Hd : valid D1 ws \/ ~ valid D1 ws).
    { destruct (forallb (fun v => v <? dL D1) ws) eqn:E.
      - left. split; [rewrite HN; exact (proj1 V)|]. apply Forall_forall. intros v Hv. rewrite forallb_forall in E. now apply Nat.ltb_lt, E.
      - right. intros [_ HF]. apply (Bool.diff_true_false). rewrite <- E. symmetry. apply forallb_forall. intros v Hv. apply Nat.ltb_lt. rewrite Forall_forall in HF. auto. }
    destruct Hd as [V1|V1]; [rewrite O8 by auto; now apply C10|now apply O9].
Qed.

Lemma outcome_prob_none D st o : outcome_prob D st [] o = if leqb [] o then state_norm2 st else 0%R.
Proof.
  unfold outcome_prob, state_norm2, readout. cbn [map]. destruct (leqb [] o); [reflexivity|].
  induction (s_comps st) as [|c l IH]; [reflexivity|]. now rewrite Rsum_cons, IH, Rplus_0_l.
Qed.
Lemma norm_pos_has D st : 1 <= dL D -> wf_state D st -> state_norm2 st = 1%R -> exists vs, has D st vs.
Proof.
  intros HL W Hn. destruct (s_comps st) as [|c l] eqn:E.
  - unfold state_norm2 in Hn. rewrite E in Hn. unfold Rsum in Hn. cbn in Hn. lra.
  - exists (values_of_name D (fst c)). apply has_comp; auto. rewrite E. now left.
Qed.

(** A state that arrives as one state. *)
Lemma single_outcome D n st new (Q : list nat -> ident * state -> Prop) : 1 <= dL D -> dN D <= n -> wf_state D st -> state_norm2 st = 1%R -> Q [] new ->
  one_per_outcome D (dropped_channels D n) st [new] Q.
Proof.
  intros HL Hn W H1 HR. unfold dropped_channels. replace (dN D - n) with 0 by lia. cbn [seq]. exists [[]]. split; [repeat constructor; intros []|]. split.
  - intros o. split.
    + intros [<-|[]]. destruct (norm_pos_has D st HL W H1) as (vs & V & Hin). exists vs. auto.
    + intros (vs & _ & _ & <-). left. reflexivity.
  - constructor; [exact HR|constructor].
Qed.
Lemma dropped_prob D n st : dN D <= n -> state_norm2 st = 1%R -> outcome_prob D st (dropped_channels D n) [] = 1%R.
Proof. intros Hn H1. unfold dropped_channels. replace (dN D - n) with 0 by lia. cbn [seq]. rewrite outcome_prob_none. exact H1. Qed.
Lemma dropped_none D n : dN D <= n -> dropped_channels D n = [].
Proof. intros H. unfold dropped_channels. now replace (dN D - n) with 0 by lia. Qed.
Lemma Cdiv_sqrt1 z : (z / RtoC (sqrt 1))%C = z.
Proof. rewrite sqrt_1. unfold Cdiv. rewrite <- RtoC_inv by lra. rewrite Rinv_1. apply Cmult_1_r. Qed.

Lemma dims_eta D : Dims (dL D) (dN D) (dLeft D) = D.
Proof. now destruct D. Qed.

Lemma carried_refl D st : 1 <= dL D -> wf_state D st -> state_norm2 st = 1%R -> carried D D (length (s_classical st)) [] st st.
Proof.
  intros HL W H1. unfold carried. rewrite dropped_prob by auto. rewrite resized_same.
  do 4 (split; [reflexivity|]). split; [ring|]. split; [lra|]. split; [exact W|]. split; [exact H1|].
  split.
  - intros vs V _ _. rewrite <- (proj1 V), carried_values_same. now rewrite Cdiv_sqrt1.
  - intros ws V Hne. exfalso. apply (Hne ws V).
    + now rewrite dropped_none.
    + now rewrite <- (proj1 V), carried_values_same.
Qed.

Lemma carried_extension D n st s : 1 <= dL D -> dN D <= n -> wf_state D st -> state_norm2 st = 1%R ->
  extension D 1 (repeat 0 (n - dN D)) 0 st s -> carried D (Dims (dL D) n (dLeft D)) (length (s_classical st)) [] st s.
Proof.
  intros HL Hn W H1 (E1 & E2 & E3 & E4 & E5 & E6 & E7 & E8 & E9 & E10). unfold carried. cbn [dN dL]. rewrite dropped_prob by auto.
  assert (ED : shape_with_extra D (length (repeat 0 (n - dN D))) = Dims (dL D) n (dLeft D)).
  { unfold shape_with_extra. rewrite repeat_length. f_equal. lia. }
  rewrite ED in *.
  split; [exact E1|]. split; [exact E2|]. split; [exact E3|].
  split; [rewrite resized_same, E4; apply app_nil_r|]. split; [exact E5|]. split; [lra|]. split; [exact E6|]. split; [congruence|]. split.
  - intros vs V _ _. rewrite carried_values_longer by (rewrite (proj1 V); lia). rewrite (proj1 V), Cdiv_sqrt1. now apply E8.
  - intros ws V Hne. rewrite <- (firstn_skipn (dN D) ws). destruct V as [Hl HF]. cbn [dN dL] in *.
    assert (Vf : valid D (firstn (dN D) ws)).
    { split; [rewrite firstn_length; lia|]. rewrite <- (firstn_skipn (dN D) ws) in HF. apply Forall_app in HF. tauto. }
    apply E9; [exact Vf|rewrite firstn_skipn; split; auto|]. intros Es. apply (Hne _ Vf); [now rewrite dropped_none|].
    rewrite carried_values_longer by (rewrite (proj1 Vf); lia). rewrite (proj1 Vf), <- Es. now rewrite firstn_skipn.
Qed.

Lemma carried_reduced D n o st s : 1 <= dL D -> n <= dN D ->
  reduced D (seq 0 n) (seq 0 (length (s_classical st))) o st s -> carried D (Dims (dL D) n (dLeft D)) (length (s_classical st)) o st s.
Proof.
  intros HL Hn (E1 & E2 & E3 & E4 & E5 & E6 & E7 & E8 & E9 & E10 & E11 & E12). unfold carried. cbn [dN dL]. unfold dropped_channels.
  rewrite other_channels_seq in * by exact Hn. unfold kept_shape in *. rewrite seq_length in *.
  split; [exact E1|]. split; [exact E2|]. split; [exact E3|].
  split; [rewrite resized_same, E4, map_nth_firstn by auto; apply firstn_all|]. split; [exact E5|]. split; [exact E6|]. split; [exact E7|].
  split; [exact E9|]. split.
  - intros vs V Er _. rewrite <- (E10 vs V Er). f_equal. rewrite carried_values_shorter by (rewrite (proj1 V); exact Hn). symmetry. apply readout_firstn. rewrite (proj1 V). exact Hn.
  - intros ws V Hne. apply E11; auto. intros vs Vv Er Ek. apply (Hne vs Vv Er). rewrite carried_values_shorter by (rewrite (proj1 Vv); exact Hn).
    rewrite <- Ek. apply readout_firstn. rewrite (proj1 Vv). exact Hn.
Qed.

(** ** The optical channels *)
Lemma concat_singles {A} (l : list A) : concat (map (fun x => [x]) l) = l.
Proof. induction l as [|x l IH]; [reflexivity|]. cbn [map concat app]. now rewrite IH. Qed.

Definition arriving (D D' : dims) (ncl' : nat) (its its' : items) : Prop :=
  exists groups, its' = concat groups /\
    Forall2 (fun it g => one_per_outcome D (dropped_channels D (dN D')) (snd it) g
                           (fun o new => carried D D' ncl' o (snd it) (snd new))) its groups.

Lemma Forall2_in_l {A B} (P : A -> Prop) (R : A -> B -> Prop) l l' : Forall P l -> Forall2 R l l' -> Forall2 (fun a b => P a /\ R a b) l l'.
Proof. intros HF H. induction H; constructor; inversion HF; subst; auto. Qed.

Lemma Forall2_in_r_ex {A B} (R : A -> B -> Prop) l l' b : Forall2 R l l' -> In b l' -> exists a, In a l /\ R a b.
Proof. induction 1 as [|x y l l' H _ IH]; intros Hin; [destruct Hin|]. destruct Hin as [->|Hin]; [exists x; split; [now left|auto]|]. destruct (IH Hin) as (a & Ha & HR). exists a. split; [now right|auto]. Qed.

Lemma optical_stage rnd seed cs no cs1 seed1 :
  let D := co_D cs in
  1 <= dL D -> 1 <= no -> co_items cs <> [] -> NoDup (map fst (co_items cs)) ->
  Forall (fun it => wf_state D (snd it) /\ state_norm2 (snd it) = 1%R /\ length (s_classical (snd it)) = co_ncl cs /\
     (dN D < no -> (co_eps cs <= s_cum (snd it))%R)) (co_items cs) ->
  (dN D < no -> (0 < co_eps cs)%R) ->
  (if dN D <? no then extend rnd seed (no - dN D) 0 [] cs
   else if no <? dN D then option_map (fun x => (x, seed)) (reduce (seq 0 no) [] cs)
   else Some (cs, seed)) = Some (cs1, seed1) ->
  co_D cs1 = Dims (dL D) no (dLeft D) /\ co_ncl cs1 = co_ncl cs /\ co_eps cs1 = co_eps cs /\
  NoDup (map fst (co_items cs1)) /\ arriving D (co_D cs1) (co_ncl cs) (co_items cs) (co_items cs1) /\
  (forall it1 ws, In it1 (co_items cs1) -> has (co_D cs1) (snd it1) ws ->
     exists it vs, In it (co_items cs) /\ has D (snd it) vs /\ ws = carried_values no vs).
Proof.
  intros D HL Hno Hne ND HF Heps E. destruct (Nat.ltb_spec (dN D) no) as [Hlt|Hge].
  - assert (HW : Forall (fun it => wf_state D (snd it)) (co_items cs)) by (eapply Forall_impl; [|exact HF]; intros it H; apply H).
    assert (HC : Forall (fun it => (co_eps cs <= s_cum (snd it))%R) (co_items cs)) by (eapply Forall_impl; [|exact HF]; intros it H; now apply H).
    assert (Ee : co_eps cs1 = co_eps cs).
    { unfold extend in E. cbv zeta in E. destruct ((no - dN D =? 0) && (0 =? 0)); [injection E as <- <-; reflexivity|].
      destruct (fold_left _ _ _) as [[its sd]|]; [|discriminate]. injection E as <- <-. reflexivity. }
    destruct (C35_default_is_vacuum rnd seed (no - dN D) 0 cs cs1 seed1) as (ED & En & N1 & H2); auto; try lia.
    assert (ED' : co_D cs1 = Dims (dL D) no (dLeft D)) by (rewrite ED; fold D; unfold shape_with_extra; f_equal; lia).
    split; [exact ED'|]. split; [lia|]. split; [exact Ee|]. split; [exact N1|]. split.
    + rewrite ED'. exists (map (fun x => [x]) (co_items cs1)). split; [now rewrite concat_singles|]. cbn [dN].
      pose proof (Forall2_in_l _ _ _ _ HF H2) as H3. clear - H3 HL Hlt. induction H3 as [|it it1 l l' [(W & Hn & Hl & _) He] _ IH]; [constructor|].
      cbn [map]. constructor; [|exact IH]. apply single_outcome; auto; [lia|]. rewrite <- Hl. now apply carried_extension; auto; lia.
    + rewrite ED'. intros it1 ws Hin Hh. pose proof (Forall2_in_r_ex _ _ _ _ H2 Hin) as (it & Hit & He).
      destruct He as (_ & _ & _ & _ & _ & _ & _ & _ & _ & He).
      destruct (He ws) as (vs & Hv & ->).
      { rewrite repeat_length. unfold shape_with_extra. fold D. replace (dN D + (no - dN D)) with no by lia. exact Hh. }
      exists it, vs. split; [exact Hit|]. split; [exact Hv|]. rewrite carried_values_longer by (rewrite (proj1 (proj1 Hv)); fold D; lia).
      now rewrite (proj1 (proj1 Hv)).
  - destruct (Nat.ltb_spec no (dN D)) as [Hlt|Hge'].
    + destruct (reduce (seq 0 no) [] cs) as [cs2|] eqn:Er; [|discriminate]. cbn [option_map] in E. injection E as <- <-.
      assert (Er' : reduce (seq 0 no) (seq 0 (co_ncl cs)) cs = Some cs2).
      { rewrite <- Er. unfold reduce. destruct (co_ncl cs); reflexivity. }
      assert (HW : Forall (fun it => wf_state D (snd it)) (co_items cs)) by (eapply Forall_impl; [|exact HF]; intros it H; apply H).
      destruct (C34_reduce (seq 0 no) (seq 0 (co_ncl cs)) cs cs2) as (ED & En & Ee & N1 & groups & EG & HG); auto.
      { destruct no; [lia|discriminate]. } { destruct (co_ncl cs); [now right|left; discriminate]. }
      assert (ED' : co_D cs2 = Dims (dL D) no (dLeft D)) by (rewrite ED; unfold kept_shape; now rewrite seq_length).
      split; [exact ED'|]. split; [rewrite En; apply seq_length|]. split; [exact Ee|]. split; [exact N1|]. split.
      * rewrite ED'. exists groups. split; [exact EG|]. cbn [dN]. pose proof (Forall2_in_l _ _ _ _ HF HG) as H3. fold D in H3.
        clear - H3 HL Hlt. induction H3 as [|it g l l' [(W & Hn & Hl & _) [(os & A & B & HO) _]] _ IH]; [constructor|]. constructor; [|exact IH].
        exists os. split; [exact A|]. unfold dropped_channels. rewrite other_channels_seq in * by lia. split; [exact B|].
        eapply Forall2_impl; [|exact HO]. intros o new [_ H]. rewrite <- Hl in *. apply carried_reduced; auto; lia.
      * intros it1 ws Hin Hh. rewrite EG in Hin. apply in_concat in Hin. destruct Hin as (g & Hg & Hin).
        destruct (Forall2_in_r_ex _ _ _ g HG Hg) as (it & Hit & (os & _ & _ & HO) & _).
        destruct (Forall2_in_r_ex _ _ _ it1 HO Hin) as (o & _ & _ & HR). destruct HR as (_ & _ & _ & _ & _ & _ & _ & _ & _ & _ & _ & HR).
        rewrite ED in Hh. destruct (HR ws Hh) as (vs & Hv & _ & ->). exists it, vs. split; [exact Hit|]. split; [exact Hv|].
        rewrite carried_values_shorter by (rewrite (proj1 (proj1 Hv)); fold D; lia). apply readout_firstn. rewrite (proj1 (proj1 Hv)). fold D. lia.
    + injection E as <- <-. assert (no = dN D) by lia. subst no. rewrite dims_eta. fold D.
      split; [reflexivity|]. split; [reflexivity|]. split; [reflexivity|]. split; [exact ND|]. split.
      * exists (map (fun x => [x]) (co_items cs)). split; [now rewrite concat_singles|].
        clear - HF HL. induction HF as [|it l (W & Hn & Hl & _) _ IH]; [constructor|].
        cbn [map]. constructor; [|exact IH]. apply single_outcome; auto. rewrite <- Hl. now apply carried_refl.
      * intros it1 ws Hin Hh. exists it1, ws. split; [exact Hin|]. split; [exact Hh|]. rewrite <- (proj1 (proj1 Hh)). now rewrite carried_values_same.
Qed.

(** ** The classical channels *)
Lemma onward_refl D s : wf_state D s -> onward D D (length (s_classical s)) s s /\ (forall vs, has D s vs -> has D s vs).
Proof.
  intros W. split; [|auto]. unfold onward. rewrite resized_same. do 5 (split; [reflexivity|]). split; [exact W|]. split; [reflexivity|].
  split; [reflexivity|]. intros vs V V'; contradiction.
Qed.

Lemma onward_extension D k s s2 : wf_state D s -> extension D 1 [] k s s2 ->
  onward D D (length (s_classical s) + k) s s2 /\ (forall vs, has D s2 vs -> has D s vs).
Proof.
  intros W (E1 & E2 & E3 & E4 & E5 & E6 & E7 & E8 & E9 & E10). cbn [length] in *.
  assert (ED : shape_with_extra D 0 = D) by (unfold shape_with_extra; rewrite Nat.add_0_r; apply dims_eta). rewrite ED in *.
  split; [|intros vs Hv; destruct (E10 vs Hv) as (us & Hu & ->); now rewrite app_nil_r].
  split; [exact E1|]. split; [exact E2|]. split; [exact E3|].
  split; [rewrite resized_longer by lia; rewrite E4; do 2 f_equal; lia|].
  split; [rewrite E5; ring|]. split; [exact E6|]. split; [exact E7|]. split.
  - intros vs V _. rewrite <- (E8 vs V). now rewrite app_nil_r.
  - intros vs V V'; contradiction.
Qed.

Lemma onward_reduced D k o s s2 : 1 <= dL D -> k <= length (s_classical s) -> state_norm2 s = 1%R ->
  reduced D (seq 0 (dN D)) (seq 0 k) o s s2 -> onward D D k s s2 /\ (forall vs, has D s2 vs -> has D s vs).
Proof.
  intros HL Hk Hn (E1 & E2 & E3 & E4 & E5 & E6 & E7 & E8 & E9 & E10 & E11 & E12).
  rewrite other_channels_seq in * by lia. rewrite Nat.sub_diag in *. cbn [seq] in *.
  assert (ED : kept_shape D (seq 0 (dN D)) = D) by (unfold kept_shape; rewrite seq_length; apply dims_eta). rewrite ED in *.
  rewrite outcome_prob_none in *. destruct (leqb [] o) eqn:Eo; [|lra]. apply leqb_spec in Eo. subst o. rewrite Hn in *.
  split; [|intros ks Hk'; destruct (E12 ks Hk') as (vs & Hv & _ & ->); rewrite readout_firstn by (rewrite (proj1 (proj1 Hv)); lia);
           rewrite <- (proj1 (proj1 Hv)); now rewrite firstn_all].
  split; [exact E1|]. split; [exact E2|]. split; [exact E3|].
  split; [rewrite resized_shorter by lia; rewrite E4; now apply map_nth_firstn|].
  split; [rewrite E5; ring|]. split; [exact E7|]. split; [congruence|]. split.
  - intros vs V _. rewrite <- (Cdiv_sqrt1 (amp_of D s vs)). rewrite <- (E10 vs V eq_refl). f_equal.
    rewrite readout_firstn by (rewrite (proj1 V); lia). rewrite <- (proj1 V). now rewrite firstn_all.
  - intros vs V V'. contradiction.
Qed.

Lemma classical_stage rnd seed cs ncl' cs1 seed1 :
  let D := co_D cs in
  1 <= dL D -> 1 <= dN D -> co_items cs <> [] -> NoDup (map fst (co_items cs)) ->
  Forall (fun it => wf_state D (snd it) /\ state_norm2 (snd it) = 1%R /\ length (s_classical (snd it)) = co_ncl cs /\
     (co_ncl cs < ncl' -> (co_eps cs <= s_cum (snd it))%R)) (co_items cs) ->
  (co_ncl cs < ncl' -> (0 < co_eps cs)%R) -> (ncl' = 0 -> co_ncl cs = 0) ->
  (if co_ncl cs <? ncl' then extend rnd seed 0 (ncl' - co_ncl cs) [] cs
   else if ncl' <? co_ncl cs then option_map (fun x => (x, seed)) (reduce [] (seq 0 ncl') cs)
   else Some (cs, seed)) = Some (cs1, seed1) ->
  co_D cs1 = D /\ co_ncl cs1 = ncl' /\ co_eps cs1 = co_eps cs /\
  NoDup (map fst (co_items cs1)) /\
  Forall2 (fun it it1 => onward D D ncl' (snd it) (snd it1) /\ (forall vs, has D (snd it1) vs -> has D (snd it) vs)) (co_items cs) (co_items cs1).
Proof.
  intros D HL HN Hne ND HF Heps H0 E.
  assert (HW : Forall (fun it => wf_state D (snd it)) (co_items cs)) by (eapply Forall_impl; [|exact HF]; intros it H; apply H).
  destruct (Nat.ltb_spec (co_ncl cs) ncl') as [Hlt|Hge].
  - assert (HC : Forall (fun it => (co_eps cs <= s_cum (snd it))%R) (co_items cs)) by (eapply Forall_impl; [|exact HF]; intros it H; now apply H).
    assert (Ee : co_eps cs1 = co_eps cs).
    { unfold extend in E. cbv zeta in E. destruct (_ && _); [injection E as <- <-; reflexivity|].
      destruct (fold_left _ _ _) as [[its sd]|]; [|discriminate]. injection E as <- <-. reflexivity. }
    destruct (C35_default_is_vacuum rnd seed 0 (ncl' - co_ncl cs) cs cs1 seed1) as (ED & En & N1 & H2); auto; try lia.
    split; [rewrite ED; unfold shape_with_extra; rewrite Nat.add_0_r; apply dims_eta|]. split; [lia|]. split; [exact Ee|]. split; [exact N1|].
    pose proof (Forall2_in_l _ _ _ _ HF H2) as H3. eapply Forall2_impl; [|exact H3]. intros it it1 [(W & _ & Hl & _) He].
    replace ncl' with (length (s_classical (snd it)) + (ncl' - co_ncl cs)) by lia. now apply onward_extension.
  - destruct (Nat.ltb_spec ncl' (co_ncl cs)) as [Hlt|Hge'].
    + destruct (reduce [] (seq 0 ncl') cs) as [cs2|] eqn:Er; [|discriminate]. cbn [option_map] in E. injection E as <- <-.
      rewrite (proj1 (C34_all_channels [] (seq 0 ncl') cs ltac:(fold D; lia) ltac:(lia))) in Er.
      destruct (C34_reduce (seq 0 (dN (co_D cs))) (seq 0 ncl') cs cs2) as (ED & En & Ee & N1 & groups & EG & HG); auto.
      { fold D. destruct (dN D); [lia|discriminate]. } { left. destruct ncl'; [lia|discriminate]. }
      split; [rewrite ED; unfold kept_shape; rewrite seq_length; apply dims_eta|]. split; [rewrite En; apply seq_length|].
      split; [exact Ee|]. split; [exact N1|]. rewrite EG. pose proof (Forall2_in_l _ _ _ _ HF HG) as H3. fold D in H3.
      clear - H3 HL Hlt. induction H3 as [|it g l l' [(W & Hn & Hl & _) [(os & A & B & HO) _]] _ IH]; [constructor|]. cbn [concat].
      rewrite other_channels_seq in B by lia. rewrite Nat.sub_diag in B. cbn [seq] in B.
      assert (Eos : os = [[]]).
      { destruct (norm_pos_has D (snd it) HL W Hn) as (vs & V & Hin).
        assert (H1 : In [] os) by (apply B; exists vs; auto).
        assert (H2 : forall o, In o os -> o = []) by (intros o Ho; apply B in Ho; destruct Ho as (us & _ & _ & <-); reflexivity).
        destruct os as [|o1 [|o2 os]]; [destruct H1| |].
        - now rewrite (H2 o1 (or_introl eq_refl)).
        - exfalso. inversion A as [|? ? Hx _]. apply Hx. left. rewrite (H2 o1), (H2 o2); auto; [right; now left|now left]. }
      subst os. inversion HO as [|? new ? gr [_ HR] HO']; subst. inversion HO'; subst. cbn [app]. constructor; [|exact IH].
      eapply onward_reduced; [exact HL| |exact Hn|exact HR]. lia.
    + injection E as <- <-. assert (ncl' = co_ncl cs) by lia. subst ncl'. split; [reflexivity|]. split; [reflexivity|]. split; [reflexivity|]. split; [exact ND|].
      clear - HF. induction HF as [|it l (W & _ & Hl & _) _ IH]; [constructor|]. constructor; [|exact IH]. rewrite <- Hl. now apply onward_refl.
Qed.

(** ** The Fock length *)
Lemma onward_length D D' s s2 : same_state D D' s s2 -> onward D D' (length (s_classical s)) s s2.
Proof.
  intros ((A1 & A2 & A3 & A4 & A5) & B & N & F1 & F2 & F3). unfold onward. rewrite resized_same.
  split; [exact A1|]. split; [exact A4|]. split; [exact A5|]. split; [exact A3|]. split; [exact A2|]. split; [exact B|]. split; [exact N|].
  split; [exact F1|exact F3].
Qed.

(** ** Composition *)
Lemma Forall2_concat_inv {A B} (R : A -> B -> Prop) gs : forall l, Forall2 R (concat gs) l ->
  exists gs', l = concat gs' /\ Forall2 (Forall2 R) gs gs'.
Proof.
  induction gs as [|g gs IH]; intros l H; cbn [concat] in H.
  - inversion H; subst. exists []. split; [reflexivity|constructor].
  - apply Forall2_app_inv_l in H. destruct H as (l1 & l2 & H1 & H2 & ->). destruct (IH l2 H2) as (gs' & -> & H3).
    exists (l1 :: gs'). split; [reflexivity|now constructor].
Qed.
Lemma Forall2_trans {A B C} (R : A -> B -> Prop) (S : B -> C -> Prop) (T : A -> C -> Prop) l1 : forall l2 l3,
  (forall a b c, R a b -> S b c -> T a c) -> Forall2 R l1 l2 -> Forall2 S l2 l3 -> Forall2 T l1 l3.
Proof.
  induction l1 as [|a l1 IH]; intros l2 l3 H H1 H2; inversion H1; subst; inversion H2; subst; constructor; eauto.
Qed.

Lemma arriving_onward D D1 D2 ncl1 ncl2 its its1 its2 :
  1 <= dL D -> dN D1 = dN D2 -> dL D1 = dL D -> Forall (fun it => length (s_classical (snd it)) = ncl1) its ->
  arriving D D1 ncl1 its its1 -> Forall2 (fun it it2 => onward D1 D2 ncl2 (snd it) (snd it2)) its1 its2 ->
  arriving D D2 ncl2 its its2.
Proof.
  intros HL HN HLL Hlen (groups & -> & HG) H. apply Forall2_concat_inv in H. destruct H as (gs' & -> & H). exists gs'. split; [reflexivity|].
  revert gs' H. induction HG as [|it g l l' Hg HG IH]; intros gs' H; inversion H as [|? g2 ? gr H1 H2]; subst; [constructor|].
  inversion Hlen as [|? ? Hl1 Hl2]; subst. constructor; [|now apply IH]. destruct Hg as (os & A & B & HO). exists os. split; [exact A|]. rewrite <- HN. split; [exact B|].
  eapply Forall2_trans; [|exact HO|exact H1]. intros o n1 n2 Hc Ho. cbv beta in *. eapply carried_onward; eauto.
Qed.

Lemma arriving_in D D1 ncl1 its its1 it1 : arriving D D1 ncl1 its its1 -> In it1 its1 ->
  exists it o, In it its /\ possible D (snd it) (dropped_channels D (dN D1)) o /\ carried D D1 ncl1 o (snd it) (snd it1).
Proof.
  intros (groups & -> & HG) Hin. apply in_concat in Hin. destruct Hin as (g & Hg & Hin).
  destruct (Forall2_in_r_ex _ _ _ g HG Hg) as (it & Hit & (os & _ & B & HO)).
  destruct (Forall2_in_r_ex _ _ _ it1 HO Hin) as (o & Ho & Hc). exists it, o. split; [exact Hit|]. split; [now apply B|exact Hc].
Qed.

Lemma arriving_nonempty D D1 ncl1 its its1 : 1 <= dL D -> its <> [] -> Forall (fun it => wf_state D (snd it) /\ state_norm2 (snd it) = 1%R) its ->
  arriving D D1 ncl1 its its1 -> its1 <> [].
Proof.
  intros HL Hne HF (groups & -> & HG). inversion HG as [|it g l l' (os & _ & B & HO) _]; subst; [contradiction|]. inversion HF as [|? ? [W Hn] _]; subst.
  destruct (norm_pos_has D (snd it) HL W Hn) as (vs & V & Hin).
  assert (Ho : In (readout (dropped_channels D (dN D1)) vs) os) by (apply B; exists vs; auto).
  cbn [concat]. destruct os; [destruct Ho|]. inversion HO; subst. discriminate.
Qed.

Lemma resized_length n l : length (resized n l) = n.
Proof. unfold resized. rewrite app_length, firstn_length, repeat_length. lia. Qed.

(** ** C28 *)

(** The collection that arrives in the next circuit: every state is replaced by one state per
    reading of the channels that the next circuit does not have, see [carried]. *)
Theorem C28_reshape : forall rnd c next cs seed cs' seed',
  let D := c_D c in let D' := Dims (dL (c_D next)) (dN (c_D next)) (dLeft D) in
  co_D cs = D -> co_ncl cs = c_ncl c -> 1 <= dL D -> 1 <= dN D -> 1 <= dL D' -> 1 <= dN D' ->
  co_items cs <> [] -> NoDup (map fst (co_items cs)) ->
  Forall (fun it => wf_state D (snd it) /\ state_norm2 (snd it) = 1%R /\
     (forall vs, has D (snd it) vs -> Forall (fun v => v < dL D') (carried_values (dN D') vs)) /\
     (dN D < dN D' \/ c_ncl c < c_ncl next -> (0 < co_eps cs)%R /\
        forall o, possible D (snd it) (dropped_channels D (dN D')) o ->
          (co_eps cs <= s_cum (snd it) * outcome_prob D (snd it) (dropped_channels D (dN D')) o)%R)) (co_items cs) ->
  (c_ncl next = 0 -> c_ncl c = 0) ->
  bridge_reshape rnd c next cs seed = Some (cs', seed') ->
  co_D cs' = D' /\ co_ncl cs' = c_ncl next /\ NoDup (map fst (co_items cs')) /\
  exists groups, co_items cs' = concat groups /\
    Forall2 (fun it g => one_per_outcome D (dropped_channels D (dN D')) (snd it) g
                           (fun o new => carried D D' (c_ncl next) o (snd it) (snd new))) (co_items cs) groups.
Proof.
  intros rnd c next cs seed cs' seed' D D' ED En HL HN HL' HN' Hne ND HF Hcl E.
  unfold bridge_reshape in E. destruct (copy_collection cs) as [cs0|] eqn:E0; [|discriminate]. cbv zeta in E.
  unfold copy_collection in E0. destruct (copy_items _ _ _) as [its0|] eqn:Ei; [|discriminate]. cbn [option_map] in E0. injection E0 as <-.
  apply copy_items_some in Ei. destruct Ei as [-> Hck].
  replace (with_items cs (co_items cs)) with cs in E by (now destruct cs).
  assert (Hlen : Forall (fun it => length (s_classical (snd it)) = co_ncl cs) (co_items cs)).
  { eapply Forall_impl; [|exact Hck]. intros it H. unfold check_state in H. apply andb_prop in H. destruct H as [_ H]. now apply Nat.eqb_eq in H. }
  destruct (if dN (c_D c) <? dN (c_D next) then _ else _) as [[cs1 seed1]|] eqn:E1; [|discriminate].
  destruct (if c_ncl c <? c_ncl next then _ else _) as [[cs2 seed2]|] eqn:E2; [|discriminate].
  destruct (adjust_length _ cs2) as [cs3|] eqn:E3; [|discriminate]. cbn [option_map] in E. injection E as <- <-.
  fold D in E1, E3. rewrite <- ED in E1.
  assert (HP : Forall (fun it => dN D <= dN D' -> outcome_prob D (snd it) (dropped_channels D (dN D')) [] = 1%R) (co_items cs)).
  { eapply Forall_impl; [|exact HF]. intros it (_ & Hn & _) H. now apply dropped_prob. }
  destruct (optical_stage rnd seed cs (dN (c_D next)) cs1 seed1) as (D1 & N1 & P1 & ND1 & A1 & H1); rewrite ?ED; auto.
  { clear - HF Hlen HL. induction HF as [|it l (W & Hn & _ & Hw) _ IH]; [constructor|]. inversion Hlen; subst. constructor; [|now apply IH].
    split; [exact W|]. split; [exact Hn|]. split; [auto|]. intros Hlt. destruct (Hw (or_introl Hlt)) as [_ Hp].
    specialize (Hp []). rewrite dropped_prob in Hp by (cbn [D' dN]; lia || exact Hn). rewrite Rmult_1_r in Hp. apply Hp.
    rewrite dropped_none by (cbn [D' dN]; lia). destruct (norm_pos_has D (snd it) HL W Hn) as (vs & V & Hin). exists vs. auto. }
  { intros Hlt. destruct (co_items cs) as [|it l] eqn:Eit; [contradiction|]. inversion HF as [|? ? (_ & _ & _ & Hw) _]; subst. apply Hw. now left. }
  { rewrite <- ED. exact E1. }
  assert (HD1 : dN (co_D cs1) = dN D' /\ dL (co_D cs1) = dL D /\ dLeft (co_D cs1) = dLeft D) by (rewrite D1; rewrite ED; auto).
  destruct HD1 as (HDN1 & HDL1 & HDF1). rewrite ED in A1.
  assert (HW0 : Forall (fun it => wf_state D (snd it) /\ state_norm2 (snd it) = 1%R) (co_items cs)) by (eapply Forall_impl; [|exact HF]; cbv beta; tauto).
  assert (Hne1 : co_items cs1 <> []) by (eapply arriving_nonempty; [exact HL|exact Hne|exact HW0|exact A1]).
  assert (HF1 : Forall (fun it => wf_state (co_D cs1) (snd it) /\ state_norm2 (snd it) = 1%R /\ length (s_classical (snd it)) = co_ncl cs1 /\
     (co_ncl cs1 < c_ncl next -> (co_eps cs1 <= s_cum (snd it))%R)) (co_items cs1)).
  { apply Forall_forall. intros it1 Hin. destruct (arriving_in _ _ _ _ _ _ A1 Hin) as (it & o & Hit & Ho & Hc).
    destruct Hc as (_ & _ & _ & C4 & C5 & _ & C7 & C8 & _). split; [exact C7|]. split; [exact C8|].
    split; [rewrite C4, N1; apply resized_length|]. intros Hlt. rewrite C5, P1. rewrite HDN1 in *. rewrite Forall_forall in HF.
    destruct (HF it Hit) as (_ & _ & _ & Hw). apply Hw; [right; lia|exact Ho]. }
  rewrite <- En, <- N1 in E2.
  destruct (classical_stage rnd seed1 cs1 (c_ncl next) cs2 seed2) as (D2 & N2 & P2 & ND2 & A2); auto; try lia.
  { rewrite N1, En, P1. intros Hlt. destruct (co_items cs) as [|it l] eqn:Eit; [contradiction|]. inversion HF as [|? ? (_ & _ & _ & Hw) _]; subst. apply Hw. now right. }
  assert (Hlen0 : Forall (fun it => length (s_classical (snd it)) = co_ncl cs) (co_items cs)) by exact Hlen.
  assert (A12 : arriving D (co_D cs2) (c_ncl next) (co_items cs) (co_items cs2)).
  { rewrite D2. eapply arriving_onward; [exact HL|reflexivity|exact HDL1|exact Hlen0|exact A1|].
    eapply Forall2_impl; [|exact A2]. intros a b [H _]. exact H. }
  assert (HF2 : Forall (fun it => wf_state (co_D cs2) (snd it) /\ forall vs, has (co_D cs2) (snd it) vs -> Forall (fun v => v < dL (c_D next)) vs) (co_items cs2)).
  { apply Forall_forall. intros it2 Hin. destruct (Forall2_in_r_ex _ _ _ it2 A2 Hin) as (it1 & Hin1 & Ho & Hh). rewrite D2. split; [apply Ho|].
    intros vs Hv. destruct (H1 it1 vs Hin1 (Hh vs Hv)) as (it & us & Hit & Hu & ->). rewrite Forall_forall in HF. rewrite ED in Hu.
    destruct (HF it Hit) as (_ & _ & Hf & _). apply (Hf us Hu). }
  destruct (C36_adjust_length (dL (c_D next)) cs2 cs3) as (D3 & N3 & P3 & A3); auto.
  { rewrite D2. lia. }
  assert (ED3 : co_D cs3 = D').
  { rewrite D3, D2. unfold shape_with_length, D'. f_equal; [exact HDN1|exact HDF1]. }
  split; [exact ED3|]. split; [lia|]. split.
  { replace (map fst (co_items cs3)) with (map fst (co_items cs2)); [exact ND2|]. clear - A3. induction A3 as [|x y l l' [H _] _ IH]; [reflexivity|]. cbn [map]. congruence. }
  fold (arriving D D' (c_ncl next) (co_items cs) (co_items cs3)). rewrite <- ED3.
  assert (A13 : Forall2 (fun it it2 => onward (co_D cs1) (co_D cs3) (c_ncl next) (snd it) (snd it2)) (co_items cs1) (co_items cs3)).
  { eapply Forall2_trans; [|exact A2|exact A3]. intros x y z [Hxy _] [_ Hyz]. cbv beta in *.
    pose proof (onward_length _ _ _ _ Hyz) as Hyz'.
    destruct Hxy as (X1 & X2 & X3 & X4 & X5 & X6 & X7 & X8 & X9). destruct Hyz' as (Y1 & Y2 & Y3 & Y4 & Y5 & Y6 & Y7 & Y8 & Y9).
    rewrite D2 in Y8, Y9.
    split; [congruence|]. split; [congruence|]. split; [congruence|]. split; [rewrite Y4, X4, resized_same; reflexivity|].
    split; [congruence|]. split; [exact Y6|]. split; [congruence|]. split.
    - intros vs V V'. rewrite Y8; auto.
    - intros vs V V'. apply Y9; auto. }
  eapply arriving_onward; [exact HL| |exact HDL1|exact Hlen0|exact A1|exact A13]. rewrite ED3. exact HDN1.
Qed.

(** The weights of all states together do not change. *)
Theorem C28_total_weight : forall D D' ncl' (its its' : items),
  1 <= dL D -> Forall (fun it => wf_state D (snd it) /\ state_norm2 (snd it) = 1%R) its ->
  (exists groups, its' = concat groups /\
    Forall2 (fun it g => one_per_outcome D (dropped_channels D (dN D')) (snd it) g
                           (fun o new => carried D D' ncl' o (snd it) (snd new))) its groups) ->
  Rsum its' (fun it => s_cum (snd it)) = Rsum its (fun it => s_cum (snd it)).
Proof.
  intros D D' ncl' its its' HL HF (groups & -> & HG). induction HG as [|it g l l' (os & A & B & HO) _ IH]; [reflexivity|].
  inversion HF as [|? ? [W Hn] HF']; subst. cbn [concat]. rewrite Rsum_app, Rsum_cons, IH by exact HF'. f_equal.
  rewrite <- (Rmult_1_r (s_cum (snd it))). rewrite <- Hn. rewrite <- (possible_total D (dropped_channels D (dN D')) (snd it) os) by auto.
  rewrite <- Rsum_scal_l. clear - HO. induction HO as [|o new os g H _ IH]; [reflexivity|]. rewrite !Rsum_cons, IH. f_equal. apply H.
Qed.

(** A bridge hands the reshaped collection to the next circuit, which is evaluated completely;
    the nodes after the bridge are not executed. *)
Theorem C28_evaluates_next : forall X rnd c k rest next cs seed,
  node_at c k = NBridge next -> Forall (fun i => i < length (c_nodes c)) (k :: rest) ->
  evaluate_from X rnd c (k :: rest) cs seed
  = rbind (of_option (bridge_reshape rnd c next cs seed)) (fun y =>
      evaluate_from X rnd next (seq 0 (length (c_nodes next))) (fst y) (snd y)).
Proof.
  intros X rnd c k rest next cs seed Hk Hr. rewrite evaluate_from_evalR, evalR_unfold.
  replace (forallb (fun i => i <? length (c_nodes c)) (k :: rest)) with true.
  - cbn [negb]. rewrite Hk. destruct (bridge_reshape rnd c next cs seed) as [[cs1 s1]|]; cbn [of_option rbind fst snd]; [|reflexivity].
    now rewrite evaluate_from_evalR.
  - symmetry. apply forallb_forall. rewrite Forall_forall in Hr. intros i Hi. now apply Nat.ltb_lt, Hr.
Qed.

(** The numbers of channels and the Fock length of the next circuit are the same: the collection
    arrives unchanged. *)
Theorem C28_same_sizes : forall rnd c next cs seed,
  co_D cs = c_D c -> co_ncl cs = c_ncl c -> 1 <= dL (c_D c) ->
  dL (c_D next) = dL (c_D c) -> dN (c_D next) = dN (c_D c) -> c_ncl next = c_ncl c ->
  NoDup (map fst (co_items cs)) ->
  Forall (fun it => wf_state (co_D cs) (snd it) /\ check_state (co_eps cs) (co_ncl cs) (snd it) = true) (co_items cs) ->
  bridge_reshape rnd c next cs seed = Some (cs, seed).
Proof.
  intros rnd c next cs seed ED En HL EL EN Ec ND HF. unfold bridge_reshape, copy_collection.
  assert (HCI : copy_items (co_eps cs) (co_ncl cs) (co_items cs) = Some (co_items cs)).
  { apply copy_items_ok. eapply Forall_impl; [|exact HF]. cbv beta. tauto. }
  rewrite HCI. cbn [option_map]. replace (with_items cs (co_items cs)) with cs by now destruct cs.
  rewrite EN, Ec, !Nat.ltb_irrefl. unfold adjust_length. rewrite EL. destruct (Nat.eqb_spec (dL (c_D c)) 0) as [|_]; [lia|].
  assert (HA : forall it, In it (co_items cs) -> option_map (fun s => (fst it, s)) (adjust_state (co_D cs) (co_eps cs) (co_ncl cs) (dL (c_D c)) (snd it)) = Some it).
  { intros it Hin. rewrite Forall_forall in HF. destruct (HF it Hin) as [W Hc]. unfold adjust_state.
    assert (EA : adjust_components (co_D cs) (dL (c_D c)) (s_comps (snd it)) = s_comps (snd it)).
    { unfold adjust_components. replace (adjusted_dims (co_D cs) (dL (c_D c))) with (co_D cs) by (rewrite ED; unfold adjusted_dims; now rewrite dims_eta).
      rewrite (map_ext_in _ (fun x => x)).
      - rewrite map_id. apply (dict_of_nodup leqb leqb_spec). apply W.
      - intros [nm ap] Hin'. cbn [fst snd]. f_equal. rewrite <- ED. destruct (wf_comp_values (co_D cs) (snd it) (nm, ap)) as [V E]; auto; [rewrite ED; exact HL|].
        cbn [fst] in *. rewrite map_mod_small by exact (proj2 V). exact E. }
    rewrite EA. replace (with_comps (snd it) (s_comps (snd it))) with (snd it) by now destruct (snd it).
    unfold make_state. rewrite Hc. cbn [option_map]. now destruct it. }
  rewrite (option_list_all _ (fun it => it)) by exact HA. rewrite map_id. cbn [option_map]. do 2 f_equal.
  rewrite (dict_of_nodup leqb leqb_spec) by exact ND. destruct cs as [D n e its]. cbn in *. unfold adjusted_dims. rewrite <- ED. now rewrite dims_eta.
Qed.

(** ** Compound circuits *)
Lemma node_at_rebuilt c more k : k < length (c_nodes c) -> node_at (rebuilt c more) k = node_at c k.
Proof. intros H. unfold node_at, rebuilt. cbn [c_nodes]. now rewrite app_nth1. Qed.
Lemma count_measure_app l1 l2 : count_measure (l1 ++ l2) = count_measure l1 + count_measure l2.
Proof. unfold count_measure. now rewrite filter_app, app_length. Qed.
Lemma measurement_number_rebuilt c more k : k < length (c_nodes c) -> count_measure more = 0 ->
  measurement_number (c_nodes (rebuilt c more)) k = measurement_number (c_nodes c) k.
Proof.
  intros H H0. unfold measurement_number, rebuilt. cbn [c_nodes]. rewrite count_measure_app, H0, Nat.add_0_r.
  rewrite firstn_app. replace (S k - length (c_nodes c)) with 0 by lia. cbn [firstn]. now rewrite app_nil_r.
Qed.

Lemma optical_prefix_rebuilt c more inds : Forall (fun k => k < length (c_nodes c)) inds ->
  optical_prefix (rebuilt c more) inds = optical_prefix c inds.
Proof.
  induction 1 as [|k r H _ IH]; [reflexivity|]. cbn [optical_prefix]. rewrite node_at_rebuilt by exact H. now rewrite IH.
Qed.
Lemma flat_map_ext_in' {A B} (f g : A -> list B) l : (forall x, In x l -> f x = g x) -> flat_map f l = flat_map g l.
Proof. induction l as [|x l IH]; intros H; [reflexivity|]. cbn [flat_map]. rewrite H by now left. rewrite IH; auto. intros; apply H; now right. Qed.

Lemma eval_rebuilt fuel : forall X rnd c more inds cs seed,
  c_keys c = fresh_keys (c_D c) -> count_measure more = 0 -> Forall (fun k => k < length (c_nodes c)) inds ->
  eval fuel X rnd (rebuilt c more) inds cs seed = eval fuel X rnd c inds cs seed.
Proof.
  induction fuel as [|fuel IH]; intros X rnd c more inds cs seed HK H0 HF; [reflexivity|]. cbn [eval]. destruct inds as [|k r]; [reflexivity|].
  assert (Hb : forall n, length (c_nodes c) <= n -> forallb (fun i => i <? n) (k :: r) = true).
  { intros n Hn. apply forallb_forall. intros i Hi. rewrite Forall_forall in HF. apply Nat.ltb_lt. specialize (HF i Hi). lia. }
  rewrite !Hb; [|lia|cbn [rebuilt c_nodes]; rewrite app_length; lia]. cbn [negb].
  inversion HF as [|? ? Hk HFr]; subst. rewrite node_at_rebuilt by exact Hk.
  assert (Hrest : forall b : bool, Forall (fun k => k < length (c_nodes c)) (if b then [] else r)) by (intros []; [constructor|exact HFr]).
  assert (HO : run_optical (rebuilt c more) (optical_prefix c (k :: r)) cs = run_optical c (optical_prefix c (k :: r)) cs).
  {
    assert (EF : flat_map (fun k0 => onode_of (node_at (rebuilt c more) k0)) (optical_prefix c (k :: r))
               = flat_map (fun k0 => onode_of (node_at c k0)) (optical_prefix c (k :: r))).
    { apply flat_map_ext_in'. intros j Hj. rewrite node_at_rebuilt; [reflexivity|]. rewrite Forall_forall in HF. apply HF.
      destruct (optical_prefix_app c (k :: r)) as [rest Er]. rewrite Er. apply in_or_app. now left. }
    unfold run_optical. rewrite EF, HK. reflexivity. }
  assert (HR : run_node X rnd (rebuilt c more) k cs seed = run_node X rnd c k cs seed).
  { unfold run_node. rewrite node_at_rebuilt by exact Hk. destruct (node_at c k); try reflexivity.
    - destruct (all_have _ _); [reflexivity|]. destruct (all_have _ _); [reflexivity|]. unfold measure_items.
      rewrite measurement_number_rebuilt by auto. reflexivity.
    - unfold controlled_items. cbn [rebuilt c_D c_ncl c_eps c_full c_keys]. rewrite HK. reflexivity. }
  rewrite optical_prefix_rebuilt by exact HF. rewrite HR, HO.
  destruct (node_at c k) eqn:Ek; try (destruct (run_node X rnd c k cs seed) as [[cs1 s1]|]; [now apply IH|reflexivity]).
  - destruct (run_optical c _ cs) as [cs1|]; [|reflexivity]. apply IH; auto.
    destruct (list_max (k :: r) <=? _); [constructor|]. apply Forall_forall. intros j Hj. rewrite Forall_forall in HF. apply HF.
    rewrite <- (firstn_skipn (length (optical_prefix c (k :: r))) (k :: r)). apply in_or_app. now right.
  - reflexivity.
Qed.

Lemma linked_shape c rest : c_D (linked c rest) = c_D c /\ c_ncl (linked c rest) = c_ncl c.
Proof. destruct rest; split; reflexivity. Qed.
Lemma bridge_reshape_linked rnd c c' r cs seed :
  bridge_reshape rnd c (linked c' r) cs seed = bridge_reshape rnd c c' cs seed.
Proof. unfold bridge_reshape. destruct (linked_shape c' r) as [-> ->]. reflexivity. Qed.
Lemma bridge_reshape_rebuilt rnd c more c' cs seed :
  bridge_reshape rnd (rebuilt c more) c' cs seed = bridge_reshape rnd c c' cs seed.
Proof. reflexivity. Qed.

Lemma evaluate_rebuilt X rnd c more inds cs seed :
  c_keys c = fresh_keys (c_D c) -> count_measure more = 0 -> Forall (fun k => k < length (c_nodes c)) inds ->
  evaluate_from X rnd (rebuilt c more) inds cs seed = evaluate_from X rnd c inds cs seed.
Proof.
  intros HK H0 HF. rewrite !evaluate_from_evalR.
  set (m := S (length inds) + bridge_sizes (c_nodes c) + bridge_sizes (c_nodes (rebuilt c more))).
  rewrite <- (eval_enough m), <- (eval_enough m X rnd c) by (unfold m; lia). now apply eval_rebuilt.
Qed.

(** A compound circuit evaluates its circuits in turn and reshapes the collection at every
    border. *)
Theorem C28_compound : forall X rnd c rest cs seed,
  Forall (fun c1 => c_keys c1 = fresh_keys (c_D c1) /\ Forall (fun nd => is_bridge nd = false) (c_nodes c1)) (c :: rest) ->
  evaluate_compound X rnd (c :: rest) cs seed = in_turn X rnd c rest cs seed.
Proof.
  intros X rnd c rest. revert c. induction rest as [|c' r IH]; intros c cs seed HF; inversion HF as [|? ? [HK HB] HF']; subst.
  - cbn [evaluate_compound linked in_turn]. cbv zeta. rewrite evaluate_rebuilt; auto.
    + cbn [rebuilt c_nodes]. rewrite app_nil_r. destruct (evaluate_from _ _ _ _ _ _); reflexivity.
    + cbn [rebuilt c_nodes]. rewrite app_nil_r. apply Forall_forall. intros k Hk. apply in_seq in Hk. lia.
  - cbn [evaluate_compound linked in_turn]. cbv zeta. set (next := linked c' r). set (c1 := rebuilt c [NBridge next]).
    assert (Elen : length (c_nodes c1) = length (c_nodes c) + 1) by (unfold c1, rebuilt; cbn [c_nodes]; now rewrite app_length).
    rewrite Elen, seq_app. cbn [Nat.add seq].
    assert (Hnode : node_at c1 (length (c_nodes c)) = NBridge next).
    { unfold node_at, c1, rebuilt. cbn [c_nodes]. rewrite app_nth2 by lia. now rewrite Nat.sub_diag. }
    rewrite C19_two_calls.
    + unfold c1 at 1. rewrite evaluate_rebuilt; auto.
      2:{ apply Forall_forall. intros k Hk. apply in_seq in Hk. lia. }
      destruct (evaluate_from X rnd c _ cs seed) as [[cs1 s1]| |]; cbn [rbind fst snd]; try reflexivity.
      rewrite (C28_evaluates_next X rnd c1 (length (c_nodes c)) [] next); [|exact Hnode|constructor; [lia|constructor]].
      unfold c1. rewrite bridge_reshape_rebuilt. unfold next. rewrite bridge_reshape_linked.
      destruct (bridge_reshape rnd c c' cs1 s1) as [[cs2 s2]|]; cbn [of_option rbind fst snd]; [|reflexivity].
      rewrite <- (IH c' cs2 s2 HF'). reflexivity.
    + change (seq 0 (length (c_nodes c)) ++ [length (c_nodes c)]) with (seq 0 (length (c_nodes c)) ++ seq (0 + length (c_nodes c)) 1).
      rewrite <- seq_app. apply seq_sorted.
    + intros k Hk. apply in_app_or in Hk. destruct Hk as [Hk|[<-|[]]]; [apply in_seq in Hk|]; lia.
    + intros k Hk. apply in_seq in Hk. unfold c1. rewrite node_at_rebuilt by lia. rewrite Forall_forall in HB. apply HB. apply node_at_in. lia.
    + unfold cut_ok. right. right. rewrite Hnode. reflexivity.
Qed.

(** The collections handed over are valid collections of the common shape. *)
Fixpoint handed_over (X : externals) (rnd : nat -> nat) (P : coll -> Prop) (c : circuit) (rest : list circuit) (cs : coll) (seed : nat) : Prop :=
  match rest with
  | [] => True
  | c' :: r => forall cs1 s1, evaluate_from X rnd c (seq 0 (length (c_nodes c))) cs seed = Ok (cs1, s1) ->
                 P cs1 /\ handed_over X rnd P c' r cs1 s1
  end.

(** Circuits of equal sizes: the compound circuit is plain sequential evaluation. *)
Theorem C28_sequential : forall X rnd c rest cs seed,
  Forall (fun c1 => c_keys c1 = fresh_keys (c_D c1) /\ Forall (fun nd => is_bridge nd = false) (c_nodes c1)) (c :: rest) ->
  1 <= dL (c_D c) -> Forall (fun c1 => c_D c1 = c_D c /\ c_ncl c1 = c_ncl c) rest ->
  handed_over X rnd (fun cs1 => co_D cs1 = c_D c /\ co_ncl cs1 = c_ncl c /\ NoDup (map fst (co_items cs1)) /\
     Forall (fun it => wf_state (co_D cs1) (snd it) /\ check_state (co_eps cs1) (co_ncl cs1) (snd it) = true) (co_items cs1)) c rest cs seed ->
  evaluate_compound X rnd (c :: rest) cs seed = one_after_other X rnd c rest cs seed.
Proof.
  intros X rnd c rest cs seed HF HL HS HO. rewrite C28_compound by exact HF. clear HF.
  assert (G : forall rest c0 cs seed, c_D c0 = c_D c -> c_ncl c0 = c_ncl c -> Forall (fun c1 => c_D c1 = c_D c /\ c_ncl c1 = c_ncl c) rest ->
    handed_over X rnd (fun cs1 => co_D cs1 = c_D c /\ co_ncl cs1 = c_ncl c /\ NoDup (map fst (co_items cs1)) /\
     Forall (fun it => wf_state (co_D cs1) (snd it) /\ check_state (co_eps cs1) (co_ncl cs1) (snd it) = true) (co_items cs1)) c0 rest cs seed ->
    in_turn X rnd c0 rest cs seed = one_after_other X rnd c0 rest cs seed); [|now apply G].
  clear rest cs seed HS HO. induction rest as [|c' r IH]; intros c0 cs seed E1 E2 HS HO; [reflexivity|].
  inversion HS as [|? ? [E3 E4] HS']; subst. cbn [in_turn one_after_other].
  destruct (evaluate_from X rnd c0 _ cs seed) as [[cs1 s1]| |] eqn:Ev; cbn [rbind fst snd]; try reflexivity.
  cbn [handed_over] in HO. destruct (HO cs1 s1 Ev) as [(A1 & A2 & A3 & A4) HO'].
  rewrite C28_same_sizes; auto; try congruence; try (rewrite E1; exact HL).
  cbn [of_option rbind fst snd]. now apply IH.
Qed.

(** ** What bridges do not do *)

(** The next circuit writes channel 0 on the other side: it reads the photon numbers of the
    arriving states in reverse order. Here channel 0 holds one photon; measuring channel 0 in the
    next circuit gives 0. *)
Definition right_to_left : circuit := Circuit (Dims 2 2 false) 1 0 false (fresh_keys (Dims 2 2 false)) [NMeasure [0] [0]].
Definition left_to_right (next : circuit) : circuit := Circuit (Dims 2 2 true) 1 0 false (fresh_keys (Dims 2 2 true)) [NBridge next].
Definition one_zero : state := State [120] 1 [([1;0], (RtoC 1, 1%R))] [5%R] [] [].
Definition one_zero_input : coll := Coll (Dims 2 2 true) 1 0 [([97], one_zero)].

Lemma one_zero_wf D : D = Dims 2 2 true \/ D = Dims 2 2 false -> wf_state D one_zero.
Proof.
  intros HD. unfold one_zero. split; cbn [s_comps map fst snd].
  - repeat constructor. intros [].
  - intros nm [<-|[]]. destruct HD as [-> | ->]; [exists [1;0]|exists [0;1]]; (split; [|reflexivity]); split; repeat constructor.
Qed.
Lemma one_zero_check : check_state 0 1 one_zero = true.
Proof.
  unfold check_state, one_zero, Rltb. cbn [s_cum s_comps s_classical forallb snd length Nat.eqb].
  repeat (destruct (Rlt_dec _ _); [exfalso; lra|]). reflexivity.
Qed.
Lemma one_zero_measured :
  perform_measurement (Dims 2 2 false) 1 0 [0] [0] one_zero
  = Some [State [120] 1 [([1;0], (RtoC 1, 1%R))] [0%R] [([0%R], 1%R)] []].
Proof.
  unfold perform_measurement. change (map (fun c => (values_of_name (Dims 2 2 false) (fst c), fst (snd c))) (s_comps one_zero)) with [([0;1], RtoC 1)].
  change (group_by leqb (fun m : values * C => outcome_of [0] (fst m)) [([0; 1], RtoC 1)]) with [([0], [([0;1], RtoC 1)])].
  cbn [map fst snd]. unfold collapsed_state.
  cbv zeta. unfold Rsum. cbn [fold_right snd].
  assert (Ht : (Cnorm2 (RtoC 1) + 0)%R = 1%R) by (rewrite Cnorm2_RtoC; lra).
  rewrite !Ht. destruct (Req_EM_T 1 0) as [H|_]; [lra|].
  assert (Hc : copy_state 0 1 one_zero = Some one_zero).
  { unfold copy_state, make_state. now rewrite one_zero_check. }
  rewrite Hc. change (s_cum one_zero) with 1%R. unfold set_cumulative.
  destruct (Rle_dec 0 (1 * 1)) as [_|H]; [|exfalso; lra]. destruct (Rle_dec (1 * 1) 1) as [_|H]; [|exfalso; lra].
  cbn [option_list map with_cum s_init s_cum s_comps s_classical s_results s_aux one_zero app fst snd].
  change (name_string (Dims 2 2 false) [0;1]) with [1;0].
  cbn [write_classical combine fold_left fst snd set_nth dict_of dset INR].
  rewrite sqrt_1. replace (RtoC 1 / RtoC 1)%C with (RtoC 1) by (unfold Cdiv; rewrite <- RtoC_inv by lra; rewrite <- RtoC_mult; f_equal; field).
  rewrite Cnorm2_RtoC, !Rmult_1_r. reflexivity.
Qed.

Theorem C28_channel_order_refuted : exists X rnd c next cs cs' i st i' st',
  c_nodes c = [NBridge next] /\ c_nodes next = [NMeasure [0] [0]] /\
  dL (c_D next) = dL (c_D c) /\ dN (c_D next) = dN (c_D c) /\ c_ncl next = c_ncl c /\
  co_items cs = [(i, st)] /\ wf_items (c_D c) (co_items cs) /\ amp_of (c_D c) st [1;0] = RtoC 1 /\ state_norm2 st = 1%R /\
  evaluate_circuit X rnd c cs = Ok cs' /\ co_items cs' = [(i', st')] /\ s_classical st' = [0%R].
Proof.
  exists (Externals (fun _ _ _ => None) (fun _ _ _ => None)), (fun _ => 0), (left_to_right right_to_left), right_to_left, one_zero_input.
  eexists. exists [97], one_zero. do 2 eexists.
  do 6 (split; [reflexivity|]). split.
  { split; [repeat constructor; intros []|]. constructor; [|constructor]. split; [apply one_zero_wf; now left|discriminate]. }
  split; [reflexivity|]. split; [unfold state_norm2, Rsum; cbn [s_comps one_zero fold_right fst snd]; rewrite Cnorm2_RtoC; lra|].
  unfold evaluate_circuit, evaluate_nodes. cbn [left_to_right c_nodes length seq].
  rewrite (C28_evaluates_next _ _ _ 0 [] right_to_left); [|reflexivity|repeat constructor].
  rewrite C28_same_sizes; try reflexivity; [|cbn; lia|repeat constructor; intros []|].
  2:{ constructor; [|constructor]. split; [apply one_zero_wf; now left|apply one_zero_check]. }
  cbn [of_option rbind fst snd right_to_left c_nodes length seq].
  assert (E : measure_items right_to_left 0 [0] [0] (co_items one_zero_input)
     = Some [(measured_identifier [97] [49] 0, State [120] 1 [([1;0], (RtoC 1, 1%R))] [0%R] [([0%R], 1%R)] [])]).
  { unfold measure_items, one_zero_input. cbn [co_items fold_left snd fst].
    change (c_D right_to_left) with (Dims 2 2 false). change (c_ncl right_to_left) with 1. change (c_eps right_to_left) with 0%R.
    rewrite one_zero_measured. reflexivity. }
  split.
  - rewrite evaluate_from_evalR, evalR_unfold. cbn [forallb right_to_left c_nodes length Nat.ltb Nat.leb andb negb].
    change (node_at right_to_left 0) with (NMeasure [0] [0]). cbv iota.
    change (node_at (Circuit (Dims 2 2 false) 1 0 false (fresh_keys (Dims 2 2 false)) [NMeasure [0] [0]]) 0) with (NMeasure [0] [0]). cbv iota.
    unfold run_node. fold right_to_left. change (node_at right_to_left 0) with (NMeasure [0] [0]). cbv iota.
    change (all_have AuxPhotonResolution (co_items one_zero_input)) with false.
    change (all_have AuxPopescuRohrlich (co_items one_zero_input)) with false. cbv iota.
    rewrite E. cbn [option_map]. cbn [list_max Nat.leb fold_right Nat.max]. rewrite evalR_unfold. reflexivity.
  - split; reflexivity.
Qed.

(** The next circuit has no classical channels: all classical channels are kept. *)
Definition no_classical : circuit := Circuit (Dims 2 2 true) 0 0 false (fresh_keys (Dims 2 2 true)) [].
Theorem C28_no_classical_refuted : exists rnd c next cs cs' seed',
  co_D cs = c_D c /\ co_ncl cs = c_ncl c /\ dL (c_D next) = dL (c_D c) /\ dN (c_D next) = dN (c_D c) /\ c_ncl next = 0 /\
  wf_items (c_D c) (co_items cs) /\ bridge_reshape rnd c next cs 0 = Some (cs', seed') /\
  co_ncl cs' = c_ncl c /\ c_ncl c = 1 /\ map (fun it => s_classical (snd it)) (co_items cs') = [[5%R]].
Proof.
  exists (fun _ => 0), (left_to_right no_classical), no_classical, one_zero_input. do 2 eexists.
  do 5 (split; [reflexivity|]). split.
  { split; [repeat constructor; intros []|]. constructor; [|constructor]. split; [apply one_zero_wf; now left|discriminate]. }
  assert (ER : reduced_state 0 [0] one_zero [([1;0], (RtoC 1, 1%R))] = Some one_zero).
  { unfold reduced_state. unfold Rsum. cbn [fold_right fst snd]. cbv zeta.
    replace (Cnorm2 (RtoC 1) + 0)%R with 1%R by (rewrite Cnorm2_RtoC; lra). destruct (Req_EM_T 1 0) as [H|_]; [lra|].
    replace (1 / 1)%R with 1%R by field. rewrite sqrt_1. cbn [map fst snd]. replace (RtoC 1 * RtoC 1)%C with (RtoC 1) by (rewrite <- RtoC_mult; f_equal; ring).
    replace (Cnorm2 (RtoC 1)) with 1%R by (rewrite Cnorm2_RtoC; ring). cbn [s_init s_cum one_zero s_classical nth s_results s_aux length].
    replace (1 * 1)%R with 1%R by ring. change (make_state 0 1 one_zero = Some one_zero). unfold make_state. now rewrite one_zero_check. }
  assert (EC : copy_collection one_zero_input = Some one_zero_input).
  { unfold copy_collection, one_zero_input. cbn [co_eps co_ncl co_items].
    rewrite copy_items_ok; [reflexivity|]. constructor; [apply one_zero_check|constructor]. }
  assert (EM : make_state 0 1 one_zero = Some one_zero) by (unfold make_state; now rewrite one_zero_check).
  split.
  - unfold bridge_reshape. rewrite EC. cbv zeta. change (dN (c_D (left_to_right no_classical)) <? dN (c_D no_classical)) with false.
    change (dN (c_D no_classical) <? dN (c_D (left_to_right no_classical))) with false. cbv iota.
    change (c_ncl (left_to_right no_classical) <? c_ncl no_classical) with false. change (c_ncl no_classical <? c_ncl (left_to_right no_classical)) with true. cbv iota.
    assert (ERd : reduce [] (seq 0 (c_ncl no_classical)) one_zero_input = Some (Coll (Dims 2 2 true) 1 0 [([97], one_zero)])).
    { unfold reduce. cbv zeta. cbn [c_ncl no_classical seq co_D one_zero_input dN co_ncl forallb Nat.ltb Nat.leb andb length co_items map co_eps].
      unfold reduce_state at 1. cbn [snd fst].
      change (reduce_groups (Dims 2 2 true) [0;1] one_zero) with [(@nil nat, [([1;0], (RtoC 1, 1%R))])]. cbn [map snd fst].
      rewrite ER. reflexivity. }
    rewrite ERd. cbn [option_map]. unfold adjust_length. cbn [no_classical c_D dL Nat.eqb co_items map snd fst co_D co_eps co_ncl].
    unfold adjust_state. change (with_comps one_zero (adjust_components (Dims 2 2 true) 2 (s_comps one_zero))) with one_zero.
    rewrite EM. reflexivity.
  - do 2 (split; [reflexivity|]). reflexivity.
Qed.

(** A non-trivial case of [C28_reshape]: from two channels, length 2 and one classical channel to
    three channels, length 3 and two classical channels. *)
Definition larger : circuit := Circuit (Dims 3 3 true) 2 (/10) false (fresh_keys (Dims 3 3 true)) [].
Definition smaller : circuit := Circuit (Dims 2 2 true) 1 (/10) false (fresh_keys (Dims 2 2 true)) [NBridge larger].
Definition one_zero_eps : coll := Coll (Dims 2 2 true) 1 (/10) [([97], one_zero)].
Lemma check_ok ncl cum comps cl r a : (/10 <= cum <= 1)%R -> length cl = ncl -> Forall (fun c => snd (snd c) = 1%R) comps ->
  check_state (/10) ncl (State [120] cum comps cl r a) = true.
Proof.
  intros H1 H2 H3. unfold check_state, Rltb. cbn [s_cum s_comps s_classical]. rewrite (proj2 (Nat.eqb_eq _ _) H2).
  repeat (destruct (Rlt_dec _ _); [exfalso; lra|]). cbn [andb negb orb]. rewrite andb_true_r.
  apply forallb_forall. rewrite Forall_forall in H3. intros c Hc. rewrite (H3 c Hc).
  repeat (destruct (Rlt_dec _ _); [exfalso; lra|]). reflexivity.
Qed.
Example C28_case : forall rnd, exists cs' seed' st',
  bridge_reshape rnd smaller larger one_zero_eps 0 = Some (cs', seed') /\ map snd (co_items cs') = [st'] /\
  co_D cs' = Dims 3 3 true /\ amp_of (Dims 3 3 true) st' [1;0;0] = RtoC 1 /\ s_classical st' = [5%R; 0%R] /\
  (dN (c_D smaller) < dN (c_D larger) /\ c_ncl smaller < c_ncl larger) /\
  Forall (fun it => wf_state (c_D smaller) (snd it) /\ state_norm2 (snd it) = 1%R /\ (0 < co_eps one_zero_eps <= s_cum (snd it))%R) (co_items one_zero_eps).
Proof.
  intros rnd.
  assert (EC : copy_collection one_zero_eps = Some one_zero_eps).
  { unfold copy_collection, one_zero_eps. cbn [co_eps co_ncl co_items].
    rewrite copy_items_ok; [reflexivity|]. constructor; [apply check_ok; [lra|reflexivity|repeat constructor]|constructor]. }
  set (s1 := State [120] (1 * (1 * 1)) [([1;0;0], (RtoC 1, 1%R))] [5%R] [] []).
  set (s2 := State [120] (1 * (1 * 1) * 1) [([1;0;0], (RtoC 1, 1%R))] [5%R; 0%R] [] []).
  assert (M1 : make_state (/10) 1 s1 = Some s1) by (unfold make_state, s1; rewrite check_ok; [reflexivity|lra|reflexivity|repeat constructor]).
  assert (M2 : make_state (/10) 2 s2 = Some s2) by (unfold make_state, s2; rewrite check_ok; [reflexivity|lra|reflexivity|repeat constructor]).
  assert (X1 : extend rnd 0 1 0 [] one_zero_eps = Some (Coll (Dims 2 3 true) 1 (/10) (fst (add_state_random rnd 0 s1 [])), snd (add_state_random rnd 0 s1 []))).
  { unfold extend. cbn [dN c_D larger smaller Nat.sub co_D one_zero_eps dL default_distribution seq map Nat.eqb andb extra_values extra_step flat_map nth fst snd app list_prod co_items fold_left co_eps co_ncl Nat.add].
    assert (S1 : extend_step (Dims 2 2 true) (/10) 1 0 rnd (Some ([], 0)) ((1 * 1)%R, [0], one_zero) = Some (add_state_random rnd 0 s1 [])).
    { unfold extend_step. cbn [fst snd]. change (extended_state (Dims 2 2 true) (1 * 1) [0] 0 one_zero) with s1. cbv zeta. rewrite M1.
      destruct (Rle_dec (/10) (s_cum s1)) as [_|H]; [reflexivity|exfalso; unfold s1 in H; cbn [s_cum] in H; lra]. }
    match goal with |- context [extend_step ?a ?b ?c ?d ?e (Some ?f) ?g] => replace (extend_step a b c d e (Some f) g) with (Some (add_state_random rnd 0 s1 [])) by (symmetry; exact S1) end. destruct (add_state_random rnd 0 s1 []) as [its sd]. unfold extend_step. cbn [fst snd]. cbv zeta. cbn [extended_state s_cum one_zero].
    destruct (Rle_dec (/10) (1 * (0 * 1))) as [H|_]; [exfalso; lra|]. reflexivity. }
  assert (A1 : exists i sd, add_state_random rnd 0 s1 [] = ([(i, s1)], sd)) by (do 2 eexists; reflexivity).
  destruct A1 as (i & sd & A1). rewrite A1 in X1. cbn [fst snd] in X1.
  assert (A2 : exists i sd', add_state_random rnd sd s2 [] = ([(i, s2)], sd')) by (do 2 eexists; reflexivity).
  destruct A2 as (i' & sd' & A2).
  assert (X2 : extend rnd sd 0 1 [] (Coll (Dims 2 3 true) 1 (/10) [(i, s1)]) = Some (Coll (Dims 2 3 true) 2 (/10) [(i', s2)], sd')).
  { unfold extend. cbn [dN Nat.sub co_D dL default_distribution seq map Nat.eqb andb extra_values extra_step flat_map nth fst snd app list_prod co_items fold_left co_eps co_ncl Nat.add].
    unfold extend_step. cbn [fst snd]. change (extended_state (Dims 2 3 true) 1 [] 1 s1) with s2. cbv zeta. rewrite M2, A2.
    destruct (Rle_dec (/10) (s_cum s2)) as [_|H]; [reflexivity|exfalso; unfold s2 in H; cbn [s_cum] in H; lra]. }
  exists (Coll (Dims 3 3 true) 2 (/10) [(i', s2)]), sd', s2. split.
  - unfold bridge_reshape. rewrite EC. cbv zeta. change (dN (c_D smaller) <? dN (c_D larger)) with true. cbv iota.
    change (c_ncl smaller <? c_ncl larger) with true. cbv iota.
    change (dN (c_D larger) - dN (c_D smaller)) with 1. change (c_ncl larger - c_ncl smaller) with 1. rewrite X1, X2.
    unfold adjust_length. cbn [larger c_D dL Nat.eqb co_items map snd fst co_D co_eps co_ncl]. unfold adjust_state.
    change (with_comps s2 (adjust_components (Dims 2 3 true) 3 (s_comps s2))) with s2. rewrite M2. reflexivity.
  - split; [reflexivity|]. split; [reflexivity|]. split; [reflexivity|]. split; [reflexivity|]. split; [cbn; lia|].
    constructor; [|constructor]. split; [apply one_zero_wf; now left|]. split; [unfold state_norm2, Rsum; cbn [snd s_comps one_zero fold_right fst]; rewrite Cnorm2_RtoC; lra|].
    cbn [snd one_zero_eps co_eps one_zero s_cum]. lra.
Qed.
