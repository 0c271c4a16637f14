(** C71: what a whole compound circuit computes. *)
From Coq Require Import Reals List Arith Lia Lra Bool Permutation.
From Coquelicot Require Import Complex.
From Verif Require Import Prelude NamesModel NamesSpec NamesProofs FockModel FockSpec FockProofs StateModel StateSpec StateProofs
  CollectionModel EvalModel EvalSpec EvalProofs MeasureSpec MeasureProofs PropEval ReshapeSpec ReshapeProofs PropReshape CompoundModel BridgeSpec PropBridge
  OpticalModel InterferenceSpec ArrangementProofs CircuitSpec CircuitProofs EnsembleProofs PropCircuit ProgramModel ProgramSpec PropProgram ApplicationSpec SparseProofs CompoundSpec CompoundProofs.
Import ListNotations.

(** ** One branch across a border *)
Lemma readout_skipn n vs : readout (seq n (length vs - n)) vs = skipn n vs.
Proof.
  unfold readout. revert vs. induction n as [|n IH]; intros vs.
  - cbn [skipn]. rewrite Nat.sub_0_r. induction vs as [|v vs IH]; [reflexivity|]. cbn [length seq map nth]. f_equal. rewrite <- seq_shift, map_map. exact IH.
  - destruct vs as [|v vs]; [reflexivity|]. cbn [length Nat.sub skipn]. rewrite <- seq_shift, map_map. apply IH.
Qed.
Lemma Forall_firstn' {A} (P : A -> Prop) n l : Forall P l -> Forall P (firstn n l).
Proof. intro H. rewrite <- (firstn_skipn n l) in H. apply Forall_app in H. tauto. Qed.
Lemma Forall_skipn' {A} (P : A -> Prop) n l : Forall P l -> Forall P (skipn n l).
Proof. intro H. rewrite <- (firstn_skipn n l) in H. apply Forall_app in H. tauto. Qed.
Lemma forallb_lt L l : forallb (fun v => v <? L) l = true <-> Forall (fun v => v < L) l.
Proof. rewrite forallb_forall, Forall_forall. split; intros H x Hx; apply Nat.ltb_lt; auto. Qed.
Lemma forallb_zero l : forallb (fun v => v =? 0) l = true <-> l = repeat 0 (length l).
Proof.
  induction l as [|x l IH]; cbn [forallb length repeat]; [tauto|]. rewrite andb_true_iff, IH, Nat.eqb_eq. split; [intros [-> H]; now f_equal|intro H; injection H; auto].
Qed.

Lemma Rsum_zero_each {A} (l : list A) (f : A -> R) : (forall x, In x l -> (0 <= f x)%R) -> Rsum l f = 0%R -> forall x, In x l -> f x = 0%R.
Proof.
  intros Hp Hz x Hx. apply Rle_antisym; [|now apply Hp]. rewrite <- Hz. clear Hz. induction l as [|y l IH]; [destruct Hx|]. rewrite Rsum_cons. pose proof (Hp y (or_introl eq_refl)) as Hy.
  destruct Hx as [->|Hx].
  - assert (H : (0 <= Rsum l f)%R) by (apply Rsum_nonneg; intros; apply Hp; now right). lra.
  - specialize (IH (fun z Hz => Hp z (or_intror Hz)) Hx). lra.
Qed.

Section Border.
Variables (D D' : dims).
Hypothesis HL : 1 <= dL D.
Lemma dropped_readout vs : valid D vs -> readout (dropped_channels D (dN D')) vs = skipn (dN D') vs.
Proof. clear HL. intros [Hl _]. unfold dropped_channels. rewrite <- Hl. apply readout_skipn. Qed.
Lemma back_valid g o : valid D' g -> length o = dN D - dN D' -> Forall (fun v => v < dL D) o -> Forall (fun v => v < dL D) (firstn (dN D) g) -> valid D (firstn (dN D) g ++ o).
Proof. clear HL. intros [Hg _] Ho Hf Hf2. split; [rewrite app_length, firstn_length; lia|]. now apply Forall_app. Qed.
Lemma back_readout g o : valid D' g -> length o = dN D - dN D' -> skipn (dN D') (firstn (dN D) g ++ o) = o.
Proof.
  clear HL.
  intros [Hg _] Ho. destruct (Nat.le_gt_cases (dN D) (dN D')) as [H|H].
  - replace o with (@nil nat) by (destruct o; [reflexivity|cbn in Ho; lia]). rewrite app_nil_r. apply skipn_all2. rewrite firstn_length. lia.
  - rewrite firstn_all2 by lia. rewrite skipn_app, skipn_all2 by lia. rewrite Hg, Nat.sub_diag. reflexivity.
Qed.
Lemma back_carried g o : valid D' g -> length o = dN D - dN D' -> forallb (fun v => v =? 0) (skipn (dN D) g) = true -> carried_values (dN D') (firstn (dN D) g ++ o) = g.
Proof.
  clear HL.
  intros [Hg _] Ho Hz. unfold carried_values. destruct (Nat.le_gt_cases (dN D) (dN D')) as [H|H].
  - replace o with (@nil nat) by (destruct o; [reflexivity|cbn in Ho; lia]). rewrite app_nil_r. rewrite firstn_all2 by (rewrite firstn_length; lia).
    rewrite firstn_length. apply forallb_zero in Hz. rewrite skipn_length in Hz. replace (dN D' - min (dN D) (length g)) with (length g - dN D) by lia. rewrite <- Hz. apply firstn_skipn.
  - rewrite (firstn_all2 g) by lia. rewrite app_length. replace (dN D' - (length g + length o)) with 0 by lia. rewrite app_nil_r, firstn_app, <- Hg, firstn_all, Nat.sub_diag. apply app_nil_r.
Qed.
Lemma carried_zero vs : valid D vs -> forallb (fun v => v =? 0) (skipn (dN D) (carried_values (dN D') vs)) = true.
Proof.
  clear HL.
  intros [Hl _]. unfold carried_values. destruct (Nat.le_gt_cases (dN D) (dN D')) as [H|H].
  - rewrite firstn_all2 by lia. rewrite skipn_app, skipn_all2 by lia. rewrite Hl, Nat.sub_diag. cbn [skipn app]. apply forallb_zero. now rewrite repeat_length.
  - rewrite skipn_all2; [reflexivity|]. rewrite app_length, firstn_length, repeat_length. lia.
Qed.
Lemma carried_small vs : valid D vs -> Forall (fun v => v < dL D) (firstn (dN D) (carried_values (dN D') vs)).
Proof.
  intros [Hl Hf]. apply Forall_firstn'. unfold carried_values. apply Forall_app. split; [now apply Forall_firstn'|]. apply Forall_forall. intros x Hx. apply repeat_spec in Hx. subst. exact HL.
Qed.
Lemma possible_tuple st o : possible D st (dropped_channels D (dN D')) o -> In o (tuples (dL D) (dN D - dN D')).
Proof.
  clear HL.
  intros (vs & V & _ & <-). rewrite dropped_readout by exact V. apply tuples_in. split; [rewrite skipn_length, (proj1 V); reflexivity|]. apply Forall_skipn', V.
Qed.
Lemma rep_moved ncl ncl' st s b o : 1 <= dL D' -> rep D ncl st b -> possible D st (dropped_channels D (dN D')) o -> carried D D' ncl' o st s -> proper_state D' ncl' s ->
  rep D' ncl' s (moved D ncl' o b).
Proof.
  intros HL' (Hp & Hlab & Hreg & Hw) Hpos (C1 & C2 & C3 & C4 & C5 & C6 & C7 & C8 & C9 & C10) Hp'.
  split; [exact Hp'|]. split; [cbn; congruence|]. split; [cbn; congruence|]. intros g Vg. cbn [moved b_wave]. apply possible_tuple in Hpos. apply tuples_in in Hpos. destruct Hpos as [Ho1 Ho2].
  destruct (forallb (fun v => v =? 0) (skipn (dN D) g) && forallb (fun v => v <? dL D) (firstn (dN D) g)) eqn:E.
  - apply andb_prop in E. destruct E as [E1 E2]. apply forallb_lt in E2. pose proof (back_valid g o Vg Ho1 Ho2 E2) as V. rewrite (Hw _ V).
    pose proof (back_carried g o Vg Ho1 E1) as Ec. rewrite <- Ec at 2. rewrite C9; [|exact V|rewrite dropped_readout by exact V; now apply back_readout|rewrite Ec; apply Vg].
    rewrite C5. destruct Hp as (_ & _ & _ & Hcum & _). rewrite sqrt_mult by lra. rewrite RtoC_mult. field. intro E0. apply RtoC_inj in E0. pose proof (sqrt_lt_R0 _ C6). lra.
  - rewrite C10; [ring|exact Vg|]. intros vs V _ ->. rewrite (carried_zero vs V) in E. cbn [andb] in E. rewrite (proj2 (forallb_lt _ _) (carried_small vs V)) in E. discriminate.
Qed.
Lemma moved_impossible ncl st b o ncl' : rep D ncl st b -> In o (tuples (dL D) (dN D - dN D')) -> ~ possible D st (dropped_channels D (dN D')) o -> weight D' (moved D ncl' o b) = 0%R.
Proof.
  clear HL.
  intros (Hp & _ & _ & Hw) Ho Hn. apply tuples_in in Ho. destruct Ho as [Ho1 Ho2]. unfold weight. apply Rsum_zero. intros g Hg. apply basis_in in Hg. cbn [moved b_wave].
  destruct (_ && _) eqn:E; [|rewrite Cnorm2_RtoC; ring]. apply andb_prop in E. destruct E as [_ E2]. apply forallb_lt in E2. pose proof (back_valid g o Hg Ho1 Ho2 E2) as V. rewrite (Hw _ V).
  replace (amp_of D st (firstn (dN D) g ++ o)) with (RtoC 0); [rewrite Cmult_0_r, Cnorm2_RtoC; ring|]. unfold amp_of, amplitude. destruct (dget leqb (name_string D (firstn (dN D) g ++ o)) (s_comps st)) as [[a p]|] eqn:Ea; [|reflexivity].
  exfalso. apply Hn. exists (firstn (dN D) g ++ o). split; [exact V|]. split; [apply (dget_some_in leqb leqb_spec) in Ea; apply in_map_iff; now exists (name_string D (firstn (dN D) g ++ o), (a, p))|rewrite dropped_readout by exact V; now apply back_readout].
Qed.
Lemma moved_zero ncl' o b : weight D b = 0%R -> In o (tuples (dL D) (dN D - dN D')) -> weight D' (moved D ncl' o b) = 0%R.
Proof.
  clear HL.
  intros Hz Ho. apply tuples_in in Ho. destruct Ho as [Ho1 Ho2]. assert (Hz' : forall f, valid D f -> Cnorm2 (b_wave b f) = 0%R).
  { intros f Vf. unfold weight in Hz. exact (Rsum_zero_each _ _ (fun x _ => Cnorm2_nonneg _) Hz f (proj2 (basis_in D f) Vf)). }
  unfold weight. apply Rsum_zero. intros g Hg. apply basis_in in Hg. cbn [moved b_wave].
  destruct (_ && _) eqn:E; [|rewrite Cnorm2_RtoC; ring]. apply andb_prop in E. destruct E as [_ E2]. apply forallb_lt in E2. apply Hz'. now apply back_valid.
Qed.
Lemma handed_zero ncl' b b' : weight D b = 0%R -> In b' (handed_on D D' ncl' b) -> weight D' b' = 0%R.
Proof. clear HL. intros Hz Hin. apply in_map_iff in Hin. destruct Hin as (o & <- & Ho). now apply moved_zero. Qed.
Lemma handed_perm ncl ncl' st b os (news : items) : 1 <= dL D' -> rep D ncl st b -> NoDup os -> (forall o, In o os <-> possible D st (dropped_channels D (dN D')) o) ->
  Forall2 (fun o new => carried D D' ncl' o st (snd new)) os news -> Forall (fun it => proper_state D' ncl' (snd it)) news ->
  Forall2 (rep D' ncl') (map snd news) (map (fun o => moved D ncl' o b) os) /\
  Permutation (map (fun o => moved D ncl' o b) os) (filter (nonzero D') (handed_on D D' ncl' b)).
Proof.
  intros HL' Hr ND Hos HF HP.
  assert (G : forall os0 (news0 : items), (forall o, In o os0 -> possible D st (dropped_channels D (dN D')) o) -> Forall2 (fun o new => carried D D' ncl' o st (snd new)) os0 news0 -> Forall (fun it => proper_state D' ncl' (snd it)) news0 ->
    Forall2 (rep D' ncl') (map snd news0) (map (fun o => moved D ncl' o b) os0)).
  { clear - HL HL' Hr. intros os0 news0 Hos HF. induction HF as [|o new l m H HF IH]; intro HP; [constructor|]. cbn [map]. inversion HP; subst. constructor; [|apply IH; [intros; apply Hos; now right|assumption]].
    eapply rep_moved; eauto. apply Hos. now left. }
  pose proof (G os news (fun o H => proj1 (Hos o) H) HF HP) as H2. split; [exact H2|].
  unfold handed_on. rewrite filter_map_comm. apply Permutation_map. apply NoDup_Permutation; [exact ND|apply NoDup_filter, tuples_nodup|].
  intro o. rewrite filter_In. split.
  - intro Ho. split; [apply (possible_tuple st), Hos, Ho|]. assert (Hx : exists s, rep D' ncl' s (moved D ncl' o b)).
    { clear - H2 Ho. revert H2 Ho. generalize (map (@snd ident state) news). induction os as [|o1 os IH]; intros l H2 Ho; [destruct Ho|]. cbn [map] in H2. inversion H2; subst. destruct Ho as [->|Ho]; [eauto|]. eapply IH; eauto. }
    destruct Hx as (s & Hs). eapply rep_nonzero; eauto.
  - intros [Ho Hnz]. apply Hos. apply (possible_prob D ncl); [exact HL|apply Hr|]. intro H0. assert (H : ~ possible D st (dropped_channels D (dN D')) o) by (rewrite (possible_prob D ncl) by (try exact HL; apply Hr); tauto). rewrite (nonzero_false D' (moved D ncl' o b)) in Hnz; [discriminate|]. now apply (moved_impossible ncl st).
Qed.
End Border.

(** ** All stages *)
Lemma run_stages_app s rest : forall E1 E2, run_stages s rest (E1 ++ E2) = run_stages s rest E1 ++ run_stages s rest E2.
Proof.
  revert s. induction rest as [|s' r IH]; intros s E1 E2; cbn [run_stages]; rewrite run_app_list; [reflexivity|]. now rewrite flat_map_app, IH.
Qed.
Lemma run_stages_perm s rest : forall E E', Permutation E E' -> Permutation (run_stages s rest E) (run_stages s rest E').
Proof.
  revert s. induction rest as [|s' r IH]; intros s E E' H; cbn [run_stages]; [now apply run_perm|]. apply IH. apply Permutation_flat_map. now apply run_perm.
Qed.
Lemma last_cons s s' r : last_stage s (s' :: r) = last_stage s' r.
Proof. unfold last_stage. destruct r as [|x r]; [reflexivity|]. cbn [last]. revert x. induction r as [|y r IH]; intro x; [reflexivity|]. cbn [last]. apply IH. Qed.
Lemma run_stages_zero s rest : forall E, (forall b, In b E -> weight (st_D s) b = 0%R) -> forall b, In b (run_stages s rest E) -> weight (st_D (last_stage s rest)) b = 0%R.
Proof.
  revert s. induction rest as [|s' r IH]; intros s E HE b Hb; cbn [run_stages] in Hb.
  - exact (run_zero _ _ E HE b Hb).
  - rewrite last_cons.
    apply (IH s' (flat_map (handed_on (st_D s) (st_D s') (st_ncl s')) (run (st_D s) (st_ops s) E))); [|exact Hb].
    intros b1 H1. apply in_flat_map in H1. destruct H1 as (b0 & H0 & H1). eapply handed_zero; [|exact H1]. exact (run_zero _ _ E HE b0 H0).
Qed.
Lemma run_stages_filter s rest E : filter (nonzero (st_D (last_stage s rest))) (run_stages s rest (filter (nonzero (st_D s)) E)) = filter (nonzero (st_D (last_stage s rest))) (run_stages s rest E).
Proof.
  induction E as [|b E IH]; [reflexivity|]. cbn [filter]. rewrite (run_stages_app s rest [b] E : run_stages s rest (b :: E) = _). rewrite filter_app, <- IH.
  destruct (nonzero (st_D s) b) eqn:Eb.
  - rewrite (run_stages_app s rest [b] (filter (nonzero (st_D s)) E) : run_stages s rest (b :: filter (nonzero (st_D s)) E) = _). now rewrite filter_app.
  - rewrite (filter_none _ (run_stages s rest [b])); [reflexivity|]. intros x Hx. apply nonzero_false. apply (run_stages_zero s rest [b]); [|exact Hx]. intros y [<-|[]]. unfold nonzero in Eb. destruct (Req_EM_T (weight (st_D s) b) 0); [assumption|discriminate].
Qed.
Lemma filter_flat_zero D D' ncl' E : filter (nonzero D') (flat_map (handed_on D D' ncl') (filter (nonzero D) E)) = filter (nonzero D') (flat_map (handed_on D D' ncl') E).
Proof.
  induction E as [|b E IH]; [reflexivity|]. cbn [filter flat_map]. rewrite filter_app, <- IH. destruct (nonzero D b) eqn:Eb; [cbn [flat_map]; now rewrite filter_app|].
  rewrite (filter_none _ (handed_on D D' ncl' b)); [reflexivity|]. intros x Hx. apply nonzero_false. eapply handed_zero; [|exact Hx]. unfold nonzero in Eb. destruct (Req_EM_T (weight D b) 0); [assumption|discriminate].
Qed.

(** ** Thresholds *)
Definition heavy (D : dims) (eps : R) (E : list branch) : Prop := forall b, In b E -> weight D b = 0%R \/ (eps <= weight D b)%R.
Lemma weight_nonneg D b : (0 <= weight D b)%R.
Proof. apply Rsum_nonneg. intros. apply Cnorm2_nonneg. Qed.
Lemma heavy_exists D E : exists e, (0 < e)%R /\ forall eps, (eps <= e)%R -> heavy D eps E.
Proof.
  induction E as [|b E (e & He & H)]; [exists 1%R; split; [lra|intros eps _ b []]|]. destruct (Req_EM_T (weight D b) 0) as [Hz|Hz].
  - exists e. split; [exact He|]. intros eps Hle b' [<-|Hb]; [now left|now apply (H eps)].
  - exists (Rmin e (weight D b)). pose proof (weight_nonneg D b). split; [apply Rmin_glb_lt; lra|]. intros eps Hle b' [<-|Hb]; [right; eapply Rle_trans; [exact Hle|apply Rmin_r]|]. apply (H eps); [eapply Rle_trans; [exact Hle|apply Rmin_l]|exact Hb].
Qed.
Fixpoint clear_stages (eps : R) (s : stage) (rest : list stage) (E : list branch) : Prop :=
  clear_throughout (st_D s) eps (st_ops s) E /\
  match rest with
  | [] => True
  | s' :: r => let E1 := run (st_D s) (st_ops s) E in
      heavy (st_D s) eps (flat_map (perform (st_D s) (Detect (dropped_channels (st_D s) (dN (st_D s'))) [])) E1) /\
      clear_stages eps s' r (flat_map (handed_on (st_D s) (st_D s') (st_ncl s')) E1)
  end.
Lemma clear_stages_exists s rest : forall E, exists e, (0 < e)%R /\ forall eps, (eps <= e)%R -> clear_stages eps s rest E.
Proof.
  revert s. induction rest as [|s' r IH]; intros s E; destruct (clear_throughout_exists (st_D s) (st_ops s) E) as (e1 & He1 & H1); cbn [clear_stages].
  - exists e1. split; [exact He1|]. intros eps Hle. split; [now apply H1|exact I].
  - cbv zeta. destruct (heavy_exists (st_D s) (flat_map (perform (st_D s) (Detect (dropped_channels (st_D s) (dN (st_D s'))) [])) (run (st_D s) (st_ops s) E))) as (e2 & He2 & H2).
    destruct (IH s' (flat_map (handed_on (st_D s) (st_D s') (st_ncl s')) (run (st_D s) (st_ops s) E))) as (e3 & He3 & H3).
    exists (Rmin e1 (Rmin e2 e3)). split; [repeat apply Rmin_glb_lt; assumption|]. intros eps Hle. pose proof (Rmin_l e1 (Rmin e2 e3)). pose proof (Rmin_r e1 (Rmin e2 e3)). pose proof (Rmin_l e2 e3). pose proof (Rmin_r e2 e3).
    split; [apply H1; lra|]. split; [apply H2; lra|apply H3; lra].
Qed.
Lemma incl_flat {A B} (f : A -> list B) l l' : incl l l' -> incl (flat_map f l) (flat_map f l').
Proof. intros H b Hb. apply in_flat_map in Hb. destruct Hb as (a & Ha & Hb). apply in_flat_map. exists a. auto. Qed.
Lemma clear_stages_incl eps s rest : forall E E', incl E E' -> clear_stages eps s rest E' -> clear_stages eps s rest E.
Proof.
  revert s. induction rest as [|s' r IH]; intros s E E' HI [H1 H2]; (split; [intro n; apply (clear_incl _ _ _ _ (run_incl _ _ _ _ HI) (H1 n))|]); [exact I|]. destruct H2 as [H2 H3]. cbv zeta.
  split; [intros b Hb; apply H2; revert b Hb; apply incl_flat, run_incl, HI|]. eapply IH; [|exact H3]. apply incl_flat, run_incl, HI.
Qed.
Lemma fits_incl s rest : forall E E', incl E E' -> fits s rest E' -> fits s rest E.
Proof.
  revert s. induction rest as [|s' r IH]; intros s E E' HI; cbn [fits]; [trivial|]. intros [H1 H2]. split; [intros b f Hb; apply H1, (run_incl _ _ _ _ HI), Hb|]. eapply IH; [|exact H2]. apply incl_flat, run_incl, HI.
Qed.

(** ** One border *)
Lemma cross_border rnd eps s s' its bs seed : good_stage s -> good_stage s' -> dLeft (st_D s') = dLeft (st_D s) -> (st_ncl s' = 0 -> st_ncl s = 0) -> (0 < eps)%R ->
  tracks (st_D s) (st_ncl s) its bs ->
  (forall b f, In b bs -> valid (st_D s) f -> b_wave b f <> RtoC 0 -> Forall (fun v => v < dL (st_D s')) (firstn (dN (st_D s')) f)) ->
  heavy (st_D s) eps (flat_map (perform (st_D s) (Detect (dropped_channels (st_D s) (dN (st_D s'))) [])) bs) ->
  exists its' bs' seed', bridge_reshape rnd (circuit_of eps s) (circuit_of eps s') (coll_of (circuit_of eps s) its) seed = Some (coll_of (circuit_of eps s') its', seed') /\
    tracks (st_D s') (st_ncl s') its' bs' /\ Permutation bs' (filter (nonzero (st_D s')) (flat_map (handed_on (st_D s) (st_D s') (st_ncl s')) bs)).
Proof.
  intros (HL & HN & _) (HL' & HN' & _) HLe Hcl He Ht Hfit Hheavy. set (D := st_D s) in *. set (D' := st_D s') in *.
  assert (ED' : Dims (dL D') (dN D') (dLeft D) = D') by (rewrite <- HLe; now destruct D').
  pose proof (tracks_proper D _ its bs Ht) as Hpr. pose proof Ht as (Hne & ND & HR).
  assert (HRi : forall it, In it its -> exists b, In b bs /\ rep D (st_ncl s) (snd it) b).
  { clear - HR. apply (proj1 (Forall2_map_l _ _ _ _)) in HR. intros it Hit. induction HR as [|x y l m H HR IH]; [destruct Hit|]. destruct Hit as [->|Hit]; [exists y; split; [now left|exact H]|]. destruct (IH Hit) as (b & Hb & Hr). exists b. split; [now right|exact Hr]. }
  destruct (bridge_proper rnd (circuit_of eps s) (circuit_of eps s') (coll_of (circuit_of eps s) its) seed) as (cs' & seed' & EB & B1 & B2 & B3 & B4 & B5 & B6 & B7);
    cbn [circuit_of c_D c_ncl coll_of co_D co_ncl co_eps co_items dL dN c_eps]; fold D; fold D'; rewrite ?ED'; auto; try lia.
  { apply Forall_forall. intros it Hit. apply Hpr. exact Hit. }
  { apply Forall_forall. intros it Hit. destruct (HRi it Hit) as (b & Hb & Hr). pose proof (Hpr it Hit) as Hp. split.
    - intros vs Hv. unfold carried_values. apply Forall_app. split.
      + apply (Hfit b vs Hb (proj1 Hv)). destruct Hr as (_ & _ & _ & Hw). rewrite (Hw vs (proj1 Hv)). apply Cmult_neq_0.
        * intro E0. apply RtoC_inj in E0. destruct Hp as (_ & _ & _ & Hcum & _). pose proof (sqrt_lt_R0 (s_cum (snd it))). lra.
        * apply clean_has; [apply Hp|exact (proj1 (proj2 Hp))|exact Hv].
      + apply Forall_forall. intros x Hx. apply repeat_spec in Hx. lia.
    - intros o Ho.
      assert (Hin : In (reading (dropped_channels D (dN D')) [] o b) (flat_map (perform D (Detect (dropped_channels D (dN D')) [])) bs)).
      { apply in_flat_map. exists b. split; [exact Hb|]. cbn [perform]. apply in_map_iff. exists o. split; [reflexivity|]. apply (outcome_reading D _ (snd it)); [exact HL|apply Hp|exact Ho]. }
      pose proof (rep_reading_weight D (st_ncl s) (snd it) b (dropped_channels D (dN D')) [] o HL Hr) as HW.
      destruct (Hheavy _ Hin) as [Hz|Hz]; [|now rewrite HW in Hz]. exfalso. rewrite HW in Hz. destruct Hp as (W & Hc & Hn & Hcum & _). apply Rmult_integral in Hz. destruct Hz as [Hz|Hz]; [lra|].
      revert Hz. apply (possible_prob D (st_ncl s)); [exact HL|now apply Hpr|exact Ho]. }
  destruct cs' as [Dc nc ec its']. cbn [co_D co_ncl co_eps co_items] in *. subst Dc nc ec. cbn [circuit_of c_D c_ncl dL dN] in *. fold D in ED', B4, B7, EB. fold D' in B4, B7, EB. rewrite ED' in *.
  destruct B7 as (groups & EG & HG). change (co_items (coll_of (circuit_of eps s) its)) with its in HG.
  assert (X : exists bss, Forall2 (fun g bs1 => Forall2 (rep D' (st_ncl s')) (map snd g) bs1) groups bss /\ Forall2 (fun b bs1 => Permutation bs1 (filter (nonzero D') (handed_on D D' (st_ncl s') b))) bs bss).
  { apply (proj1 (Forall2_map_l _ _ _ _)) in HR. unfold all_proper in B4. cbn [co_items co_D co_ncl] in B4. rewrite EG in B4. clear - HR HG B4 HL HL'. revert bs HR B4. induction HG as [|it g l gs (os & ND & Hos & HO) HG IH]; intros bs HR B4; inversion HR as [|? b ? bs0 Hr HR0]; subst.
    - exists []. split; constructor.
    - cbn [concat] in B4. apply Forall_app in B4. destruct B4 as [B4a B4b]. destruct (IH bs0 HR0 B4b) as (bss & X1 & X2). destruct (handed_perm D D' HL (st_ncl s) (st_ncl s') (snd it) b os g HL' Hr ND Hos HO B4a) as [Y1 Y2].
      exists (map (fun o => moved D (st_ncl s') o b) os :: bss). split; constructor; assumption. }
  destruct X as (bss & X1 & X2). exists its', (concat bss), seed'. split; [exact EB|]. split.
  - split; [exact B6|]. split; [exact B5|]. rewrite EG, concat_map. apply Forall2_concat. apply (proj2 (Forall2_map_l _ _ _ _)). exact X1.
  - clear - X2. induction X2 as [|b bs1 l m H HF IH]; [constructor|]. cbn [flat_map concat]. rewrite filter_app. now apply Permutation_app.
Qed.

Lemma compound_tracks X rnd eps s rest : forall its bs seed, (0 < eps)%R -> Forall good_stage (s :: rest) -> compatible s rest -> tracks (st_D s) (st_ncl s) its bs ->
  fits s rest bs -> clear_stages eps s rest bs ->
  exists its' bs' seed', in_turn X rnd (circuit_of eps s) (map (circuit_of eps) rest) (coll_of (circuit_of eps s) its) seed = Ok (coll_of (circuit_of eps (last_stage s rest)) its', seed') /\
    tracks (st_D (last_stage s rest)) (st_ncl (last_stage s rest)) its' bs' /\
    Permutation bs' (filter (nonzero (st_D (last_stage s rest))) (run_stages s rest bs)).
Proof.
  revert s. induction rest as [|s' r IH]; intros s its bs seed He HG HC Ht Hf Hcl; inversion HG as [|? ? (HL & HN & HM) HG']; subst; destruct Hcl as [Hcl Hcl'].
  - destruct (eval_tracks (st_D s) (st_ncl s) eps (st_full s) (st_nodes s) X rnd HL HN He (st_ops s) HM (length (st_nodes s)) (length (st_nodes s)) 0 its bs seed (le_n _) eq_refl Ht Hcl) as (its' & bs' & seed' & E & Ht' & HPm).
    exists its', bs', seed'. cbn [in_turn map]. rewrite evaluate_from_evalR. split; [|split; [exact Ht'|exact HPm]]. cbn [circuit_of c_nodes]. unfold circuit_of. rewrite E. reflexivity.
  - destruct (eval_tracks (st_D s) (st_ncl s) eps (st_full s) (st_nodes s) X rnd HL HN He (st_ops s) HM (length (st_nodes s)) (length (st_nodes s)) 0 its bs seed (le_n _) eq_refl Ht Hcl) as (its1 & bs1 & seed1 & E & Ht1 & HPm1).
    cbn [skipn] in HPm1. assert (HI1 : incl bs1 (run (st_D s) (st_ops s) bs)) by (intros b Hb; apply (Permutation_in _ HPm1) in Hb; apply filter_In in Hb; apply Hb).
    destruct HC as (HC1 & HC2 & HC3). destruct Hf as [Hf1 Hf2]. destruct Hcl' as [Hh Hc2]. cbv zeta in *.
    destruct (cross_border rnd eps s s' its1 bs1 seed1) as (its2 & bs2 & seed2 & EB & Ht2 & HPm2); auto.
    { now inversion HG. }
    { now inversion HG'. }
    { intros b f Hb. apply Hf1. now apply HI1. }
    { intros b Hb. apply Hh. revert b Hb. apply incl_flat. exact HI1. }
    assert (HI2 : incl bs2 (flat_map (handed_on (st_D s) (st_D s') (st_ncl s')) (run (st_D s) (st_ops s) bs))).
    { intros b Hb. apply (Permutation_in _ HPm2) in Hb. apply filter_In in Hb. destruct Hb as [Hb _]. revert b Hb. apply incl_flat. exact HI1. }
    destruct (IH s' its2 bs2 seed2 He HG' HC3 Ht2 (fits_incl _ _ _ _ HI2 Hf2) (clear_stages_incl _ _ _ _ _ HI2 Hc2)) as (its3 & bs3 & seed3 & E3 & Ht3 & HPm3).
    rewrite last_cons. exists its3, bs3, seed3. split; [|split; [exact Ht3|]].
    + cbn [in_turn map]. rewrite evaluate_from_evalR. cbn [circuit_of c_nodes]. unfold circuit_of at 1 2. rewrite E. cbn [rbind fst snd]. fold (circuit_of eps s). rewrite EB. cbn [of_option rbind fst snd]. exact E3.
    + etransitivity; [exact HPm3|]. cbn [run_stages]. etransitivity; [apply filter_perm, run_stages_perm; exact HPm2|]. rewrite run_stages_filter.
      etransitivity; [apply filter_perm, run_stages_perm, Permutation_flat_map; exact HPm1|].
      rewrite <- run_stages_filter, filter_flat_zero, run_stages_filter. reflexivity.
Qed.

(** Any number of circuits of any sizes, linked by bridges: the states of the result are exactly the
    branches of non-zero weight that the operations of the circuits produce one after the other, with
    the channels a circuit does not have traced out and those the previous circuit did not have empty. *)
Theorem C71_compound : forall s rest its X rnd, Forall good_stage (s :: rest) -> compatible s rest ->
  proper_items (st_D s) (st_ncl s) its -> fits s rest (branches_of (st_D s) its) ->
  exists eps0, (0 < eps0)%R /\ forall eps, (0 < eps <= eps0)%R ->
  exists its' seed', let c' := circuit_of eps (last_stage s rest) in
    evaluate_compound X rnd (map (circuit_of eps) (s :: rest)) (coll_of (circuit_of eps s) its) 0 = Ok (coll_of c' its', seed') /\
    proper_items (c_D c') (c_ncl c') its' /\
    same_branches (c_D c') (branches_of (c_D c') its') (filter (nonzero (c_D c')) (run_stages s rest (branches_of (st_D s) its))).
Proof.
  intros s rest its X rnd HG HC Hp Hf. destruct (clear_stages_exists s rest (branches_of (st_D s) its)) as (e & He & H). exists e. split; [exact He|]. intros eps [H1 H2].
  destruct (compound_tracks X rnd eps s rest its (branches_of (st_D s) its) 0 H1 HG HC (proper_tracks _ _ _ Hp) Hf (H eps H2)) as (its' & bs' & seed' & E & Ht & HPm).
  exists its', seed'. cbv zeta. split; [|split].
  - cbn [map]. rewrite C28_compound; [exact E|]. change (circuit_of eps s :: map (circuit_of eps) rest) with (map (circuit_of eps) (s :: rest)). apply Forall_forall. intros c Hc. apply in_map_iff in Hc. destruct Hc as (t & <- & Ht0).
    split; [reflexivity|]. cbn [circuit_of c_nodes]. rewrite Forall_forall in HG. destruct (HG t Ht0) as (_ & _ & HM). clear - HM. induction HM as [|nd op l m H HM IH]; constructor; [exact (means_not_bridge _ _ nd op H)|exact IH].
  - exact (tracks_items _ _ its' bs' Ht).
  - exists bs'. split; [exact HPm|]. destruct Ht as (_ & _ & HF). unfold branches_of. cbn [circuit_of c_D]. apply (proj1 (Forall2_map_l _ _ _ _)) in HF. clear - HF. induction HF as [|it b l m (Q1 & Q2 & Q3 & Q4) HF IH]; [constructor|]. cbn [map].
    constructor; [|exact IH]. split; [exact Q2|]. split; [exact Q3|]. intros f Vf. cbn. symmetry. now apply Q4.
Qed.

(** ** Weights *)
Lemma handed_weight D D' ncl' b : 1 <= dL D -> 1 <= dL D' ->
  (forall f, valid D f -> b_wave b f <> RtoC 0 -> Forall (fun v => v < dL D') (firstn (dN D') f)) ->
  Rsum (handed_on D D' ncl' b) (weight D') = weight D b.
Proof.
  intros HL HL' Hfit. unfold handed_on. rewrite Rsum_map.
  set (cond := fun g : values => forallb (fun v => v =? 0) (skipn (dN D) g) && forallb (fun v => v <? dL D) (firstn (dN D) g)).
  transitivity (Rsum (tuples (dL D) (dN D - dN D')) (fun o => Rsum (basis D') (fun g => Rsum (basis D) (fun f => if cond g && leqb f (firstn (dN D) g ++ o) then Cnorm2 (b_wave b f) else 0%R)))).
  { apply Rsum_ext. intros o Ho. apply tuples_in in Ho. destruct Ho as [Ho1 Ho2]. unfold weight. apply Rsum_ext. intros g Hg. apply basis_in in Hg. cbn [moved b_wave]. fold (cond g). destruct (cond g) eqn:Ec.
    - unfold cond in Ec. apply andb_prop in Ec. destruct Ec as [_ E2]. apply forallb_lt in E2. pose proof (back_valid D D' g o Hg Ho1 Ho2 E2) as V.
      rewrite (Rsum_single _ (firstn (dN D) g ++ o)); [cbn [andb]; now rewrite leqb_refl|apply basis_nodup|now apply basis_in|]. intros f _ Hn. cbn [andb]. destruct (leqb f _) eqn:E; [apply leqb_spec in E; contradiction|reflexivity].
    - cbn [andb]. rewrite Rsum_zero by reflexivity. rewrite Cnorm2_RtoC. ring. }
  transitivity (Rsum (tuples (dL D) (dN D - dN D')) (fun o => Rsum (basis D) (fun f => Rsum (basis D') (fun g => if cond g && leqb f (firstn (dN D) g ++ o) then Cnorm2 (b_wave b f) else 0%R)))).
  { apply Rsum_ext. intros o _. apply Rsum_swap. }
  rewrite Rsum_swap. unfold weight. apply Rsum_ext. intros f Hf. apply basis_in in Hf. destruct (Ceq_dec (b_wave b f) (RtoC 0)) as [Ez|Ez].
  - rewrite Ez, Cnorm2_RtoC. replace (0 * 0)%R with 0%R by ring. apply Rsum_zero. intros o _. apply Rsum_zero. intros g _. now destruct (_ && _).
  - specialize (Hfit f Hf Ez). destruct Hf as [Hl HF].
    assert (Vg : valid D' (carried_values (dN D') f)).
    { unfold carried_values. split; [rewrite app_length, firstn_length, repeat_length; lia|]. apply Forall_app. split; [exact Hfit|]. apply Forall_forall. intros x Hx. apply repeat_spec in Hx. lia. }
    assert (Ec : cond (carried_values (dN D') f) = true).
    { unfold cond. rewrite (carried_zero D D' f (conj Hl HF)). cbn [andb]. apply forallb_lt. apply carried_small; [exact HL|split; assumption]. }
    assert (Eb : firstn (dN D) (carried_values (dN D') f) ++ skipn (dN D') f = f).
    { unfold carried_values. destruct (Nat.le_gt_cases (dN D) (dN D')) as [H|H].
      - rewrite skipn_all2 by lia. rewrite app_nil_r, (firstn_all2 f) by lia. rewrite firstn_app, <- Hl, firstn_all, Nat.sub_diag. apply app_nil_r.
      - replace (dN D' - length f) with 0 by lia. rewrite app_nil_r, firstn_all2 by (rewrite firstn_length; lia). apply firstn_skipn. }
    rewrite (Rsum_single _ (skipn (dN D') f)).
    + rewrite (Rsum_single _ (carried_values (dN D') f)).
      * rewrite Ec, Eb, leqb_refl. reflexivity.
      * apply basis_nodup.
      * now apply basis_in.
      * intros g Hg Hn. apply basis_in in Hg. destruct (cond g) eqn:Ecg; [|reflexivity]. cbn [andb]. destruct (leqb f _) eqn:E; [|reflexivity]. apply leqb_spec in E. exfalso. apply Hn. rewrite E at 1.
        unfold cond in Ecg. apply andb_prop in Ecg. symmetry. apply back_carried; [exact Hg|rewrite skipn_length; lia|apply Ecg].
    + apply tuples_nodup.
    + apply tuples_in. split; [rewrite skipn_length; lia|now apply Forall_skipn'].
    + intros o Ho Hn. apply tuples_in in Ho. apply Rsum_zero. intros g Hg. apply basis_in in Hg. destruct (cond g); [|reflexivity]. cbn [andb]. destruct (leqb f _) eqn:E; [|reflexivity]. apply leqb_spec in E. exfalso. apply Hn. rewrite E. symmetry. apply (back_readout D D'); [exact Hg|apply Ho].
Qed.
Definition label_weight (D : dims) (l : ident) (E : list branch) : R := Rsum E (fun b => if leqb (b_label b) l then weight D b else 0%R).
Lemma label_weight_expect D l E : expect D E (trace_of (fun l' _ => leqb l' l)) = RtoC (label_weight D l E).
Proof. unfold expect, label_weight. rewrite <- Csum_RtoC. apply Csum_ext. intros b _. rewrite expect1_trace. now destruct (leqb _ _). Qed.
Lemma label_weight_stages l s rest : forall E, Forall good_stage (s :: rest) -> registers (st_ncl s) E -> fits s rest E ->
  label_weight (st_D (last_stage s rest)) l (run_stages s rest E) = label_weight (st_D s) l E.
Proof.
  revert s. induction rest as [|s' r IH]; intros s E HG HR Hf; inversion HG as [|? ? (HL & HN & HM) HG']; subst; cbn [run_stages].
  - unfold last_stage. cbn [last]. apply RtoC_inj. rewrite <- !label_weight_expect. apply (run_label _ (st_ncl s)); [eapply means_all; eauto|exact HR].
  - rewrite last_cons. destruct Hf as [Hf1 Hf2]. rewrite IH; [|exact HG'| |exact Hf2].
    + transitivity (label_weight (st_D s) l (run (st_D s) (st_ops s) E)).
      * inversion HG' as [|? ? (HL' & HN' & _) _]; subst. unfold label_weight. rewrite Rsum_flat_map. apply Rsum_ext. intros b Hb. unfold handed_on at 1. rewrite Rsum_map. cbn [moved b_label].
        destruct (leqb (b_label b) l); [|now apply Rsum_zero]. rewrite <- (handed_weight (st_D s) (st_D s') (st_ncl s') b HL HL'); [unfold handed_on; now rewrite Rsum_map|]. intros f Vf Hnz. now apply (Hf1 b).
      * apply RtoC_inj. rewrite <- !label_weight_expect. apply (run_label _ (st_ncl s)); [eapply means_all; eauto|exact HR].
    + intros b Hb. apply in_flat_map in Hb. destruct Hb as (b0 & _ & Hb). apply in_map_iff in Hb. destruct Hb as (o & <- & _). cbn [moved b_reg]. apply resized_length.
Qed.
(** The total weight of the states that come from an input state is the same after the last circuit. *)
Theorem C71_weights : forall s rest its X rnd, Forall good_stage (s :: rest) -> compatible s rest ->
  proper_items (st_D s) (st_ncl s) its -> fits s rest (branches_of (st_D s) its) ->
  exists eps0, (0 < eps0)%R /\ forall eps, (0 < eps <= eps0)%R ->
  exists its' seed', let c' := circuit_of eps (last_stage s rest) in
    evaluate_compound X rnd (map (circuit_of eps) (s :: rest)) (coll_of (circuit_of eps s) its) 0 = Ok (coll_of c' its', seed') /\
    forall l, weight_of_label its' l = weight_of_label its l.
Proof.
  intros s rest its X rnd HG HC Hp Hf. destruct (C71_compound s rest its X rnd HG HC Hp Hf) as (e & He & H). exists e. split; [exact He|]. intros eps Hle. destruct (H eps Hle) as (its' & seed' & E & Hp' & HB).
  exists its', seed'. cbv zeta in *. split; [exact E|]. intro l. cbn [circuit_of c_D c_ncl] in *. 
  assert (G : forall s its, good_stage s -> proper_items (st_D s) (st_ncl s) its -> weight_of_label its l = label_weight (st_D s) l (branches_of (st_D s) its)).
  { clear. intros s its (HL & _) (_ & _ & HF). unfold weight_of_label, label_weight, branches_of. rewrite Rsum_map. apply Rsum_ext. intros it Hit. rewrite Forall_forall in HF. rewrite (branch_weight _ (st_ncl s)) by auto. reflexivity. }
  assert (HGl : good_stage (last_stage s rest)).
  { clear - HG. revert s HG. induction rest as [|s' r IH]; intros s HG; inversion HG; subst; [assumption|]. rewrite last_cons. now apply IH. }
  rewrite (G (last_stage s rest) its' HGl Hp'). rewrite (G s its) by (try exact Hp; now inversion HG). rewrite <- (label_weight_stages l s rest) by (try assumption; now apply (proper_registers (st_D s))).
  apply RtoC_inj. rewrite <- !label_weight_expect. apply same_ensemble_expect. now apply same_branches_ensemble.
Qed.

(** ** A case: a photon in channel 1 of a circuit with three channels meets a 50/50 beam splitter; the next
    circuit has a smaller length, only two channels and one classical channel more, and detects. *)
Definition program_stage (D : dims) (ncl : nat) (full : bool) (p : list instruction) (nodes : list node) : stage := Stage D ncl full nodes (flat_map (meaning D) p).
Lemma program_good D ncl full p nodes : 1 <= dL D -> 2 <= dN D -> program_nodes D ncl p = Some nodes -> Forall (careful D ncl) p -> good_stage (program_stage D ncl full p nodes).
Proof. intros HL HN E HF. split; [exact HL|]. split; [exact HN|]. cbn [st_D st_ncl st_nodes st_ops program_stage]. now apply program_means. Qed.
Definition first_D : dims := Dims 3 3 true.
Definition second_D : dims := Dims 2 2 true.
Definition photon : state := State [120] 1 [([0;1;0], (RtoC 1, 1%R))] [5%R] [] [].
Lemma photon_amp f : valid first_D f -> amp_of first_D photon f = wave_of [([0;1;0], RtoC 1)] f.
Proof.
  intros [Hl Hf]. unfold amp_of, amplitude, photon, wave_of. cbn [s_comps]. destruct f as [|a [|b [|c [|d f]]]]; try discriminate Hl. inversion Hf as [|? ? Ha Hf1]; subst. inversion Hf1 as [|? ? Hb Hf2]; subst. inversion Hf2 as [|? ? Hc _]; subst. cbn in Ha, Hb, Hc.
  destruct a as [|[|[|]]]; try (exfalso; lia); destruct b as [|[|[|]]]; try (exfalso; lia); destruct c as [|[|[|]]]; try (exfalso; lia); cbn; unfold Csum; cbn; try reflexivity; apply C_eq; cbn; ring.
Qed.
Example C71_case : exists n1 n2, 
  let s1 := program_stage first_D 1 false [Optics (Mix_50_50 1 2)] n1 in let s2 := program_stage second_D 2 false [Detectors [0; 1] [0; 1]] n2 in
  length n1 = 1 /\ length n2 = 1 /\ Forall good_stage [s1; s2] /\ compatible s1 [s2] /\ proper_items first_D 1 [([97], photon)] /\ fits s1 [s2] (branches_of first_D [([97], photon)]).
Proof.
  assert (B1 : exists n1, program_nodes first_D 1 [Optics (Mix_50_50 1 2)] = Some n1 /\ length n1 = 1) by (eexists; split; [vm_compute; reflexivity|reflexivity]). destruct B1 as (n1 & E1 & L1).
  assert (B2 : exists n2, program_nodes second_D 2 [Detectors [0; 1] [0; 1]] = Some n2 /\ length n2 = 1) by (eexists; split; [vm_compute; reflexivity|reflexivity]). destruct B2 as (n2 & E2 & L2).
  exists n1, n2. cbv zeta. split; [exact L1|]. split; [exact L2|]. split.
  { apply Forall_cons; [|apply Forall_cons; [|apply Forall_nil]]; apply program_good; cbn [first_D second_D dL dN]; try lia; try assumption; repeat (apply Forall_cons || apply Forall_nil); cbn; repeat split; repeat constructor; cbn; intuition (try lia; try discriminate). }
  split; [split; [reflexivity|split; [discriminate|exact I]]|]. split.
  { assert (H1 : Cnorm2 (RtoC 1) = 1%R) by (unfold Cnorm2; cbn; ring). split; [discriminate|]. split; [repeat constructor; intros []|]. constructor; [|constructor]. cbn [snd]. split; [|split; [|split; [|split; [|split; reflexivity]]]].
    - split; [repeat constructor; cbn; intuition discriminate|]. intros nm. cbn. intros [<-|[]]. exists [0;1;0]. split; [|reflexivity]. repeat constructor.
    - intros nm a p [E|[]]. injection E as <- <- <-. split; [intro H; apply RtoC_inj in H; lra|now rewrite H1].
    - unfold state_norm2. cbn. rewrite H1. ring.
    - cbn. lra. }
  cbn [fits]. split; [|exact I]. intros b f Hb Vf Hnz. cbn [program_stage st_D st_ops flat_map meaning] in *. cbn in Hb. destruct Hb as [<-|[]]. cbn [b_wave] in Hnz.
  match type of Hnz with evolve ?D ?T ?w f <> _ => rewrite (evolve_ext D T w (wave_of [([0;1;0], RtoC 1)])) in Hnz end.
  - rewrite step_ok in Hnz; [|discriminate|cbn; lia|cbn; lia|smalls|exact Vf]. cbn in Hnz. unfold wave_of in Hnz. rewrite ?Csum_cons, ?Csum_nil in Hnz. cbn [fst snd] in Hnz.
    destruct (leqb f [0; 1; 0]) eqn:Ea; [apply leqb_spec in Ea; subst; repeat constructor|]. destruct (leqb f [0; 0; 1]) eqn:Eb; [apply leqb_spec in Eb; subst; repeat constructor|]. exfalso. apply Hnz. apply C_eq; cbn; ring.
  - intros f0 V0. cbn [s_cum photon]. rewrite sqrt_1. rewrite photon_amp by exact V0. ring.
Qed.
Print Assumptions C71_compound.
Print Assumptions C71_weights.
