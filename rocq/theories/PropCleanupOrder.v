(** Property theorem C37: clean_up does not depend on the order in which Python's set enumerates
    the initial states. *)
From Coq Require Import Reals List Arith Lia Lra Bool Permutation.
From Coquelicot Require Import Complex.
From Verif Require Import Prelude NamesModel NamesSpec NamesProofs FockModel FockSpec StateModel StateSpec StateProofs
  ApplyProofs CollectionModel CollectionSpec MeasureProofs WfProofs PropCollection CleanupSpec PropCleanup.
Import ListNotations.

(** The states with label [a], and [its] with those states replaced by what [sub] holds for them. *)
Definition labelled (a : ident) (its : items) : items := filter (fun it => leqb (s_init (snd it)) a) its.
Definition weave (a : ident) (its sub : items) : items :=
  flat_map (fun it => if leqb (s_init (snd it)) a
                      then match dget leqb (fst it) sub with Some s => [(fst it, s)] | None => [] end
                      else [it]) its.
Definition only (a : ident) (i : ident) (its : items) : Prop := forall st, In (i, st) its -> s_init st = a.
Definition own (a : ident) (its sub : items) : Prop := forall i s, dget leqb i sub = Some s -> In i (dkeys its) /\ s_init s = a.

Lemma leqb_rf i : leqb i i = true. Proof. now apply leqb_spec. Qed.
Lemma leqb_no i k : i <> k -> leqb i k = false.
Proof. intros H. destruct (leqb i k) eqn:E; [apply leqb_spec in E; contradiction|reflexivity]. Qed.

Lemma weave_labelled a its : NoDup (dkeys its) -> weave a its (labelled a its) = its.
Proof.
  assert (G : forall l sub, (forall it, In it l -> s_init (snd it) = a -> dget leqb (fst it) sub = Some (snd it)) -> weave a l sub = l).
  { induction l as [|[i st] l IH]; intros sub H; [reflexivity|]. unfold weave in *. cbn [flat_map fst snd]. rewrite IH by (intros it Hi; apply H; now right).
    destruct (leqb (s_init st) a) eqn:E; [|reflexivity]. apply leqb_spec in E. pose proof (H (i, st) (or_introl eq_refl) E) as K. cbn [fst snd] in K. now rewrite K. }
  intros ND. apply G. intros [i st] Hi Ha. cbn [fst snd] in *. apply (dget_in leqb leqb_spec).
  - clear -ND. unfold labelled, dkeys in *. induction its as [|[k s] its IH]; [constructor|]. inversion_clear ND. cbn [filter]. destruct (leqb _ _); [|now apply IH].
    cbn [map fst]. constructor; [|now apply IH]. intros Hk. apply H. apply in_map_iff in Hk. destruct Hk as (x & Ex & Hx). apply filter_In in Hx. apply in_map_iff. exists x. now split.
  - apply filter_In. split; [exact Hi|]. cbn [snd]. now apply leqb_spec.
Qed.

Lemma weave_get a i its sub : only a i its -> own a its sub -> dget leqb i (weave a its sub) = dget leqb i sub.
Proof.
  intros HO HS. assert (G : forall l, only a i l -> dget leqb i (weave a l sub) = if dmem leqb i l then dget leqb i sub else None).
  { induction l as [|[k st] l IH]; intros Hl; [reflexivity|]. unfold weave in *. cbn [flat_map fst snd]. unfold dmem in *. cbn [dget].
    assert (Hl' : only a i l) by (intros s Hs; apply Hl; now right).
    destruct (leqb i k) eqn:E.
    - apply leqb_spec in E. subst k. rewrite (Hl st (or_introl eq_refl)), leqb_rf. destruct (dget leqb i sub) as [s|] eqn:Es; cbn [app dget].
      + now rewrite leqb_rf.
      + rewrite IH by exact Hl'. destruct (dget leqb i l); [reflexivity|reflexivity].
    - destruct (leqb (s_init st) a); [destruct (dget leqb k sub)|]; cbn [app dget]; rewrite ?E; now apply IH. }
  rewrite G by exact HO. unfold dmem. destruct (dget leqb i its) eqn:E; [reflexivity|]. destruct (dget leqb i sub) as [s|] eqn:Es; [|reflexivity].
  destruct (HS i s Es) as [Hk _]. apply (dget_none_iff leqb leqb_spec) in E. contradiction.
Qed.

Lemma weave_other a i its sub st : dget leqb i its = Some st -> s_init st <> a -> dget leqb i (weave a its sub) = Some st.
Proof.
  intros E Ha. induction its as [|[k s] its IH]; [discriminate|]. unfold weave in *. cbn [dget flat_map fst snd] in *. destruct (leqb i k) eqn:Ek.
  - injection E as ->. rewrite (leqb_no _ _ Ha). cbn [app dget]. now rewrite Ek.
  - destruct (leqb (s_init s) a); [destruct (dget leqb k sub)|]; cbn [app dget]; rewrite ?Ek; now apply IH.
Qed.

Lemma weave_same a l sub sub' : (forall i, In i (dkeys l) -> dget leqb i sub = dget leqb i sub') -> weave a l sub = weave a l sub'.
Proof.
  induction l as [|[k s] l IH]; intros H; [reflexivity|]. unfold weave in *. cbn [flat_map fst snd].
  rewrite (H k (or_introl eq_refl)). f_equal. apply IH. intros i Hi. apply H. now right.
Qed.

Lemma weave_set a i s s0 its sub : NoDup (dkeys its) -> only a i its -> In i (dkeys its) -> dget leqb i sub = Some s0 ->
  weave a its (dset leqb i s sub) = dset leqb i s (weave a its sub).
Proof.
  intros ND HO Hi Hs. induction its as [|[k st] its IH]; [destruct Hi|]. inversion_clear ND as [|? ? N1 N2].
  assert (HO' : only a i its) by (intros x Hx; apply HO; now right).
  destruct (list_eq_dec Nat.eq_dec k i) as [->|Hk].
  - pose proof (weave_same a its (dset leqb i s sub) sub) as WS. unfold weave in *. cbn [flat_map fst snd]. rewrite (HO st (or_introl eq_refl)), leqb_rf, Hs, (dget_dset_same leqb leqb_spec).
    cbn [app dset]. rewrite leqb_rf. f_equal. apply WS. intros j Hj. apply (dget_dset_other leqb leqb_spec). intros ->. contradiction.
  - unfold weave in *. cbn [flat_map fst snd]. rewrite (dget_dset_other leqb leqb_spec) by exact Hk.
    assert (Hi' : In i (dkeys its)) by (destruct Hi as [Hi|Hi]; [cbn in Hi; congruence|exact Hi]).
    rewrite IH by assumption.
    assert (E : leqb i k = false) by (apply leqb_no; congruence).
    destruct (leqb (s_init st) a); [destruct (dget leqb k sub)|]; cbn [app dset]; rewrite ?E; reflexivity.
Qed.

Lemma weave_del a i its sub : only a i its -> weave a its (ddel leqb i sub) = ddel leqb i (weave a its sub).
Proof.
  intros HO. induction its as [|[k st] its IH]; [reflexivity|]. assert (HO' : only a i its) by (intros x Hx; apply HO; now right).
  specialize (IH HO'). unfold weave, ddel in *. cbn [flat_map fst snd]. rewrite filter_app, <- IH. f_equal.
  destruct (list_eq_dec Nat.eq_dec k i) as [->|Hk].
  - rewrite (HO st (or_introl eq_refl)), leqb_rf. pose proof (dget_ddel_same i sub) as K. unfold ddel in K. rewrite K. 
    destruct (dget leqb i sub); [|reflexivity]. cbn [filter fst]. now rewrite leqb_rf.
  - pose proof (dget_ddel_other i k sub Hk) as K. unfold ddel in K. rewrite K. assert (E : leqb i k = false) by (apply leqb_no; congruence).
    destruct (leqb (s_init st) a); [destruct (dget leqb k sub)|]; cbn [filter fst]; rewrite ?E; reflexivity.
Qed.

Lemma own_set a i s s0 its sub : own a its sub -> dget leqb i sub = Some s0 -> s_init s = s_init s0 -> own a its (dset leqb i s sub).
Proof.
  intros HS E Hs j x Hx. destruct (list_eq_dec Nat.eq_dec j i) as [->|Hj].
  - rewrite (dget_dset_same leqb leqb_spec) in Hx. injection Hx as <-. destruct (HS i s0 E). split; [assumption|congruence].
  - rewrite (dget_dset_other leqb leqb_spec) in Hx by exact Hj. now apply HS.
Qed.
Lemma own_del a i its sub : own a its sub -> own a its (ddel leqb i sub).
Proof.
  intros HS j x Hx. destruct (list_eq_dec Nat.eq_dec j i) as [->|Hj]; [rewrite dget_ddel_same in Hx; discriminate|].
  rewrite dget_ddel_other in Hx by exact Hj. now apply HS.
Qed.

Lemma leader_same eps oc its its' gs : (forall l, In l (dkeys gs) -> dget leqb l its = dget leqb l its') -> find_leader eps its oc gs = find_leader eps its' oc gs.
Proof.
  induction gs as [|[l ms] gs IH]; intros H; [reflexivity|]. cbn [find_leader]. rewrite <- (H l (or_introl eq_refl)).
  rewrite IH by (intros k Hk; apply H; now right). reflexivity.
Qed.

(** ** The scan *)
Definition simscan (a : ident) (its : items) (F S : option (items * list (ident * list ident))) : Prop :=
  match F, S with
  | None, None => True
  | Some (f, gs), Some (s, gs') => gs' = gs /\ f = weave a its s /\ own a its s /\ (forall l, In l (dkeys gs) -> only a l its)
  | _, _ => False
  end.

Lemma scan_step eps a its i F S : NoDup (dkeys its) -> only a i its -> simscan a its F S ->
  simscan a its (cleanup_scan eps a F i) (cleanup_scan eps a S i).
Proof.
  intros ND HO H. destruct F as [[f gs]|], S as [[s gs']|]; try contradiction; [|exact I]. destruct H as (-> & -> & HS & HG).
  unfold cleanup_scan. rewrite (weave_get a i its s HO HS). destruct (dget leqb i s) as [st|] eqn:E; [|cbn; auto].
  destruct (HS i st E) as [Hk Ha]. rewrite Ha, leqb_rf. destruct (rescale_components eps (s_comps st)) as [oc|]; [|exact I].
  rewrite <- (weave_set a i _ st its s ND HO Hk E).
  assert (HS' : own a its (dset leqb i (with_comps st oc) s)) by (eapply own_set; eauto).
  rewrite (leader_same eps oc (weave a its (dset leqb i (with_comps st oc) s)) (dset leqb i (with_comps st oc) s) gs)
    by (intros l Hl; apply weave_get; auto).
  destruct (find_leader eps (dset leqb i (with_comps st oc) s) oc gs) as [l|] eqn:EL; cbn.
  - split; [reflexivity|]. split; [reflexivity|]. split; [exact HS'|]. intros k Hk'. match type of Hk' with In _ ?X => assert (AK : X = dkeys gs) by (exact (append_keys l i gs (proj1 (find_leader_some _ _ _ _ _ EL)))); rewrite AK in Hk' end. now apply HG.
  - split; [reflexivity|]. split; [reflexivity|]. split; [exact HS'|]. intros k Hk'. rewrite dkeys_dset in Hk'.
    match type of Hk' with In _ (if ?c then _ else _) => destruct c end; [exact (HG k Hk')|]. apply in_app_or in Hk'. destruct Hk' as [Hk'|[<-|[]]]; [now apply HG|exact HO].
Qed.

Lemma scan_skip eps a its i st F S : dget leqb i its = Some st -> s_init st <> a -> simscan a its F S -> cleanup_scan eps a F i = F.
Proof.
  intros E Ha H. destruct F as [[f gs]|]; [|reflexivity]. destruct S as [[s gs']|]; [|contradiction]. destruct H as (_ & -> & _).
  unfold cleanup_scan. rewrite (weave_other a i its s st E Ha). now rewrite (leqb_no _ _ Ha).
Qed.

Lemma only_get a i its st : NoDup (dkeys its) -> dget leqb i its = Some st -> s_init st = a -> only a i its.
Proof. intros ND E Ha st' Hi. apply (dget_in leqb leqb_spec) in Hi; [|exact ND]. congruence. Qed.

Lemma scan_sim eps a its : NoDup (dkeys its) -> forall q F S, (forall it, In it q -> In it its) -> simscan a its F S ->
  simscan a its (fold_left (cleanup_scan eps a) (dkeys q) F) (fold_left (cleanup_scan eps a) (dkeys (labelled a q)) S).
Proof.
  intros ND. induction q as [|[i st] q IH]; intros F S Hq H; [exact H|].
  assert (E : dget leqb i its = Some st) by (apply (dget_in leqb leqb_spec); [exact ND|apply Hq; now left]).
  assert (Hq' : forall it, In it q -> In it its) by (intros it Hi; apply Hq; now right).
  unfold labelled in *. cbn [dkeys map fst fold_left filter snd]. destruct (leqb (s_init st) a) eqn:Ea.
  - apply leqb_spec in Ea. cbn [map fst fold_left]. apply IH; [exact Hq'|]. apply scan_step; [exact ND|eapply only_get; eauto|exact H].
  - assert (Ha : s_init st <> a) by (intros K; rewrite K, leqb_rf in Ea; discriminate).
    rewrite (scan_skip eps a its i st F S E Ha H). now apply IH.
Qed.

(** ** The merge *)
Definition simmerge (a : ident) (its : items) (F S : option items) : Prop :=
  match F, S with
  | None, None => True
  | Some f, Some s => f = weave a its s /\ own a its s
  | _, _ => False
  end.

Lemma del_sim a its ms : (forall j, In j ms -> only a j its) -> forall s, own a its s ->
  fold_left (fun d j => ddel leqb j d) ms (weave a its s) = weave a its (fold_left (fun d j => ddel leqb j d) ms s) /\
  own a its (fold_left (fun d j => ddel leqb j d) ms s).
Proof.
  induction ms as [|j ms IH]; intros H s HS; [auto|]. cbn [fold_left]. rewrite <- weave_del by (apply H; now left).
  apply IH; [intros k Hk; apply H; now right|now apply own_del].
Qed.

Lemma merge_step eps a its g F S : NoDup (dkeys its) -> (forall j, In j (fst g :: snd g) -> only a j its) -> ~ In (fst g) (snd g) ->
  simmerge a its F S -> simmerge a its (cleanup_merge eps F g) (cleanup_merge eps S g).
Proof.
  intros ND HO HN H. destruct F as [f|], S as [s|]; try contradiction; [|exact I]. destruct H as (-> & HS).
  assert (HO1 := HO (fst g) (or_introl eq_refl)).
  unfold cleanup_merge. rewrite (weave_get a _ its s HO1 HS). destruct (dget leqb (fst g) s) as [st|] eqn:E; [|cbn; auto].
  destruct (del_sim a its (snd g) (fun j Hj => HO j (or_intror Hj)) s HS) as [D1 D2]. rewrite D1.
  assert (ET : forall ms t, (forall j, In j ms -> only a j its) ->
    fold_left (fun t j => match dget leqb j (weave a its s) with Some x => (t + s_cum x)%R | None => t end) ms t
    = fold_left (fun t j => match dget leqb j s with Some x => (t + s_cum x)%R | None => t end) ms t).
  { induction ms as [|j ms IH]; intros t Hm; [reflexivity|]. cbn [fold_left]. rewrite (weave_get a j its s) by (auto; apply Hm; now left). apply IH. intros k Hk. apply Hm. now right. }
  rewrite ET by (intros j Hj; apply HO; now right).
  set (t := fold_left (fun t j => match dget leqb j s with Some x => (t + s_cum x)%R | None => t end) (snd g) (s_cum st)).
  set (s' := fold_left (fun d j => ddel leqb j d) (snd g) s) in *.
  assert (E' : dget leqb (fst g) s' = Some st).
  { unfold s'. rewrite fold_del_get. destruct (existsb (leqb (fst g)) (snd g)) eqn:X; [apply existsb_leqb_in in X; contradiction|exact E]. }
  destruct (Rle_dec eps t).
  - unfold set_cumulative. destruct (Rle_dec 0 t); [|exact I]. destruct (Rle_dec t 1); [|exact I]. cbn [option_map simmerge]. split.
    + symmetry. eapply weave_set; eauto. apply (D2 _ _ E').
    + eapply own_set; eauto.
  - cbn [simmerge]. split; [symmetry; now apply weave_del|now apply own_del].
Qed.

Lemma merge_sim eps a its gs : NoDup (dkeys its) -> NoDup (members gs) -> (forall j, In j (members gs) -> only a j its) -> forall F S,
  simmerge a its F S -> simmerge a its (fold_left (cleanup_merge eps) gs F) (fold_left (cleanup_merge eps) gs S).
Proof.
  intros ND. induction gs as [|g gs IH]; intros NM HO F S H; [exact H|]. cbn [fold_left]. unfold members in NM, HO. cbn [flat_map] in NM, HO.
  apply IH.
  - exact (NoDup_app_r _ _ NM).
  - intros j Hj. apply HO. apply in_or_app. now right.
  - apply merge_step; [exact ND|intros j Hj; apply HO; apply in_or_app; now left| |exact H].
    apply NoDup_app_l in NM. now inversion NM.
Qed.

(** ** One label only touches its own states *)
Lemma label_local eps a its : NoDup (dkeys its) ->
  simmerge a its (cleanup_label eps (Some its) a) (cleanup_label eps (Some (labelled a its)) a).
Proof.
  intros ND. assert (HS0 : own a its (labelled a its)).
  { intros i s E. apply (dget_some_in leqb leqb_spec) in E. apply filter_In in E. cbn [snd] in E. destruct E as [E1 E2]. split; [unfold dkeys; apply in_map_iff; eexists; split; [|exact E1]; reflexivity|now apply leqb_spec]. }
  unfold cleanup_label.
  match goal with |- simmerge _ _ (match ?X with _ => _ end) (match ?Y with _ => _ end) =>
    assert (SS : simscan a its X Y);
    [apply (scan_sim eps a its ND its); [auto|]; cbn [simscan]; split; [reflexivity|]; split; [symmetry; now apply weave_labelled|]; split; [exact HS0|intros l []]
    |destruct X as [[cur gs]|] eqn:ES; destruct Y as [[s gs']|] eqn:ES'; try contradiction; [|exact I]]
  end.
  destruct SS as (-> & -> & HS & _).
  pose proof (scan_fold eps a its (dkeys its) [] its [] (weave a its s, gs) ND (fun i H => H)) as HH. cbn [app fst snd] in HH.
  destruct HH as (_ & _ & NM & _ & HM & _).
  { split; [reflexivity|]. split; [intros i st E; exact E|]. split; [constructor|]. split; [constructor|]. split; [intros i; cbn; tauto|intros g j []]. }
  { exact ES. }
  apply merge_sim; [exact ND|exact NM| |split; [reflexivity|exact HS]].
  intros j Hj. apply HM in Hj. destruct Hj as (_ & st & E & Ha). eapply only_get; eauto.
Qed.

Lemma weave_nodup a its sub : NoDup (dkeys its) -> NoDup (dkeys (weave a its sub)).
Proof.
  assert (G : forall l k, In k (dkeys (weave a l sub)) -> In k (dkeys l)).
  { intros l k H. unfold dkeys, weave in H. apply in_map_iff in H. destruct H as (x & <- & Hx). apply in_flat_map in Hx. destruct Hx as (it & H1 & H2).
    apply in_map_iff. exists it. split; [|exact H1]. destruct (leqb _ _); [destruct (dget _ _ _)|]; cbn in H2; try contradiction; destruct H2 as [H2|[]]; now rewrite <- H2. }
  induction its as [|[k st] its IH]; intros ND; [constructor|]. inversion_clear ND as [|? ? N1 N2]. specialize (G its). unfold weave in *. cbn [flat_map fst snd].
  assert (NK : ~ In k (dkeys (flat_map (fun it : ident * state => if leqb (s_init (snd it)) a then match dget leqb (fst it) sub with Some s => [(fst it, s)] | None => [] end else [it]) its))) by (intros H; apply N1; now apply G).
  destruct (leqb (s_init st) a); [destruct (dget leqb k sub)|]; cbn [app dkeys map fst]; [constructor; [exact NK|exact (IH N2)]|exact (IH N2)|constructor; [exact NK|exact (IH N2)]].
Qed.

Lemma labelled_weave a b s : a <> b -> (forall i x, dget leqb i s = Some x -> s_init x = a) -> forall l, labelled b (weave a l s) = labelled b l.
Proof.
  intros Hab HS. induction l as [|[k st] l IH]; [reflexivity|]. unfold labelled, weave in *. cbn [flat_map fst snd filter]. rewrite filter_app. etransitivity; [apply (f_equal2 (@app _)); [reflexivity|exact IH]|].
  destruct (leqb (s_init st) a) eqn:Ea.
  - apply leqb_spec in Ea. rewrite Ea, (leqb_no a b Hab). destruct (dget leqb k s) as [x|] eqn:E; [|reflexivity]. cbn [filter snd]. now rewrite (HS k x E), (leqb_no a b Hab).
  - cbn [filter snd]. destruct (leqb (s_init st) b); reflexivity.
Qed.

Lemma weave_weave a b sa sb : a <> b -> (forall i x, dget leqb i sa = Some x -> s_init x = a) -> (forall i x, dget leqb i sb = Some x -> s_init x = b) ->
  forall l, weave b (weave a l sa) sb = weave a (weave b l sb) sa.
Proof.
  intros Hab HA HB. induction l as [|[k st] l IH]; [reflexivity|]. unfold weave in *. cbn [flat_map fst snd]. rewrite !flat_map_app. apply (f_equal2 (@app _)); [|exact IH].
  assert (Hba : b <> a) by congruence.
  destruct (leqb (s_init st) a) eqn:Ea.
  - pose proof (proj1 (leqb_spec _ _) Ea) as K. rewrite K, (leqb_no a b Hab). cbn [flat_map fst snd app]. rewrite K, leqb_rf, app_nil_r.
    destruct (dget leqb k sa) as [x|] eqn:E; [|reflexivity]. cbn [flat_map fst snd app]. now rewrite (HA k x E), (leqb_no a b Hab).
  - cbn [flat_map fst snd app]. rewrite app_nil_r. destruct (leqb (s_init st) b) eqn:Eb.
    + destruct (dget leqb k sb) as [x|] eqn:E; [|reflexivity]. cbn [flat_map fst snd app]. now rewrite (HB k x E), (leqb_no b a Hba).
    + cbn [flat_map fst snd app]. now rewrite Ea.
Qed.

Lemma label_commute eps a b its : NoDup (dkeys its) -> 
  cleanup_label eps (cleanup_label eps (Some its) a) b = cleanup_label eps (cleanup_label eps (Some its) b) a.
Proof.
  intros ND. destruct (list_eq_dec Nat.eq_dec a b) as [->|Hab]; [reflexivity|]. assert (Hba : b <> a) by congruence.
  pose proof (label_local eps a its ND) as LA. pose proof (label_local eps b its ND) as LB.
  destruct (cleanup_label eps (Some its) a) as [ia|] eqn:EA; destruct (cleanup_label eps (Some (labelled a its)) a) as [sa|] eqn:EA'; try contradiction;
  destruct (cleanup_label eps (Some its) b) as [ib|] eqn:EB; destruct (cleanup_label eps (Some (labelled b its)) b) as [sb|] eqn:EB'; try contradiction.
  - destruct LA as [-> HA], LB as [-> HB].
    pose proof (label_local eps b (weave a its sa) (weave_nodup a its sa ND)) as L1. rewrite (labelled_weave a b sa Hab (fun i x E => proj2 (HA i x E))), EB' in L1.
    pose proof (label_local eps a (weave b its sb) (weave_nodup b its sb ND)) as L2. rewrite (labelled_weave b a sb Hba (fun i x E => proj2 (HB i x E))), EA' in L2.
    match type of L1 with simmerge _ _ ?X _ => match type of L2 with simmerge _ _ ?Y _ => change (X = Y); destruct X as [r1|]; [|contradiction]; destruct Y as [r2|]; [|contradiction] end end.
    destruct L1 as [-> _], L2 as [-> _]. f_equal. apply weave_weave; [exact Hab|intros i x E; apply (HA i x E)|intros i x E; apply (HB i x E)].
  - destruct LA as [-> HA].
    pose proof (label_local eps b (weave a its sa) (weave_nodup a its sa ND)) as L1. rewrite (labelled_weave a b sa Hab (fun i x E => proj2 (HA i x E))), EB' in L1.
    match type of L1 with simmerge _ _ ?X _ => change (X = None); destruct X as [r1|]; [contradiction|reflexivity] end.
  - destruct LB as [-> HB].
    pose proof (label_local eps a (weave b its sb) (weave_nodup b its sb ND)) as L2. rewrite (labelled_weave b a sb Hba (fun i x E => proj2 (HB i x E))), EA' in L2.
    match type of L2 with simmerge _ _ ?X _ => change (None = X); destruct X as [r2|]; [contradiction|reflexivity] end.
  - reflexivity.
Qed.

Lemma label_nodup eps a its its' : NoDup (dkeys its) -> cleanup_label eps (Some its) a = Some its' -> NoDup (dkeys its').
Proof.
  intros ND E. pose proof (label_local eps a its ND) as L. rewrite E in L. destruct (cleanup_label eps (Some (labelled a its)) a) as [s|]; [|contradiction].
  destruct L as [-> _]. now apply weave_nodup.
Qed.

Lemma label_none eps l : fold_left (cleanup_label eps) l None = None.
Proof. induction l as [|a l IH]; [reflexivity|exact IH]. Qed.

(** clean_up takes the initial states from a Python set: whatever the order in which the set
    enumerates them, the result (and whether it raises) is the same. *)
Theorem C37_label_order : forall l1 l2 cs, NoDup (map fst (co_items cs)) -> Permutation l1 l2 -> clean_up l1 cs = clean_up l2 cs.
Proof.
  intros l1 l2 cs ND HP. unfold clean_up. f_equal.
  assert (G : forall its, NoDup (dkeys its) -> fold_left (cleanup_label (co_eps cs)) l1 (Some its) = fold_left (cleanup_label (co_eps cs)) l2 (Some its)); [|now apply G].
  clear ND. induction HP as [|a l l' HP IH|a b l|l l' l'' H1 IH1 H2 IH2]; intros its ND.
  - reflexivity.
  - cbn [fold_left]. destruct (cleanup_label (co_eps cs) (Some its) a) as [its'|] eqn:E; [|now rewrite !label_none]. apply IH. eapply label_nodup; eauto.
  - cbn [fold_left]. now rewrite label_commute.
  - now rewrite IH1, IH2.
Qed.

(** A case: two states with different labels, the labels in either order. *)
Example C37_label_order_case : exists cs, NoDup (map fst (co_items cs)) /\ length (co_items cs) = 2 /\
  Permutation [[120]; [121]] [[121]; [120]] /\ [[120]; [121]] <> [[121]; [120]] /\
  clean_up [[120]; [121]] cs = clean_up [[121]; [120]] cs.
Proof.
  exists (Coll (Dims 2 2 true) 1 (/10) [([97], twin 0); ([98], State [121] 1 [([0;1], (RtoC 1, 1%R))] [0%R] [] [])]).
  assert (ND : NoDup [[97]; [98]]) by (repeat constructor; cbn; intuition discriminate).
  split; [exact ND|]. split; [reflexivity|]. split; [apply perm_swap|]. split; [discriminate|].
  apply C37_label_order; [exact ND|apply perm_swap].
Qed.

Print Assumptions C37_label_order.
