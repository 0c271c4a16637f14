(** Property theorem C37: clean_up. *)
From Coq Require Import Reals List Arith Lia Lra Bool Permutation.
From Coquelicot Require Import Complex.
From Verif Require Import Prelude NamesModel NamesSpec NamesProofs FockModel FockSpec StateModel StateSpec StateProofs
  ApplyProofs CollectionModel CollectionSpec MeasureProofs WfProofs PropCollection CleanupSpec.
Import ListNotations.

(** ** Rescaling *)
Lemma rescale_spec eps x y : rescale_components eps x = Some y -> rescaled eps x y.
Proof.
  unfold rescale_components. set (total := Rsum (filter _ x) _).
  assert (ET : total = remaining_norm eps x).
  { unfold total, remaining_norm. clear. induction x as [|c x IH]; [reflexivity|]. cbn [filter]. rewrite Rsum_cons, <- IH.
    destruct (Rlt_dec (snd (snd c)) eps); [ring|]. now rewrite Rsum_cons. }
  assert (Hz : forall nm b q, In (nm, (b, q)) (map (fun c => if Rlt_dec (snd (snd c)) eps then (fst c, (RtoC 0, 0%R)) else c) x) ->
     exists a p, In (nm, (a, p)) x /\ ((eps <= p)%R /\ b = a /\ q = p \/ (p < eps)%R /\ b = RtoC 0)).
  { intros nm b q H. apply in_map_iff in H. destruct H as ([nm' [a p]] & E & Hin). cbn [fst snd] in E. destruct (Rlt_dec p eps) as [Hp|Hp].
    - injection E as -> <- <-. exists a, p. split; [exact Hin|]. right. auto.
    - injection E as -> -> ->. exists b, q. split; [exact Hin|]. left. split; [lra|auto]. }
  assert (Hz' : forall nm a p, In (nm, (a, p)) x -> (eps <= p)%R -> In (nm, (a, p)) (map (fun c => if Rlt_dec (snd (snd c)) eps then (fst c, (RtoC 0, 0%R)) else c) x)).
  { intros nm a p H Hp. apply in_map_iff. exists (nm, (a, p)). split; [|exact H]. cbn [fst snd]. destruct (Rlt_dec p eps); [lra|reflexivity]. }
  set (zeroed := map _ x) in *.
  destruct (Rle_dec eps (Rabs (total - 1))) as [Hd|Hd].
  - destruct (Req_EM_T total 0) as [|Hne]; [discriminate|]. intros [= <-].
    assert (H0 : (0 <= total)%R) by (apply Rsum_nonneg; intros; apply Cnorm2_nonneg).
    assert (Hs : (0 < sqrt total)%R) by (apply sqrt_lt_R0; lra).
    exists (1 / sqrt total)%R. split; [apply Rdiv_lt_0_compat; lra|]. split; [|split].
    + right. rewrite <- ET. rewrite <- (sqrt_sqrt total) at 3 by lra. field. lra.
    + intros nm b q H. apply in_flat_map in H. destruct H as ([nm' [a p]] & Hin & H). cbn [fst snd] in H.
      destruct (Rle_dec eps _) in H; [|contradiction]. destruct H as [H|[]]. injection H as -> <- <-.
      destruct (Hz nm a p Hin) as (a0 & p0 & H1 & H2). exists a0, p0. split; [exact H1|]. destruct H2 as [(H2 & -> & _)|(H2 & ->)]; [left; auto|right].
      split; [exact H2|]. apply Cmult_0_r.
    + intros nm a p Hin Hp Hn. exists (Cnorm2 (RtoC (1 / sqrt total) * a)%C). apply in_flat_map. exists (nm, (a, p)). split; [now apply Hz'|]. cbn [fst snd].
      destruct (Rle_dec eps _) as [|H]; [now left|]. exfalso. apply H. rewrite Cnorm2_mult, Cnorm2_RtoC. exact Hn.
  - intros [= <-]. exists 1%R. split; [lra|]. split; [|split].
    + left. split; [reflexivity|]. rewrite <- ET. lra.
    + intros nm b q H. destruct (Hz nm b q H) as (a & p & H1 & H2). exists a, p. split; [exact H1|].
      destruct H2 as [(H2 & -> & _)|H2]; [left|right; exact H2]. split; [exact H2|]. now rewrite Cmult_1_l.
    + intros nm a p Hin Hp _. exists p. rewrite Cmult_1_l. now apply Hz'.
Qed.

Lemma identical_spec eps x y : identical_components eps x y = true -> nearly_equal eps x y.
Proof.
  intros H nm a p Hin. unfold identical_components in H. rewrite forallb_forall in H. specialize (H _ Hin). cbn [fst snd] in H.
  destruct (dget leqb nm y) as [[b q]|] eqn:E; [|discriminate]. apply (dget_some_in leqb leqb_spec) in E. exists b, q. split; [exact E|].
  cbn [fst snd] in H. unfold Rleb in H. destruct (Rle_dec eps (Rabs (p - q))); [discriminate|]. destruct (Rle_dec eps (Cnorm2 (a - b)%C)); [discriminate|]. lra.
Qed.

(** ** The scan *)
Definition members (gs : list (ident * list ident)) : list ident := flat_map (fun g => fst g :: snd g) gs.

Lemma find_leader_some eps its oc gs l : find_leader eps its oc gs = Some l ->
  In l (dkeys gs) /\ exists st, dget leqb l its = Some st /\ identical_components eps oc (s_comps st) = true.
Proof.
  induction gs as [|[k ms] gs IH]; [discriminate|]. cbn [find_leader]. destruct (dget leqb k its) as [st|] eqn:E.
  - destruct (identical_components eps oc (s_comps st)) eqn:EI.
    + intros [= ->]. split; [now left|]. eauto.
    + intros H. destruct (IH H) as [H1 H2]. split; [now right|exact H2].
  - intros H. destruct (IH H) as [H1 H2]. split; [now right|exact H2].
Qed.

Lemma members_append l i gs : In l (dkeys gs) -> Permutation (members (dappend leqb l i gs)) (i :: members gs).
Proof.
  unfold dappend. destruct (dget leqb l gs) as [ms|] eqn:E; [|intros H; apply (dget_none_iff leqb leqb_spec) in E; contradiction].
  intros _. induction gs as [|[k m] gs IH]; [discriminate|]. cbn [dget dset] in *. destruct (leqb l k) eqn:EK.
  - injection E as ->. unfold members. cbn [flat_map fst snd app].
    etransitivity; [|apply perm_swap]. apply perm_skip. rewrite <- app_assoc. cbn [app]. symmetry. apply Permutation_middle.
  - unfold members in *. cbn [flat_map]. rewrite (IH E). symmetry. apply (Permutation_middle (k :: m)).
Qed.

Lemma append_keys {V} l (i : V) gs : In l (dkeys gs) -> dkeys (dappend leqb l i gs) = dkeys gs.
Proof.
  intros Hl. rewrite dappend_keys. unfold dmem. destruct (dget leqb l gs) eqn:E; [reflexivity|].
  apply (dget_none_iff leqb leqb_spec) in E. contradiction.
Qed.

Lemma append_groups (l i : ident) (gs : list (ident * list ident)) g j : NoDup (dkeys gs) -> In g (dappend leqb l i gs) -> In j (snd g) ->
  (fst g = l /\ j = i) \/ exists g', In g' gs /\ fst g' = fst g /\ In j (snd g').
Proof.
  intros ND. unfold dappend. destruct (dget leqb l gs) as [ms|] eqn:E.
  - intros H Hj. destruct g as [k m]. apply (in_dset leqb leqb_spec) in H. cbn [fst snd] in *. destruct H as [[-> ->]|H].
    + apply in_app_or in Hj. destruct Hj as [Hj|[<-|[]]]; [|now left]. right. exists (l, ms). split; [|auto]. now apply (dget_some_in leqb leqb_spec).
    + right. exists (k, m). auto.
  - intros H Hj. apply in_app_or in H. destruct H as [H|[<-|[]]]; [right; eauto|]. cbn in Hj. destruct Hj as [<-|[]]. now left.
Qed.

Definition scanned (eps : R) (init : ident) (its : items) (p : list ident) (cur : items) (gs : list (ident * list ident)) : Prop :=
  dkeys cur = dkeys its /\
  (forall i st, dget leqb i its = Some st ->
     if existsb (leqb i) p && leqb (s_init st) init
     then exists oc, rescale_components eps (s_comps st) = Some oc /\ dget leqb i cur = Some (with_comps st oc)
     else dget leqb i cur = Some st) /\
  NoDup (members gs) /\ NoDup (dkeys gs) /\
  (forall i, In i (members gs) <-> In i p /\ exists st, dget leqb i its = Some st /\ s_init st = init) /\
  (forall g j, In g gs -> In j (snd g) -> exists a b, dget leqb j cur = Some a /\ dget leqb (fst g) cur = Some b /\
     identical_components eps (s_comps a) (s_comps b) = true).

Lemma existsb_leqb_app i p q : existsb (leqb i) (p ++ q) = existsb (leqb i) p || existsb (leqb i) q.
Proof. apply existsb_app. Qed.
Lemma existsb_leqb_in i p : existsb (leqb i) p = true <-> In i p.
Proof.
  rewrite existsb_exists. split.
  - intros (x & H & E). apply leqb_spec in E. now subst.
  - intros H. exists i. split; [exact H|now apply leqb_spec].
Qed.

Lemma scan_fold eps init its q : forall p cur gs r, NoDup (p ++ q) ->
  (forall i, In i (p ++ q) -> In i (dkeys its)) ->
  scanned eps init its p cur gs ->
  fold_left (cleanup_scan eps init) q (Some (cur, gs)) = Some r ->
  scanned eps init its (p ++ q) (fst r) (snd r).
Proof.
  induction q as [|i q IH]; intros p cur gs r ND Hsub HS HR.
  - cbn in HR. injection HR as <-. rewrite app_nil_r. exact HS.
  - cbn [fold_left] in HR.
    assert (Hn : forall l, fold_left (cleanup_scan eps init) l None = None) by (induction l; auto).
    replace (p ++ i :: q) with ((p ++ [i]) ++ q) in * by now rewrite <- app_assoc.
    assert (Hip : ~ In i p). { intros H. rewrite <- app_assoc in ND. cbn in ND. apply NoDup_remove_2 in ND. apply ND. apply in_or_app. now left. }
    assert (Eip : existsb (leqb i) p = false) by (apply not_true_iff_false; rewrite existsb_leqb_in; exact Hip).
    destruct HS as (HK & HD & NDm & NDk & HM & HG).
    assert (Hi : exists st, dget leqb i its = Some st).
    { destruct (dget leqb i its) as [st|] eqn:E; [eauto|]. apply (dget_none_iff leqb leqb_spec) in E. exfalso. apply E. apply Hsub. apply in_or_app. left. apply in_or_app. right. now left. }
    destruct Hi as [st Est]. pose proof (HD i st Est) as Ec. rewrite Eip in Ec. cbn [andb] in Ec.
    destruct (leqb (s_init st) init) eqn:EL.
    + destruct (rescale_components eps (s_comps st)) as [oc|] eqn:ER; [|unfold cleanup_scan in HR at 2; rewrite Ec, EL, ER, Hn in HR; discriminate].
      set (cur' := dset leqb i (with_comps st oc) cur) in *.
      assert (HK' : dkeys cur' = dkeys its).
      { unfold cur'. rewrite (dkeys_dset leqb). unfold dmem. rewrite Ec. exact HK. }
      assert (HD' : forall j sj, dget leqb j its = Some sj ->
         if existsb (leqb j) (p ++ [i]) && leqb (s_init sj) init
         then exists oc, rescale_components eps (s_comps sj) = Some oc /\ dget leqb j cur' = Some (with_comps sj oc)
         else dget leqb j cur' = Some sj).
      { intros j sj Ej. rewrite existsb_leqb_app. cbn [existsb]. rewrite orb_false_r. destruct (leqb j i) eqn:Eji.
        - apply leqb_spec in Eji. subst j. rewrite orb_true_r. assert (sj = st) by congruence. subst sj. rewrite EL. cbn [andb]. exists oc. split; [exact ER|].
          unfold cur'. apply (dget_dset_same leqb leqb_spec).
        - rewrite orb_false_r. assert (Hne : j <> i) by (intros ->; rewrite (proj2 (leqb_spec i i) eq_refl) in Eji; discriminate).
          unfold cur'. rewrite (dget_dset_other leqb leqb_spec) by exact Hne. apply HD. exact Ej. }
      assert (Hcur : forall j, In j (members gs) -> dget leqb j cur' = dget leqb j cur).
      { intros j Hj. unfold cur'. apply (dget_dset_other leqb leqb_spec). intros ->. apply HM in Hj. tauto. }
      assert (HmG : forall g j, In g gs -> In j (snd g) -> In j (members gs) /\ In (fst g) (members gs)).
      { intros g j Hg Hj. unfold members. split; apply in_flat_map; exists g; (split; [exact Hg|]); [now right|now left]. }
      assert (Him : ~ In i (members gs)) by (intros H; apply HM in H; tauto).
      assert (Hic : dget leqb i cur' = Some (with_comps st oc)) by apply (dget_dset_same leqb leqb_spec).
      assert (HM' : forall j, In j (i :: members gs) <-> In j (p ++ [i]) /\ exists st, dget leqb j its = Some st /\ s_init st = init).
      { intros j. cbn [In]. rewrite HM, in_app_iff. cbn [In]. apply leqb_spec in EL. split.
        - intros [<-|[H1 H2]]; [split; [tauto|eauto]|tauto].
        - intros [[H1|[->|[]]] H2]; [right; tauto|now left]. }
      unfold cleanup_scan in HR at 2. rewrite Ec, EL, ER in HR. fold cur' in HR. destruct (find_leader eps cur' oc gs) as [l|] eqn:EF.
      * apply find_leader_some in EF. destruct EF as (Hl & sl & Esl & HI).
        eapply IH; [exact ND|exact Hsub| |exact HR]. split; [exact HK'|]. split; [exact HD'|].
        pose proof (members_append l i gs Hl) as HP. split; [|split; [|split]].
        -- eapply Permutation_NoDup; [symmetry; exact HP|]. now constructor.
        -- rewrite append_keys by exact Hl. exact NDk.
        -- intros j. rewrite <- HM'. split; apply Permutation_in; [exact HP|symmetry; exact HP].
        -- intros [k m] j Hg Hj. destruct (append_groups l i gs (k, m) j NDk Hg Hj) as [[Ek ->]|(g' & Hg' & Ek & Hj')]; cbn [fst] in *; subst k.
           ++ exists (with_comps st oc), sl. repeat split; auto.
           ++ destruct (HmG g' j Hg' Hj') as [M1 M2]. destruct (HG g' j Hg' Hj') as (a & b & H1 & H2 & H3). exists a, b. rewrite !Hcur by auto. auto.
      * eapply IH; [exact ND|exact Hsub| |exact HR]. split; [exact HK'|]. split; [exact HD'|].
        assert (Hik : ~ In i (dkeys gs)). { intros H. apply Him. unfold dkeys in H. apply in_map_iff in H. destruct H as (g & <- & Hg). unfold members. apply in_flat_map. exists g. split; [exact Hg|now left]. }
        rewrite (dset_fresh leqb leqb_spec) by exact Hik. assert (EM : members (gs ++ [(i, [])]) = members gs ++ [i]) by (unfold members; rewrite flat_map_app; reflexivity).
        split; [|split; [|split]].
        -- assert (G : NoDup (members (gs ++ [(i, [])]))); [|exact G]. rewrite EM. eapply Permutation_NoDup; [apply Permutation_cons_append|]. now constructor.
        -- unfold dkeys. rewrite map_app. eapply Permutation_NoDup; [apply Permutation_cons_append|]. constructor; [exact Hik|exact NDk].
        -- intros j. assert (G : In j (members (gs ++ [(i, [])])) <-> In j (i :: members gs)) by (rewrite EM, in_app_iff; cbn; tauto).
           rewrite <- HM'. exact G.
        -- intros g j Hg Hj. apply in_app_or in Hg. destruct Hg as [Hg|[<-|[]]]; [|destruct Hj]. destruct (HmG g j Hg Hj) as [M1 M2].
           destruct (HG g j Hg Hj) as (a & b & H1 & H2 & H3). exists a, b. rewrite !Hcur by auto. auto.
    + unfold cleanup_scan in HR at 2. rewrite Ec, EL in HR. eapply IH; [exact ND|exact Hsub| |exact HR]. split; [exact HK|]. split; [|split; [exact NDm|split; [exact NDk|split; [|exact HG]]]].
      * intros j sj Ej. rewrite existsb_leqb_app. cbn [existsb]. rewrite orb_false_r. destruct (leqb j i) eqn:Eji.
        -- apply leqb_spec in Eji. subst j. assert (sj = st) by congruence. subst sj. rewrite EL, andb_false_r. exact Ec.
        -- rewrite orb_false_r. apply HD. exact Ej.
      * intros j. rewrite HM, in_app_iff. cbn [In]. split; [tauto|]. intros [[H|[->|[]]] (sj & H1 & H2)]; [eauto|]. exfalso.
        assert (sj = st) by congruence. subst sj. apply (proj2 (leqb_spec _ _)) in H2. congruence.
Qed.

(** ** The merge *)
Definition total_of (its : items) (g : ident * list ident) : R :=
  Rsum (fst g :: snd g) (fun j => match dget leqb j its with Some s => s_cum s | None => 0%R end).

Definition after_merge (eps : R) (its : items) (gs : list (ident * list ident)) (i : ident) (st : state) : option state :=
  match find (fun g => leqb (fst g) i) gs with
  | Some g => if Rle_dec eps (total_of its g) then Some (with_cum st (total_of its g)) else None
  | None => if existsb (leqb i) (members gs) then None else Some st
  end.

Lemma fold_total (its : items) ms : forall t, 
  fold_left (fun t j => match dget leqb j its with Some s => (t + s_cum s)%R | None => t end) ms t
  = (t + Rsum ms (fun j => match dget leqb j its with Some s => s_cum s | None => 0%R end))%R.
Proof.
  induction ms as [|j ms IH]; intros t; [cbn; unfold Rsum; cbn; ring|]. cbn [fold_left]. rewrite IH, Rsum_cons.
  destruct (dget leqb j its); ring.
Qed.

Lemma fold_del_get (ms : list ident) : forall (its : items) i,
  dget leqb i (fold_left (fun d j => ddel leqb j d) ms its) = if existsb (leqb i) ms then None else dget leqb i its.
Proof.
  induction ms as [|j ms IH]; intros its i; [reflexivity|]. cbn [fold_left existsb]. rewrite IH. destruct (existsb (leqb i) ms); [now rewrite orb_true_r|]. rewrite orb_false_r.
  destruct (leqb i j) eqn:E.
  - apply leqb_spec in E. subst. apply dget_ddel_same.
  - apply dget_ddel_other. intros ->. rewrite (proj2 (leqb_spec j j) eq_refl) in E. discriminate.
Qed.
Lemma ddel_keys {V} k (d : list (ident * V)) : dkeys (ddel leqb k d) = filter (fun i => negb (leqb k i)) (dkeys d).
Proof. unfold dkeys, ddel. induction d as [|[i v] d IH]; [reflexivity|]. cbn [filter map fst]. destruct (leqb k i); cbn [negb map fst]; [exact IH|]. f_equal. exact IH. Qed.
Lemma filter_true {A} (l : list A) : filter (fun _ => true) l = l.
Proof. induction l as [|x l IH]; [reflexivity|]. cbn. now f_equal. Qed.
Lemma filter_filter {A} (f g : A -> bool) l : filter f (filter g l) = filter (fun x => g x && f x) l.
Proof. induction l as [|x l IH]; [reflexivity|]. cbn. destruct (g x); cbn; [destruct (f x)|]; now rewrite IH. Qed.
Lemma fold_del_keys (ms : list ident) : forall (its : items), exists keep, dkeys (fold_left (fun d j => ddel leqb j d) ms its) = filter keep (dkeys its).
Proof.
  induction ms as [|j ms IH]; intros its.
  - exists (fun _ => true). cbn [fold_left]. symmetry. apply filter_true.
  - destruct (IH (ddel leqb j its)) as [k E]. exists (fun i => negb (leqb j i) && k i). cbn [fold_left]. rewrite E, ddel_keys. apply filter_filter.
Qed.

Lemma merge_one eps its g its' : NoDup (fst g :: snd g) -> cleanup_merge eps (Some its) g = Some its' -> In (fst g) (dkeys its) ->
  (forall i, dget leqb i its' = match dget leqb i its with None => None | Some st => after_merge eps its [g] i st end) /\
  (exists keep, dkeys its' = filter keep (dkeys its)) /\ ((eps <= total_of its g)%R -> (0 <= total_of its g <= 1)%R).
Proof.
  intros ND HR Hin. unfold cleanup_merge in HR. destruct (dget leqb (fst g) its) as [st|] eqn:E; [|apply (dget_none_iff leqb leqb_spec) in E; contradiction].
  cbv zeta in HR. rewrite fold_total in HR.
  match type of HR with context [(s_cum st + ?X)%R] =>
    assert (ET : total_of its g = (s_cum st + X)%R) by (unfold total_of; rewrite Rsum_cons, E; reflexivity) end.
  rewrite <- ET in HR. destruct (fold_del_keys (snd g) its) as [keep EK]. set (d := fold_left (fun d j => ddel leqb j d) (snd g) its) in *.
  assert (Hg : ~ In (fst g) (snd g)) by (inversion ND; auto).
  assert (Hd : forall i, dget leqb i d = if existsb (leqb i) (snd g) then None else dget leqb i its) by (intros; apply fold_del_get).
  assert (Eg : existsb (leqb (fst g)) (snd g) = false) by (apply not_true_iff_false; rewrite existsb_leqb_in; exact Hg).
  assert (Em : members [g] = fst g :: snd g) by (unfold members; cbn [flat_map]; now rewrite app_nil_r).
  assert (Eid : forall i, leqb (fst g) i = leqb i (fst g)).
  { intros i. destruct (leqb i (fst g)) eqn:E1; [apply leqb_spec in E1; subst; now apply leqb_spec|]. apply not_true_iff_false in E1. apply not_true_iff_false. rewrite leqb_spec in *. congruence. }
  destruct (Rle_dec eps (total_of its g)) as [Hle|Hle].
  - unfold set_cumulative in HR. destruct (Rle_dec 0 (total_of its g)) as [H0|]; [|discriminate]. destruct (Rle_dec (total_of its g) 1) as [H1|]; [|discriminate].
    cbn [option_map] in HR. injection HR as <-. split; [|split; [|auto]].
    + intros i. unfold after_merge. cbn [find]. rewrite Eid, Em. cbn [existsb]. destruct (leqb i (fst g)) eqn:Ei.
      * apply leqb_spec in Ei. subst i. rewrite (dget_dset_same leqb leqb_spec), E. destruct (Rle_dec eps (total_of its g)); [reflexivity|contradiction].
      * assert (Hne : i <> fst g) by (intros ->; rewrite (proj2 (leqb_spec (fst g) (fst g)) eq_refl) in Ei; discriminate).
        rewrite (dget_dset_other leqb leqb_spec) by exact Hne. rewrite Hd. cbn [orb]. destruct (dget leqb i its), (existsb (leqb i) (snd g)); reflexivity.
    + exists keep. rewrite (dkeys_dset leqb). unfold dmem. rewrite Hd, Eg, E. exact EK.
  - injection HR as <-. split; [|split; [|intros; contradiction]].
    + intros i. unfold after_merge. cbn [find]. rewrite Eid, Em. cbn [existsb]. destruct (leqb i (fst g)) eqn:Ei.
      * apply leqb_spec in Ei. subst i. rewrite dget_ddel_same, E. destruct (Rle_dec eps (total_of its g)); [contradiction|reflexivity].
      * assert (Hne : i <> fst g) by (intros ->; rewrite (proj2 (leqb_spec (fst g) (fst g)) eq_refl) in Ei; discriminate).
        rewrite dget_ddel_other by exact Hne. rewrite Hd. cbn [orb]. destruct (dget leqb i its), (existsb (leqb i) (snd g)); reflexivity.
    + exists (fun i => keep i && negb (leqb (fst g) i)). rewrite ddel_keys. transitivity (filter (fun i => negb (leqb (fst g) i)) (filter keep (dkeys its))); [f_equal; exact EK|]. apply filter_filter.
Qed.

Lemma find_leader_none i gs : ~ In i (members gs) -> find (fun g : ident * list ident => leqb (fst g) i) gs = None.
Proof.
  intros H. destruct (find _ gs) as [g|] eqn:E; [|reflexivity]. apply find_some in E. destruct E as [Hg E]. apply leqb_spec in E. exfalso. apply H.
  unfold members. apply in_flat_map. exists g. split; [exact Hg|left; exact E].
Qed.

Lemma NoDup_app_l {A} (l1 l2 : list A) : NoDup (l1 ++ l2) -> NoDup l1.
Proof. induction l1 as [|x l IH]; intros H; [constructor|]. inversion H; subst. constructor; [|auto]. intros K. apply H2. apply in_or_app. now left. Qed.
Lemma NoDup_app_r {A} (l1 l2 : list A) : NoDup (l1 ++ l2) -> NoDup l2.
Proof. induction l1 as [|x l IH]; intros H; [exact H|]. inversion H; subst. auto. Qed.

Lemma merge_fold eps gs : forall its its', NoDup (members gs) -> (forall i, In i (members gs) -> In i (dkeys its)) ->
  fold_left (cleanup_merge eps) gs (Some its) = Some its' ->
  (forall i, dget leqb i its' = match dget leqb i its with None => None | Some st => after_merge eps its gs i st end) /\
  (exists keep, dkeys its' = filter keep (dkeys its)) /\ (forall g, In g gs -> (eps <= total_of its g)%R -> (0 <= total_of its g <= 1)%R).
Proof.
  induction gs as [|g gs IH]; intros its its' ND Hin HR.
  - cbn in HR. injection HR as <-. split; [|split].
    + intros i. now destruct (dget leqb i its).
    + exists (fun _ => true). symmetry. apply filter_true.
    + intros g [].
  - cbn [fold_left] in HR. assert (Hn : forall l, fold_left (cleanup_merge eps) l None = None) by (induction l; auto).
    destruct (cleanup_merge eps (Some its) g) as [its1|] eqn:E1; [|rewrite Hn in HR; discriminate].
    assert (EM : members (g :: gs) = (fst g :: snd g) ++ members gs) by reflexivity. rewrite EM in ND, Hin.
    assert (NDg : NoDup (fst g :: snd g)) by (eapply NoDup_app_l; exact ND).
    assert (NDs : NoDup (members gs)) by (eapply NoDup_app_r; exact ND).
    assert (Hdis : forall i, In i (fst g :: snd g) -> ~ In i (members gs)).
    { clear - ND. intros i H1 H2. induction (fst g :: snd g) as [|x l IH]; [destruct H1|]. cbn in ND. inversion ND as [|? ? N1 N2]; subst. destruct H1 as [->|H1]; [|exact (IH N2 H1)].
      apply N1. apply in_or_app. now right. }
    destruct (merge_one eps its g its1 NDg E1) as (G1 & [k1 K1] & B1); [apply Hin; now left|].
    assert (Hkeep : forall i, In i (members gs) -> dget leqb i its1 = dget leqb i its).
    { intros i Hi. rewrite G1. destruct (dget leqb i its) as [st|]; [|reflexivity]. unfold after_merge.
      assert (Hni : ~ In i (fst g :: snd g)) by (intros H; exact (Hdis i H Hi)).
      rewrite find_leader_none; [|unfold members; cbn [flat_map]; rewrite app_nil_r; exact Hni].
      unfold members. cbn [flat_map]. rewrite app_nil_r.
      replace (existsb (leqb i) (fst g :: snd g)) with false by (symmetry; apply not_true_iff_false; rewrite existsb_leqb_in; exact Hni). reflexivity. }
    destruct (IH its1 its' NDs) as (G2 & [k2 K2] & B2); [|exact HR|].
    { intros i Hi. assert (In i (dkeys its)) by (apply Hin; apply in_or_app; now right).
      destruct (dget leqb i its1) eqn:E; [|rewrite Hkeep in E by exact Hi; apply (dget_none_iff leqb leqb_spec) in E; contradiction].
      apply (dget_some_in leqb leqb_spec) in E. unfold dkeys. apply in_map_iff. eexists. split; [|exact E]. reflexivity. }
    assert (HT : forall g', In g' gs -> total_of its1 g' = total_of its g').
    { intros g' Hg'. unfold total_of. apply Rsum_ext. intros j Hj. rewrite Hkeep; [reflexivity|]. unfold members. apply in_flat_map. eauto. }
    split; [|split].
    + intros i. rewrite G2, G1. destruct (dget leqb i its) as [st|] eqn:Ei; [|reflexivity]. rewrite EM || idtac.
      destruct (existsb (leqb i) (fst g :: snd g)) eqn:Eg.
      * assert (Hi : In i (fst g :: snd g)) by now apply existsb_leqb_in. pose proof (Hdis i Hi) as Hni.
        assert (EA : after_merge eps its (g :: gs) i st = after_merge eps its [g] i st).
        { unfold after_merge. cbn [find]. unfold ident in *. destruct (leqb (fst g) i); [reflexivity|]. rewrite find_leader_none by exact Hni. rewrite EM, existsb_leqb_app. unfold members. cbn [flat_map]. rewrite app_nil_r. unfold ident in *. rewrite Eg. reflexivity. }
        rewrite EA. destruct (after_merge eps its [g] i st) as [st'|]; [|reflexivity]. unfold after_merge. rewrite find_leader_none by exact Hni.
        replace (existsb (leqb i) (members gs)) with false by (symmetry; apply not_true_iff_false; rewrite existsb_leqb_in; exact Hni). reflexivity.
      * assert (Hni : ~ In i (fst g :: snd g)) by (intros H; apply existsb_leqb_in in H; congruence).
        assert (EA : after_merge eps its [g] i st = Some st).
        { unfold after_merge. rewrite find_leader_none; [|unfold members; cbn [flat_map]; rewrite app_nil_r; exact Hni]. unfold members. cbn [flat_map]. rewrite app_nil_r. unfold ident in *. rewrite Eg. reflexivity. }
        rewrite EA. unfold after_merge. cbn [find]. unfold ident in *. replace (leqb (fst g) i) with false.
        2:{ symmetry. apply not_true_iff_false. rewrite leqb_spec. intros H. apply Hni. now left. }
        rewrite EM, existsb_leqb_app, Eg. cbn [orb]. destruct (find (fun g0 => leqb (fst g0) i) gs) as [g'|] eqn:Ef; [|reflexivity].
        apply find_some in Ef. rewrite HT by apply Ef. reflexivity.
    + exists (fun i => k1 i && k2 i). rewrite K2. transitivity (filter k2 (filter k1 (dkeys its))); [f_equal; exact K1|]. apply filter_filter.
    + intros g' [<-|Hg'] H; [now apply B1|]. rewrite <- HT in H |- * by exact Hg'. now apply B2.
Qed.

(** ** One label *)
Definition leader_of (gs : list (ident * list ident)) (i : ident) : ident :=
  match find (fun g => existsb (leqb i) (fst g :: snd g)) gs with Some g => fst g | None => i end.

Lemma member_split i gs : In i (members gs) -> exists g, In g gs /\ In i (fst g :: snd g).
Proof. unfold members. intros H. apply in_flat_map in H. exact H. Qed.
Lemma members_unique gs g g' i : NoDup (members gs) -> In g gs -> In g' gs -> In i (fst g :: snd g) -> In i (fst g' :: snd g') -> g = g'.
Proof.
  induction gs as [|x gs IH]; intros ND H1 H2 I1 I2; [destruct H1|]. change (members (x :: gs)) with ((fst x :: snd x) ++ members gs) in ND.
  assert (Hd : forall y, In y gs -> In i (fst y :: snd y) -> ~ In i (fst x :: snd x)).
  { intros y Hy Iy Ix. assert (Hm : In i (members gs)) by (unfold members; apply in_flat_map; eauto). clear - ND Ix Hm.
    induction (fst x :: snd x) as [|z l IH]; [destruct Ix|]. cbn in ND. inversion ND as [|? ? N1 N2]; subst. destruct Ix as [->|Ix]; [|auto]. apply N1. apply in_or_app. now right. }
  apply NoDup_app_r in ND. destruct H1 as [<-|H1], H2 as [<-|H2]; auto.
  - exfalso. exact (Hd g' H2 I2 I1).
  - exfalso. exact (Hd g H1 I1 I2).
Qed.
Lemma leader_of_in gs g i : NoDup (members gs) -> In g gs -> In i (fst g :: snd g) -> leader_of gs i = fst g.
Proof.
  intros ND Hg Hi. unfold leader_of. destruct (find (fun g0 => existsb (leqb i) (fst g0 :: snd g0)) gs) as [g'|] eqn:E.
  - apply find_some in E. destruct E as [Hg' E]. apply existsb_leqb_in in E. f_equal. exact (members_unique gs g' g i ND Hg' Hg E Hi).
  - exfalso. pose proof (find_none _ _ E g Hg) as H. cbv beta in H. apply existsb_leqb_in in Hi. unfold ident in *. congruence.
Qed.
Lemma leader_of_out gs i : ~ In i (members gs) -> leader_of gs i = i.
Proof.
  intros H. unfold leader_of. destruct (find (fun g0 => existsb (leqb i) (fst g0 :: snd g0)) gs) as [g|] eqn:E; [|reflexivity]. apply find_some in E. destruct E as [Hg E]. apply existsb_leqb_in in E.
  exfalso. apply H. unfold members. apply in_flat_map. eauto.
Qed.

Lemma label_merged eps init its its' : NoDup (dkeys its) -> cleanup_label eps (Some its) init = Some its' ->
  exists rep, merged eps [init] rep its its'.
Proof.
  intros ND HR. unfold cleanup_label in HR. match type of HR with match ?X with _ => _ end = _ => destruct X as [[cur gs]|] eqn:ES; [|discriminate] end.
  pose proof (scan_fold eps init its (dkeys its) [] its [] (cur, gs) ND (fun i H => H)) as HS. cbn [app fst snd] in HS.
  destruct HS as (HK & HD & NDm & NDk & HM & HG).
  { split; [reflexivity|]. split; [intros i st E; exact E|]. split; [constructor|]. split; [constructor|]. split; [intros i; cbn; tauto|intros g j []]. }
  { exact ES. }
  assert (Hkey : forall i st, dget leqb i its = Some st -> existsb (leqb i) (dkeys its) = true).
  { intros i st E. apply existsb_leqb_in. apply (dget_some_in leqb leqb_spec) in E. unfold dkeys. apply in_map_iff. eexists. split; [|exact E]. reflexivity. }
  assert (HMi : forall i st, dget leqb i its = Some st -> (In i (members gs) <-> s_init st = init)).
  { intros i st E. rewrite HM. split.
    - intros [_ (st' & E' & H)]. congruence.
    - intros H. split; [apply existsb_leqb_in; eapply Hkey; eauto|]. exists st. split; [exact E|exact H]. }
  assert (HC : forall i st, dget leqb i its = Some st -> s_init st = init -> exists oc, rescale_components eps (s_comps st) = Some oc /\ dget leqb i cur = Some (with_comps st oc)).
  { intros i st E H. pose proof (HD i st E) as K. rewrite (Hkey i st E), (proj2 (leqb_spec _ _) H) in K. exact K. }
  assert (HC' : forall i st, dget leqb i its = Some st -> s_init st <> init -> dget leqb i cur = Some st).
  { intros i st E H. pose proof (HD i st E) as K. rewrite (Hkey i st E) in K. destruct (leqb (s_init st) init) eqn:EL; [apply leqb_spec in EL; contradiction|]. exact K. }
  destruct (merge_fold eps gs cur its' NDm) as (G & [keep EK] & B).
  { intros i Hi. rewrite HK. apply HM in Hi. apply Hi. }
  { exact HR. }
  assert (HN : forall i, dget leqb i its = None -> dget leqb i cur = None).
  { intros i E. apply (dget_none_iff leqb leqb_spec). apply (dget_none_iff leqb leqb_spec) in E. intros H. apply E. change (In i (dkeys its)). rewrite <- HK. exact H. }
  assert (HI : forall i st, dget leqb i its = Some st -> In (s_init st) [init] <-> s_init st = init).
  { intros i st _. cbn. split; [intros [->|[]]; reflexivity|auto]. }
  (* the weights *)
  assert (HW : forall g, In g gs -> total_of cur g = group_weight (leader_of gs) its (fst g)).
  { intros g Hg. unfold total_of, group_weight.
    transitivity (Rsum (fst g :: snd g) (fun j => match dget leqb j its with Some s => s_cum s | None => 0%R end)).
    { apply Rsum_ext. intros j Hj. assert (Hjm : In j (members gs)) by (unfold members; apply in_flat_map; eauto). apply HM in Hjm. destruct Hjm as (_ & st & E & Hl).
      destruct (HC j st E Hl) as (oc & _ & Ec). rewrite E, Ec. reflexivity. }
    rewrite <- Rsum_filter. set (f := filter _ its).
    transitivity (Rsum (map fst f) (fun j => match dget leqb j its with Some s => s_cum s | None => 0%R end)).
    - apply Rsum_perm. apply NoDup_Permutation.
      + destruct (in_split g gs Hg) as (a & b & ->). unfold members in NDm. rewrite flat_map_app in NDm. cbn [flat_map] in NDm. apply NoDup_app_r in NDm. apply NoDup_app_l in NDm. exact NDm.
      + apply filter_NoDup_map. exact ND.
      + intros j. rewrite in_map_iff. split.
        * intros Hj. assert (Hjm : In j (members gs)) by (unfold members; apply in_flat_map; eauto). apply HM in Hjm. destruct Hjm as (_ & st & E & Hl).
          exists (j, st). split; [reflexivity|]. apply filter_In. split; [now apply (dget_some_in leqb leqb_spec)|]. cbn [fst]. apply leqb_spec. now apply leader_of_in.
        * intros ((j' & st) & <- & Hj). apply filter_In in Hj. destruct Hj as [Hj E]. cbn [fst] in *. apply leqb_spec in E.
          destruct (existsb (leqb j') (members gs)) eqn:Em.
          -- apply existsb_leqb_in in Em. destruct (member_split _ _ Em) as (g' & Hg' & Hj'). rewrite (leader_of_in gs g' j' NDm Hg' Hj') in E.
             rewrite (members_unique gs g g' (fst g) NDm Hg Hg'); [exact Hj'|now left|left; exact E].
          -- assert (Hnm : ~ In j' (members gs)) by (intros H; apply existsb_leqb_in in H; congruence). rewrite leader_of_out in E by exact Hnm. left. symmetry. exact E.
    - rewrite Rsum_map. apply Rsum_ext. intros [j st] Hj. apply filter_In in Hj. cbn [fst snd]. rewrite (dget_in leqb leqb_spec j st its ND) by apply Hj. reflexivity. }
  exists (leader_of gs). constructor.
  - exists keep. change (dkeys its' = filter keep (dkeys its)). rewrite EK. f_equal. exact HK.
  - intros i st E Hl. rewrite lookup_dget in *. rewrite (HI i st E) in Hl. assert (Hm : ~ In i (members gs)) by (rewrite (HMi i st E); exact Hl).
    split; [now apply leader_of_out|]. rewrite G, (HC' i st E Hl). unfold after_merge. rewrite find_leader_none by exact Hm.
    replace (existsb (leqb i) (members gs)) with false by (symmetry; apply not_true_iff_false; rewrite existsb_leqb_in; exact Hm). reflexivity.
  - intros i st E Hl. rewrite lookup_dget in *. rewrite (HI i st E) in Hl. assert (Hm : In i (members gs)) by (rewrite (HMi i st E); exact Hl).
    destruct (member_split _ _ Hm) as (g & Hg & Hi). rewrite (leader_of_in gs g i NDm Hg Hi).
    split; [apply leader_of_in; auto; now left|].
    assert (Hgm : In (fst g) (members gs)) by (unfold members; apply in_flat_map; exists g; split; [exact Hg|now left]).
    apply HM in Hgm. destruct Hgm as (_ & lst & El & Hll). exists lst. split; [rewrite <- El; rewrite ?lookup_dget; reflexivity|]. split; [congruence|].
    destruct Hi as [Hi|Hi]; [now left|right]. destruct (HG g i Hg Hi) as (a & b & Ea & Eb & HIc).
    destruct (HC i st E Hl) as (oc & R1 & Ec1). destruct (HC (fst g) lst El Hll) as (olc & R2 & Ec2).
    exists oc, olc. split; [now apply rescale_spec|]. split; [now apply rescale_spec|]. assert (a = with_comps st oc) by congruence. assert (b = with_comps lst olc) by congruence. subst a b.
    now apply identical_spec.
  - intros i st E Hl Hr Hw. rewrite lookup_dget in *. rewrite (HI i st E) in Hl. assert (Hm : In i (members gs)) by (rewrite (HMi i st E); exact Hl).
    destruct (member_split _ _ Hm) as (g & Hg & Hi). rewrite (leader_of_in gs g i NDm Hg Hi) in Hr. subst i.
    split; [rewrite <- HW in * by exact Hg; now apply B|].
    destruct (HC _ st E Hl) as (oc & R1 & Ec1). exists oc. split; [now apply rescale_spec|]. rewrite G, Ec1. unfold after_merge.
    destruct (find (fun g0 => leqb (fst g0) (fst g)) gs) as [g'|] eqn:Ef.
    + apply find_some in Ef. destruct Ef as [Hg' Ef]. apply leqb_spec in Ef. assert (g' = g) by (apply (members_unique gs g' g (fst g)); auto; left; auto). subst g'.
      rewrite HW by exact Hg. destruct (Rle_dec eps (group_weight (leader_of gs) its (fst g))); [reflexivity|contradiction].
    + exfalso. pose proof (find_none _ _ Ef g Hg) as H. cbv beta in H. rewrite (proj2 (leqb_spec _ _) eq_refl) in H. discriminate.
  - intros i st E Hl Hr Hw. rewrite lookup_dget in *. rewrite (HI i st E) in Hl. assert (Hm : In i (members gs)) by (rewrite (HMi i st E); exact Hl).
    destruct (member_split _ _ Hm) as (g & Hg & Hi). rewrite (leader_of_in gs g i NDm Hg Hi) in Hr. subst i.
    destruct (HC _ st E Hl) as (oc & R1 & Ec1). rewrite G, Ec1. unfold after_merge.
    destruct (find (fun g0 => leqb (fst g0) (fst g)) gs) as [g'|] eqn:Ef.
    + apply find_some in Ef. destruct Ef as [Hg' Ef]. apply leqb_spec in Ef. assert (g' = g) by (apply (members_unique gs g' g (fst g)); auto; left; auto). subst g'.
      rewrite HW by exact Hg. destruct (Rle_dec eps (group_weight (leader_of gs) its (fst g))); [lra|reflexivity].
    + exfalso. pose proof (find_none _ _ Ef g Hg) as H. cbv beta in H. rewrite (proj2 (leqb_spec _ _) eq_refl) in H. discriminate.
  - intros i st E Hl Hr. rewrite lookup_dget in *. rewrite (HI i st E) in Hl. assert (Hm : In i (members gs)) by (rewrite (HMi i st E); exact Hl).
    destruct (HC _ st E Hl) as (oc & R1 & Ec1). rewrite G, Ec1. unfold after_merge.
    destruct (find (fun g0 => leqb (fst g0) i) gs) as [g'|] eqn:Ef.
    + apply find_some in Ef. destruct Ef as [Hg' Ef]. apply leqb_spec in Ef. exfalso. apply Hr. rewrite (leader_of_in gs g' i NDm Hg'); [exact Ef|left; exact Ef].
    + rewrite (proj2 (existsb_leqb_in i (members gs)) Hm). reflexivity.
  - intros i E. rewrite lookup_dget in *. rewrite G, (HN i E). reflexivity.
Qed.

(** ** All labels *)
Lemma in_lookup its j st : NoDup (map fst its) -> (In (j, st) its <-> lookup its j = Some st).
Proof.
  intros ND. rewrite lookup_dget. split; [now apply (dget_in leqb leqb_spec)|now apply (dget_some_in leqb leqb_spec)].
Qed.

Lemma labels_merged eps labels : forall its its', NoDup labels -> NoDup (map fst its) ->
  fold_left (cleanup_label eps) labels (Some its) = Some its' -> exists rep, merged eps labels rep its its'.
Proof.
  induction labels as [|init rest IH]; intros its its' NDl ND HR.
  - cbn in HR. injection HR as <-. exists (fun i => i). constructor; [|intros; auto|intros ? ? ? []|intros ? ? ? []|intros ? ? ? []|intros ? ? ? []|auto].
    exists (fun _ => true). symmetry. apply filter_true.
  - cbn [fold_left] in HR. assert (Hn : forall l, fold_left (cleanup_label eps) l None = None) by (induction l; auto).
    destruct (cleanup_label eps (Some its) init) as [its1|] eqn:E1; [|rewrite Hn in HR; discriminate].
    inversion NDl as [|? ? Hni NDr]; subst.
    destruct (label_merged eps init its its1 ND E1) as [rep1 [[k1 K1] O1 R1 L1 S1 G1 N1]].
    assert (ND1 : NoDup (map fst its1)) by (rewrite K1; apply NoDup_filter; exact ND).
    destruct (IH its1 its' NDr ND1 HR) as [rep2 [[k2 K2] O2 R2 L2 S2 G2 N2]].
    assert (Hin : forall st, In (s_init st) [init] <-> s_init st = init) by (intros st; cbn; split; [intros [->|[]]; reflexivity|auto]).
    (* states with label init after the first step *)
    assert (A : forall i st st', lookup its i = Some st -> s_init st = init -> lookup its1 i = Some st' -> s_init st' = init).
    { intros i st st' E Hl E'. pose proof (proj2 (Hin st) Hl) as Hl'. destruct (leqb (rep1 i) i) eqn:Er.
      - apply leqb_spec in Er. destruct (Rle_dec eps (group_weight rep1 its i)) as [Hw|Hw].
        + destruct (L1 i st E Hl' Er Hw) as (_ & oc & _ & Ei). rewrite Ei in E'. injection E' as <-. exact Hl.
        + rewrite (S1 i st E Hl' Er) in E' by lra. discriminate.
      - assert (rep1 i <> i) by (rewrite <- leqb_spec; congruence). rewrite (G1 i st E Hl') in E' by assumption. discriminate. }
    assert (A' : forall i st, lookup its i = Some st -> s_init st = init -> lookup its' i = lookup its1 i).
    { intros i st E Hl. destruct (lookup its1 i) as [st'|] eqn:E'; [|now apply N2]. apply (O2 i st' E'). rewrite (A i st st' E Hl E'). exact Hni. }
    assert (B : forall i st, lookup its i = Some st -> s_init st <> init -> lookup its1 i = Some st /\ rep1 i = i).
    { intros i st E Hl. destruct (O1 i st E) as [H1 H2]; [rewrite Hin; exact Hl|]. auto. }
    assert (B' : forall i st, lookup its1 i = Some st -> s_init st <> init -> lookup its i = Some st).
    { intros i st E Hl. destruct (lookup its i) as [st0|] eqn:E0; [|rewrite (N1 i E0) in E; discriminate].
      assert (Hl0 : s_init st0 <> init) by (intros H; exact (Hl (A i st0 st E0 H E))). destruct (B i st0 E0 Hl0) as [H _]. congruence. }
    (* rep2 keeps labels *)
    assert (R2l : forall i st, lookup its1 i = Some st -> exists st', lookup its1 (rep2 i) = Some st' /\ s_init st' = s_init st).
    { intros i st E. destruct (in_dec (list_eq_dec Nat.eq_dec) (s_init st) rest) as [Hl|Hl].
      - destruct (R2 i st E Hl) as (_ & lst & H1 & H2 & _). eauto.
      - destruct (O2 i st E Hl) as [-> _]. eauto. }
    assert (R1l : forall i st, lookup its i = Some st -> exists st', lookup its (rep1 i) = Some st' /\ s_init st' = s_init st).
    { intros i st E. destruct (list_eq_dec Nat.eq_dec (s_init st) init) as [Hl|Hl].
      - destruct (R1 i st E (proj2 (Hin st) Hl)) as (_ & lst & H1 & H2 & _). eauto.
      - destruct (B i st E Hl) as [_ ->]. eauto. }
    set (rep := fun i => match lookup its i with Some st => if leqb (s_init st) init then rep1 i else rep2 i | None => i end).
    assert (Ra : forall i st, lookup its i = Some st -> s_init st = init -> rep i = rep1 i).
    { intros i st E Hl. unfold rep. rewrite E, (proj2 (leqb_spec _ _) Hl). reflexivity. }
    assert (Rb : forall i st, lookup its i = Some st -> s_init st <> init -> rep i = rep2 i).
    { intros i st E Hl. unfold rep. rewrite E. destruct (leqb (s_init st) init) eqn:EL; [apply leqb_spec in EL; contradiction|reflexivity]. }
    assert (W1 : forall i st, lookup its i = Some st -> s_init st = init -> group_weight rep its i = group_weight rep1 its i).
    { intros i st E Hl. unfold group_weight. apply Rsum_ext. intros [j sj] Hj. cbn [fst snd]. apply (in_lookup its j sj ND) in Hj.
      destruct (list_eq_dec Nat.eq_dec (s_init sj) init) as [Hlj|Hlj]; [now rewrite (Ra j sj Hj Hlj)|].
      rewrite (Rb j sj Hj Hlj). destruct (B j sj Hj Hlj) as [Hj1 ->].
      assert (F1 : leqb (rep2 j) i = false).
      { apply not_true_iff_false. rewrite leqb_spec. intros K. destruct (R2l j sj Hj1) as (s' & H1 & H2). rewrite K in H1. apply Hlj. rewrite <- H2. exact (A i st s' E Hl H1). }
      assert (F2 : leqb j i = false). { apply not_true_iff_false. rewrite leqb_spec. intros ->. congruence. }
      now rewrite F1, F2. }
    assert (W2 : forall i st, lookup its i = Some st -> s_init st <> init -> group_weight rep its i = group_weight rep2 its1 i).
    { intros i st E Hl. unfold group_weight.
      transitivity (Rsum (filter (fun j => negb (leqb (s_init (snd j)) init)) its) (fun j => if leqb (rep2 (fst j)) i then s_cum (snd j) else 0%R)).
      - rewrite Rsum_filter. apply Rsum_ext. intros [j sj] Hj. cbn [fst snd]. apply (in_lookup its j sj ND) in Hj. destruct (leqb (s_init sj) init) eqn:EL; cbn [negb].
        + apply leqb_spec in EL. rewrite (Ra j sj Hj EL). assert (F : leqb (rep1 j) i = false); [|now rewrite F].
          apply not_true_iff_false. rewrite leqb_spec. intros K. destruct (R1l j sj Hj) as (s' & H1 & H2). rewrite K in H1. congruence.
        + rewrite (Rb j sj Hj); [reflexivity|]. intros H. apply (proj2 (leqb_spec _ _)) in H. congruence.
      - transitivity (Rsum (filter (fun j => negb (leqb (s_init (snd j)) init)) its1) (fun j => if leqb (rep2 (fst j)) i then s_cum (snd j) else 0%R)).
        + apply Rsum_perm. apply NoDup_Permutation.
          * apply NoDup_filter. exact (NoDup_map_inv _ _ ND).
          * apply NoDup_filter. exact (NoDup_map_inv _ _ ND1).
          * intros [j sj]. rewrite !filter_In. rewrite (in_lookup its j sj ND), (in_lookup its1 j sj ND1). cbn [snd].
            assert (Hq : negb (leqb (s_init sj) init) = true <-> s_init sj <> init) by (rewrite negb_true_iff, <- not_true_iff_false, leqb_spec; tauto).
            rewrite Hq. split; intros [H1 H2]; (split; [|exact H2]); [now apply B|now apply B'].
        + rewrite Rsum_filter. apply Rsum_ext. intros [j sj] Hj. cbn [fst snd]. apply (in_lookup its1 j sj ND1) in Hj. destruct (leqb (s_init sj) init) eqn:EL; cbn [negb]; [|reflexivity].
          apply leqb_spec in EL. destruct (O2 j sj Hj) as [-> _]; [rewrite EL; exact Hni|]. assert (F : leqb j i = false); [|now rewrite F].
          apply not_true_iff_false. rewrite leqb_spec. intros ->. destruct (B i st E Hl) as [H _]. congruence. }
    exists rep. constructor.
    + exists (fun i => k1 i && k2 i). rewrite K2, K1. apply filter_filter.
    + intros i st E Hl. cbn [In] in Hl. assert (Hl1 : s_init st <> init) by (intros H; apply Hl; auto). destruct (B i st E Hl1) as [E' _].
      destruct (O2 i st E') as [H1 H2]; [tauto|]. rewrite (Rb i st E Hl1). auto.
    + intros i st E Hl. destruct (list_eq_dec Nat.eq_dec (s_init st) init) as [Hl1|Hl1].
      * destruct (R1 i st E (proj2 (Hin st) Hl1)) as (H1 & lst & H2 & H3 & H4). rewrite (Ra i st E Hl1). rewrite (Ra (rep1 i) lst H2) by congruence.
        split; [exact H1|]. exists lst. auto.
      * destruct Hl as [Hl|Hl]; [congruence|]. destruct (B i st E Hl1) as [E' _]. destruct (R2 i st E' Hl) as (H1 & lst & H2 & H3 & H4).
        assert (Hll : s_init lst <> init) by congruence. pose proof (B' _ _ H2 Hll) as H2'. rewrite (Rb i st E Hl1), (Rb (rep2 i) lst H2' Hll). split; [exact H1|]. exists lst. auto.
    + intros i st E Hl Hr Hw. destruct (list_eq_dec Nat.eq_dec (s_init st) init) as [Hl1|Hl1].
      * rewrite (Ra i st E Hl1) in Hr. rewrite (W1 i st E Hl1) in *. rewrite (A' i st E Hl1). apply L1; auto. now apply Hin.
      * destruct Hl as [Hl|Hl]; [congruence|]. rewrite (Rb i st E Hl1) in Hr. rewrite (W2 i st E Hl1) in *. apply L2; auto. now apply B.
    + intros i st E Hl Hr Hw. destruct (list_eq_dec Nat.eq_dec (s_init st) init) as [Hl1|Hl1].
      * rewrite (Ra i st E Hl1) in Hr. rewrite (W1 i st E Hl1) in *. rewrite (A' i st E Hl1). apply (S1 i st); auto. now apply Hin.
      * destruct Hl as [Hl|Hl]; [congruence|]. rewrite (Rb i st E Hl1) in Hr. rewrite (W2 i st E Hl1) in *. apply (S2 i st); auto. now apply B.
    + intros i st E Hl Hr. destruct (list_eq_dec Nat.eq_dec (s_init st) init) as [Hl1|Hl1].
      * rewrite (Ra i st E Hl1) in Hr. rewrite (A' i st E Hl1). apply (G1 i st); auto. now apply Hin.
      * destruct Hl as [Hl|Hl]; [congruence|]. rewrite (Rb i st E Hl1) in Hr. apply (G2 i st); auto. now apply B.
    + intros i E. apply N2. now apply N1.
Qed.

(** ** C37 *)
(** clean_up merges states of the same initial state whose rescaled components are nearly equal,
    adds up their weights, drops groups of negligible weight and changes nothing else. *)
Theorem C37_clean_up : forall labels cs cs', NoDup labels -> NoDup (map fst (co_items cs)) ->
  clean_up labels cs = Some cs' ->
  co_D cs' = co_D cs /\ co_ncl cs' = co_ncl cs /\ co_eps cs' = co_eps cs /\
  exists rep, merged (co_eps cs) labels rep (co_items cs) (co_items cs').
Proof.
  intros labels cs cs' NDl ND HR. unfold clean_up in HR. destruct (fold_left _ labels _) as [its'|] eqn:E; [|discriminate]. cbn in HR. injection HR as <-.
  split; [reflexivity|]. split; [reflexivity|]. split; [reflexivity|]. exact (labels_merged _ _ _ _ NDl ND E).
Qed.

(** The summed weight of the states with one initial-state label. *)
Definition label_weight (lab : ident) (its : items) : R :=
  Rsum its (fun it => if leqb (s_init (snd it)) lab then s_cum (snd it) else 0%R).

Lemma merged_weight eps labels rep its its' lab : NoDup (map fst its) -> (0 <= eps)%R ->
  Forall (fun it => (eps <= s_cum (snd it))%R) its -> merged eps labels rep its its' ->
  label_weight lab its' = label_weight lab its.
Proof.
  intros ND He HF [[k K] O R L S G N].
  assert (ND' : NoDup (map fst its')) by (rewrite K; apply NoDup_filter; exact ND).
  assert (HF' : forall i st, lookup its i = Some st -> (eps <= s_cum st)%R).
  { intros i st E. rewrite Forall_forall in HF. apply (in_lookup its i st ND) in E. exact (HF _ E). }
  assert (R0 : forall i st, lookup its i = Some st -> rep (rep i) = rep i /\ exists lst, lookup its (rep i) = Some lst /\ s_init lst = s_init st).
  { intros i st E. destruct (in_dec (list_eq_dec Nat.eq_dec) (s_init st) labels) as [Hl|Hl].
    - destruct (R i st E Hl) as (H & lst & H1 & H2 & _). split; [exact H|]. eauto.
    - destruct (O i st E Hl) as [H _]. split; [now rewrite !H|]. rewrite H. eauto. }
  (* weight of a group whose leader is i *)
  assert (Wle : forall i st, lookup its i = Some st -> rep i = i -> (s_cum st <= group_weight rep its i)%R).
  { intros i st E Hr. unfold group_weight. apply (in_lookup its i st ND) in E. apply in_split in E. destruct E as (a & b & Eits).
    rewrite Eits. rewrite Rsum_app, Rsum_cons. cbn [fst snd]. rewrite (proj2 (leqb_spec _ _) Hr).
    assert (P : forall l, (forall x, In x l -> In x its) -> (0 <= Rsum l (fun j => if leqb (rep (fst j)) i then s_cum (snd j) else 0%R))%R).
    { intros l Hl. apply Rsum_nonneg. intros x Hx. rewrite Forall_forall in HF. specialize (HF x (Hl x Hx)). destruct (leqb _ _); lra. }
    assert (Pa := P a). assert (Pb := P b).
    specialize (Pa ltac:(intros x H; rewrite Eits; apply in_or_app; now left)). specialize (Pb ltac:(intros x H; rewrite Eits; apply in_or_app; right; now right)). lra. }
  (* the new weight of i *)
  assert (Hnew : forall i st, lookup its i = Some st -> 
     match lookup its' i with Some st' => rep i = i /\ s_init st' = s_init st /\ s_cum st' = group_weight rep its i | None => rep i <> i end).
  { intros i st E. destruct (in_dec (list_eq_dec Nat.eq_dec) (s_init st) labels) as [Hl|Hl].
    - destruct (list_eq_dec Nat.eq_dec (rep i) i) as [Hr|Hr].
      + destruct (Rle_dec eps (group_weight rep its i)) as [Hw|Hw].
        * destruct (L i st E Hl Hr Hw) as (_ & oc & _ & ->). auto.
        * exfalso. apply Hw. eapply Rle_trans; [exact (HF' i st E)|exact (Wle i st E Hr)].
      + rewrite (G i st E Hl Hr). exact Hr.
    - destruct (O i st E Hl) as [Hr ->]. split; [exact Hr|]. split; [reflexivity|].
      unfold group_weight. rewrite (Rsum_single its (i, st)).
      + cbn [fst snd]. now rewrite (proj2 (leqb_spec _ _) Hr).
      + exact (NoDup_map_inv _ _ ND).
      + apply (in_lookup its i st ND). exact E.
      + intros [j sj] Hj Hne. cbn [fst snd]. destruct (leqb (rep j) i) eqn:Ej; [|reflexivity]. exfalso. apply leqb_spec in Ej. apply (in_lookup its j sj ND) in Hj.
        destruct (in_dec (list_eq_dec Nat.eq_dec) (s_init sj) labels) as [Hlj|Hlj].
        * destruct (R j sj Hj Hlj) as (_ & lst & H1 & H2 & _). rewrite Ej in H1. congruence.
        * destruct (O j sj Hj Hlj) as [Hrj _]. rewrite Hrj in Ej. subst j. congruence. }
  unfold label_weight.
  transitivity (Rsum its (fun it => if leqb (s_init (snd it)) lab then if leqb (rep (fst it)) (fst it) then group_weight rep its (fst it) else 0%R else 0%R)).
  - (* sum over the leaders *)
    transitivity (Rsum (map fst its') (fun i => match lookup its i with Some st => if leqb (s_init st) lab then if leqb (rep i) i then group_weight rep its i else 0%R else 0%R | None => 0%R end)).
    + rewrite Rsum_map. apply Rsum_ext. intros [i st'] Hi. cbn [fst snd]. apply (in_lookup its' i st' ND') in Hi.
      destruct (lookup its i) as [st|] eqn:E; [|rewrite (N i E) in Hi; discriminate]. pose proof (Hnew i st E) as H. rewrite Hi in H. destruct H as (H1 & -> & ->).
      now rewrite (proj2 (leqb_spec _ _) H1).
    + rewrite K, Rsum_filter, Rsum_map. apply Rsum_ext. intros [i st] Hi. cbn [fst snd]. apply (in_lookup its i st ND) in Hi. rewrite Hi. destruct (k i) eqn:Ek; [reflexivity|].
      destruct (leqb (s_init st) lab); [|reflexivity]. destruct (leqb (rep i) i) eqn:Er; [|reflexivity]. exfalso. apply leqb_spec in Er.
      pose proof (Hnew i st Hi) as H. destruct (lookup its' i) as [st'|] eqn:E'; [|contradiction]. apply (in_lookup its' i st' ND') in E'. apply (in_map fst) in E'. rewrite K in E'. apply filter_In in E'. cbn [fst] in E'. destruct E'. congruence.
  - (* exchange the sums *)
    transitivity (Rsum its (fun it => Rsum its (fun j => if leqb (rep (fst j)) (fst it) then if leqb (s_init (snd j)) lab then s_cum (snd j) else 0%R else 0%R))).
    + apply Rsum_ext. intros [i st] Hi. cbn [fst snd]. apply (in_lookup its i st ND) in Hi. 
      assert (HZ : forall j sj, In (j, sj) its -> rep j = i -> s_init sj = s_init st /\ rep i = i).
      { intros j sj Hj Er. apply (in_lookup its j sj ND) in Hj. destruct (R0 j sj Hj) as (H1 & lst & H2 & H3). rewrite Er in *. split; [congruence|exact H1]. }
      unfold group_weight. destruct (leqb (s_init st) lab) eqn:EL; [destruct (leqb (rep i) i) eqn:Er|].
      * apply Rsum_ext. intros [j sj] Hj. cbn [fst snd]. destruct (leqb (rep j) i) eqn:Ej; [|reflexivity]. apply leqb_spec in Ej. destruct (HZ j sj Hj Ej) as [-> _]. now rewrite EL.
      * symmetry. apply Rsum_zero. intros [j sj] Hj. cbn [fst snd]. destruct (leqb (rep j) i) eqn:Ej; [|reflexivity]. apply leqb_spec in Ej. destruct (HZ j sj Hj Ej) as [_ H]. apply (proj2 (leqb_spec _ _)) in H. congruence.
      * symmetry. apply Rsum_zero. intros [j sj] Hj. cbn [fst snd]. destruct (leqb (rep j) i) eqn:Ej; [|reflexivity]. apply leqb_spec in Ej. destruct (HZ j sj Hj Ej) as [-> _]. now rewrite EL.
    + rewrite Rsum_swap. apply Rsum_ext. intros [j sj] Hj. cbn [fst snd]. apply (in_lookup its j sj ND) in Hj. destruct (R0 j sj Hj) as (_ & lst & H2 & _).
      rewrite (Rsum_single its (rep j, lst)).
      * cbn [fst]. now rewrite (proj2 (leqb_spec _ _) eq_refl).
      * exact (NoDup_map_inv _ _ ND).
      * apply (in_lookup its _ lst ND). exact H2.
      * intros [i st] Hi Hne. cbn [fst]. destruct (leqb (rep j) i) eqn:E; [|reflexivity]. apply leqb_spec in E. subst i. apply (in_lookup its _ st ND) in Hi. congruence.
Qed.

(** If no weight is below the threshold, clean_up keeps the summed weight of every label. *)
Theorem C37_total_weight : forall labels cs cs' lab, NoDup labels -> NoDup (map fst (co_items cs)) ->
  (0 <= co_eps cs)%R -> Forall (fun it => (co_eps cs <= s_cum (snd it))%R) (co_items cs) ->
  clean_up labels cs = Some cs' -> label_weight lab (co_items cs') = label_weight lab (co_items cs).
Proof.
  intros labels cs cs' lab NDl ND He HF HR. destruct (C37_clean_up labels cs cs' NDl ND HR) as (_ & _ & _ & rep & HM).
  exact (merged_weight _ _ _ _ _ lab ND He HF HM).
Qed.

(** States that differ only in their classical values are merged: the classical values of one of
    them are lost, with the weight attributed to those of the other. *)
Definition twin (v : R) : state := State [120] (/2) [([0;1], (RtoC 1, 1%R))] [v] [] [].
Definition twins : coll := Coll (Dims 2 2 true) 1 (/10) [([97], twin 0); ([98], twin 1)].

Lemma twins_cleaned : clean_up [[120]] twins = Some (Coll (Dims 2 2 true) 1 (/10) [([97], with_cum (twin 0) 1)]).
Proof.
  assert (ER : rescale_components (/10) [([0;1], (RtoC 1, 1%R))] = Some [([0;1], (RtoC 1, 1%R))]).
  { unfold rescale_components. cbn [map filter fst snd]. destruct (Rlt_dec 1 (/10)); [lra|]. unfold Rsum. cbn [fold_right fst snd]. rewrite Cnorm2_RtoC.
    replace (Rabs (1 * 1 + 0 - 1)) with 0%R by (replace (1 * 1 + 0 - 1)%R with 0%R by ring; now rewrite Rabs_R0).
    destruct (Rle_dec (/10) 0); [lra|]. reflexivity. }
  assert (EI : identical_components (/10) [([0;1], (RtoC 1, 1%R))] [([0;1], (RtoC 1, 1%R))] = true).
  { unfold identical_components. cbn [forallb dget leqb Nat.eqb andb fst snd]. replace (RtoC 1 - RtoC 1)%C with (RtoC 0) by ring. rewrite Cnorm2_zero.
    replace (1 - 1)%R with 0%R by ring. rewrite Rabs_R0. unfold Rleb. destruct (Rle_dec (/10) 0); [lra|reflexivity]. }
  unfold clean_up. cbn [fold_left twins co_eps co_items]. unfold cleanup_label. cbn [dkeys map fst fold_left].
  unfold cleanup_scan at 2. cbn [dget leqb Nat.eqb andb twin s_init s_comps fst snd]. rewrite ER.
  cbn [dset leqb Nat.eqb andb find_leader with_comps s_init s_cum s_comps s_classical s_results s_aux].
  unfold cleanup_scan. cbn [dget leqb Nat.eqb andb twin s_init s_comps fst snd]. rewrite ER.
  cbn [dset dget leqb Nat.eqb andb find_leader with_comps s_init s_cum s_comps s_classical s_results s_aux]. rewrite EI.
  unfold with_comps. cbn [dappend dget leqb Nat.eqb andb dset app fold_left cleanup_merge fst snd s_init s_cum s_comps s_classical s_results s_aux ddel filter negb].
  change (s_cum (twin 0)) with (/2)%R. change (s_cum (twin 1)) with (/2)%R. replace (/2 + /2)%R with 1%R by lra.
  unfold set_cumulative. 
  repeat match goal with |- context [Rle_dec ?a ?b] => destruct (Rle_dec a b); [|exfalso; lra] end.
  reflexivity.
Qed.

Theorem C37_classical_values_refuted : exists labels cs cs' it, NoDup (map fst (co_items cs)) /\ NoDup labels /\
  Forall (fun it => wf_state (co_D cs) (snd it) /\ state_norm2 (snd it) = 1%R) (co_items cs) /\
  clean_up labels cs = Some cs' /\ In it (co_items cs) /\
  (s_cum (snd it) > co_eps cs)%R /\
  forall it', In it' (co_items cs') -> s_classical (snd it') <> s_classical (snd it).
Proof.
  exists [[120]], twins, (Coll (Dims 2 2 true) 1 (/10) [([97], with_cum (twin 0) 1)]), ([98], twin 1).
  split; [repeat constructor; cbn; intuition discriminate|]. split; [repeat constructor; intros []|].
  split.
  { assert (H : forall v, wf_state (Dims 2 2 true) (twin v) /\ state_norm2 (twin v) = 1%R).
    { intros v. split.
      - split; [repeat constructor; intros []|]. intros nm. cbn. intros [<-|[]]. exists [0;1]. split; [split; [reflexivity|repeat constructor]|reflexivity].
      - unfold state_norm2, Rsum. cbn [twin s_comps fold_right fst snd]. rewrite Cnorm2_RtoC. ring. }
    apply Forall_cons; [apply H|apply Forall_cons; [apply H|apply Forall_nil]]. }
  split; [exact twins_cleaned|]. split; [cbn; auto|]. split; [cbn; lra|].
  intros it' [<-|[]]. cbn. intros [= H]. lra.
Qed.

(** A case for C37: the two states of [twins] are merged and their weights add up to 1. *)
Example C37_case : exists cs', clean_up [[120]] twins = Some cs' /\ length (co_items cs') = 1 /\
  Forall (fun it => (co_eps twins <= s_cum (snd it))%R) (co_items twins) /\ label_weight [120] (co_items cs') = 1%R.
Proof.
  eexists. split; [exact twins_cleaned|]. split; [reflexivity|]. split.
  - apply Forall_cons; [cbn; lra|apply Forall_cons; [cbn; lra|apply Forall_nil]].
  - unfold label_weight, Rsum. cbn. ring.
Qed.

(** "All optical components with low probability are removed and the total set is renormalized":
    when what remains is within the threshold of 1, the component stays, with amplitude and
    probability 0, and nothing is renormalized. *)
Definition lopsided : state := State [120] 1 [([0;1], (RtoC (24/25), (576/625)%R)); ([1;0], (RtoC (7/25), (49/625)%R))] [0%R] [] [].
Definition lopsided_coll : coll := Coll (Dims 2 2 true) 1 (/10) [([97], lopsided)].
Definition lopsided_after : state := State [120] 1 [([0;1], (RtoC (24/25), (576/625)%R)); ([1;0], (RtoC 0, 0%R))] [0%R] [] [].

Lemma lopsided_cleaned : clean_up [[120]] lopsided_coll = Some (Coll (Dims 2 2 true) 1 (/10) [([97], lopsided_after)]).
Proof.
  assert (ER : rescale_components (/10) (s_comps lopsided) = Some (s_comps lopsided_after)).
  { unfold rescale_components. cbn [lopsided s_comps map filter fst snd]. destruct (Rlt_dec (576/625) (/10)); [lra|].
    destruct (Rlt_dec (49/625) (/10)); [|lra]. unfold Rsum. cbn [fold_right fst snd]. rewrite Cnorm2_RtoC.
    replace (24/25 * (24/25) + 0 - 1)%R with (- (49/625))%R by field. rewrite Rabs_Ropp, Rabs_pos_eq by lra.
    destruct (Rle_dec (/10) (49/625)); [lra|]. reflexivity. }
  unfold clean_up. cbn [fold_left lopsided_coll co_eps co_items]. unfold cleanup_label. cbn [dkeys map fst fold_left].
  unfold cleanup_scan. cbn [dget leqb Nat.eqb andb snd]. change (leqb (s_init lopsided) [120]) with true. cbv iota. rewrite ER.
  cbn [dset leqb Nat.eqb andb find_leader fold_left cleanup_merge dget fst snd].
  unfold set_cumulative, with_comps. cbn [s_cum lopsided s_init s_classical s_results s_aux].
  repeat match goal with |- context [Rle_dec ?a ?b] => destruct (Rle_dec a b); [|exfalso; lra] end.
  reflexivity.
Qed.

Theorem C37_small_components_refuted : exists labels cs cs' it c, NoDup (map fst (co_items cs)) /\ NoDup labels /\
  Forall (fun it => wf_state (co_D cs) (snd it) /\ state_norm2 (snd it) = 1%R) (co_items cs) /\
  clean_up labels cs = Some cs' /\ In it (co_items cs') /\ In c (s_comps (snd it)) /\
  (snd (snd c) < co_eps cs)%R /\ (state_norm2 (snd it) < 1)%R.
Proof.
  exists [[120]], lopsided_coll, (Coll (Dims 2 2 true) 1 (/10) [([97], lopsided_after)]), ([97], lopsided_after), ([1;0], (RtoC 0, 0%R)).
  split; [repeat constructor; intros []|]. split; [repeat constructor; intros []|].
  split.
  { constructor; [|constructor]. split.
    - split; [repeat constructor; cbn; intuition discriminate|]. intros nm. cbn. intros [<-|[<-|[]]]; [exists [0;1]|exists [1;0]]; (split; [split; [reflexivity|repeat constructor]|reflexivity]).
    - unfold state_norm2, Rsum. cbn [lopsided snd s_comps fold_right fst]. rewrite !Cnorm2_RtoC. field. }
  split; [exact lopsided_cleaned|]. split; [left; reflexivity|]. split; [right; left; reflexivity|].
  split; [cbn; lra|]. unfold state_norm2, Rsum. cbn [lopsided_after snd s_comps fold_right fst]. rewrite !Cnorm2_RtoC. lra.
Qed.

(** The number of states with one initial-state label. *)
Definition label_count (lab : ident) (its : items) : nat := length (filter (fun it => leqb (s_init (snd it)) lab) its).

Lemma label_count_sum lab its : INR (label_count lab its) = Rsum its (fun it => if leqb (s_init (snd it)) lab then 1%R else 0%R).
Proof.
  unfold label_count. induction its as [|it r IH]; [reflexivity|]. rewrite Rsum_cons. cbn [filter]. destruct (leqb _ _); [cbn [length]; rewrite S_INR; lra|lra].
Qed.

Lemma Rsum_mono {A} (l : list A) f g : (forall x, In x l -> (f x <= g x)%R) -> (Rsum l f <= Rsum l g)%R.
Proof.
  induction l as [|x l IH]; intros H; [unfold Rsum; cbn; lra|]. rewrite !Rsum_cons.
  assert (H1 := H x (or_introl eq_refl)). assert (H2 := IH (fun y Hy => H y (or_intror Hy))). lra.
Qed.

Lemma merged_lost eps labels rep its its' lab : NoDup (map fst its) -> (0 <= eps)%R ->
  Forall (fun it => (0 <= s_cum (snd it))%R) its -> merged eps labels rep its its' ->
  (label_weight lab its' <= label_weight lab its <= label_weight lab its' + eps * (INR (label_count lab its) - INR (label_count lab its')))%R.
Proof.
  intros ND He HF [[k K] O HRp L HSm G N].
  assert (ND' : NoDup (map fst its')) by (rewrite K; apply NoDup_filter; exact ND).
  assert (W0 : forall i, (0 <= group_weight rep its i)%R).
  { intros i. apply Rsum_nonneg. intros x Hx. rewrite Forall_forall in HF. specialize (HF x Hx). destruct (leqb _ _); lra. }
  assert (R0 : forall i st, lookup its i = Some st -> rep (rep i) = rep i /\ exists lst, lookup its (rep i) = Some lst /\ s_init lst = s_init st).
  { intros i st E. destruct (in_dec (list_eq_dec Nat.eq_dec) (s_init st) labels) as [Hl|Hl].
    - destruct (HRp i st E Hl) as (H & lst & H1 & H2 & _). split; [exact H|]. eauto.
    - destruct (O i st E Hl) as [H _]. split; [now rewrite !H|]. rewrite H. eauto. }
  assert (Hnew : forall i st, lookup its i = Some st -> 
     match lookup its' i with Some st' => rep i = i /\ s_init st' = s_init st /\ s_cum st' = group_weight rep its i
     | None => rep i <> i \/ (group_weight rep its i < eps)%R end).
  { intros i st E. destruct (in_dec (list_eq_dec Nat.eq_dec) (s_init st) labels) as [Hl|Hl].
    - destruct (list_eq_dec Nat.eq_dec (rep i) i) as [Hr|Hr].
      + destruct (Rle_dec eps (group_weight rep its i)) as [Hw|Hw].
        * destruct (L i st E Hl Hr Hw) as (_ & oc & _ & ->). auto.
        * rewrite (HSm i st E Hl Hr) by lra. right. lra.
      + rewrite (G i st E Hl Hr). now left.
    - destruct (O i st E Hl) as [Hr ->]. split; [exact Hr|]. split; [reflexivity|].
      unfold group_weight. rewrite (Rsum_single its (i, st)).
      + cbn [fst snd]. now rewrite (proj2 (leqb_spec _ _) Hr).
      + exact (NoDup_map_inv _ _ ND).
      + apply (in_lookup its i st ND). exact E.
      + intros [j sj] Hj Hne. cbn [fst snd]. destruct (leqb (rep j) i) eqn:Ej; [|reflexivity]. exfalso. apply leqb_spec in Ej. apply (in_lookup its j sj ND) in Hj.
        destruct (in_dec (list_eq_dec Nat.eq_dec) (s_init sj) labels) as [Hlj|Hlj].
        * destruct (HRp j sj Hj Hlj) as (_ & lst & H1 & H2 & _). rewrite Ej in H1. congruence.
        * destruct (O j sj Hj Hlj) as [Hrj _]. rewrite Hrj in Ej. subst j. congruence. }
  set (kept := fun i => match lookup its' i with Some _ => true | None => false end).
  assert (A : forall (f : ident * state -> R) (g : ident -> R), (forall i st st', lookup its i = Some st -> lookup its' i = Some st' -> f (i, st') = g i) ->
    Rsum its' (fun it => if leqb (s_init (snd it)) lab then f it else 0%R)
    = Rsum its (fun it => if leqb (s_init (snd it)) lab then if kept (fst it) then g (fst it) else 0%R else 0%R)).
  { intros f g Hfg. transitivity (Rsum (map fst its') (fun i => match lookup its i with Some st => if leqb (s_init st) lab then if kept i then g i else 0%R else 0%R | None => 0%R end)).
    - rewrite Rsum_map. apply Rsum_ext. intros [i st'] Hi. cbn [fst snd]. apply (in_lookup its' i st' ND') in Hi. unfold kept. rewrite Hi.
      destruct (lookup its i) as [st|] eqn:E; [|rewrite (N i E) in Hi; discriminate]. pose proof (Hnew i st E) as H. rewrite Hi in H. destruct H as (_ & -> & _).
      destruct (leqb _ _); [|reflexivity]. exact (Hfg i st st' E Hi).
    - rewrite K, Rsum_filter, Rsum_map. apply Rsum_ext. intros [i st] Hi. cbn [fst snd]. apply (in_lookup its i st ND) in Hi. rewrite Hi. destruct (k i) eqn:Ek; [reflexivity|].
      unfold kept. destruct (lookup its' i) as [st'|] eqn:E'; [|now destruct (leqb _ _)]. apply (in_lookup its' i st' ND') in E'. apply (in_map fst) in E'. rewrite K in E'. apply filter_In in E'. cbn [fst] in E'. destruct E'. congruence. }
  assert (A1 : label_weight lab its' = Rsum its (fun it => if leqb (s_init (snd it)) lab then if kept (fst it) then group_weight rep its (fst it) else 0%R else 0%R)).
  { apply (A (fun it => s_cum (snd it))). intros i st st' E E'. pose proof (Hnew i st E) as H. rewrite E' in H. apply H. }
  assert (A2 : INR (label_count lab its') = Rsum its (fun it => if leqb (s_init (snd it)) lab then if kept (fst it) then 1%R else 0%R else 0%R)).
  { rewrite label_count_sum. apply (A (fun _ => 1%R) (fun _ => 1%R)). reflexivity. }
  assert (B : label_weight lab its = Rsum its (fun it => if leqb (s_init (snd it)) lab then if leqb (rep (fst it)) (fst it) then group_weight rep its (fst it) else 0%R else 0%R)).
  { symmetry. transitivity (Rsum its (fun it => Rsum its (fun j => if leqb (rep (fst j)) (fst it) then if leqb (s_init (snd j)) lab then s_cum (snd j) else 0%R else 0%R))).
    + apply Rsum_ext. intros [i st] Hi. cbn [fst snd]. apply (in_lookup its i st ND) in Hi. 
      assert (HZ : forall j sj, In (j, sj) its -> rep j = i -> s_init sj = s_init st /\ rep i = i).
      { intros j sj Hj Er. apply (in_lookup its j sj ND) in Hj. destruct (R0 j sj Hj) as (H1 & lst & H2 & H3). rewrite Er in *. split; [congruence|exact H1]. }
      unfold group_weight. destruct (leqb (s_init st) lab) eqn:EL; [destruct (leqb (rep i) i) eqn:Er|].
      * apply Rsum_ext. intros [j sj] Hj. cbn [fst snd]. destruct (leqb (rep j) i) eqn:Ej; [|reflexivity]. apply leqb_spec in Ej. destruct (HZ j sj Hj Ej) as [-> _]. now rewrite EL.
      * symmetry. apply Rsum_zero. intros [j sj] Hj. cbn [fst snd]. destruct (leqb (rep j) i) eqn:Ej; [|reflexivity]. apply leqb_spec in Ej. destruct (HZ j sj Hj Ej) as [_ H]. apply (proj2 (leqb_spec _ _)) in H. congruence.
      * symmetry. apply Rsum_zero. intros [j sj] Hj. cbn [fst snd]. destruct (leqb (rep j) i) eqn:Ej; [|reflexivity]. apply leqb_spec in Ej. destruct (HZ j sj Hj Ej) as [-> _]. now rewrite EL.
    + unfold label_weight. rewrite Rsum_swap. apply Rsum_ext. intros [j sj] Hj. cbn [fst snd]. apply (in_lookup its j sj ND) in Hj. destruct (R0 j sj Hj) as (_ & lst & H2 & _).
      rewrite (Rsum_single its (rep j, lst)).
      * cbn [fst]. now rewrite (proj2 (leqb_spec _ _) eq_refl).
      * exact (NoDup_map_inv _ _ ND).
      * apply (in_lookup its _ lst ND). exact H2.
      * intros [i st] Hi Hne. cbn [fst]. destruct (leqb (rep j) i) eqn:E; [|reflexivity]. apply leqb_spec in E. subst i. apply (in_lookup its _ st ND) in Hi. congruence. }
  assert (P : forall x, In x its -> kept (fst x) = true -> leqb (rep (fst x)) (fst x) = true).
  { intros [i st] Hi Hk. cbn [fst] in *. apply (in_lookup its i st ND) in Hi. pose proof (Hnew i st Hi) as H. unfold kept in Hk. destruct (lookup its' i); [|discriminate]. apply leqb_spec, H. }
  split.
  - rewrite A1, B. apply Rsum_mono. intros x Hx. specialize (P x Hx). specialize (W0 (fst x)).
    destruct (leqb (s_init (snd x)) lab); [|lra]. destruct (kept (fst x)); [rewrite P by reflexivity; lra|]. destruct (leqb _ _); lra.
  - rewrite A1, B, A2, label_count_sum.
    apply Rle_trans with (Rsum its (fun it => (if leqb (s_init (snd it)) lab then if kept (fst it) then group_weight rep its (fst it) else 0 else 0)
      + (eps * (if leqb (s_init (snd it)) lab then 1 else 0) + (- eps) * (if leqb (s_init (snd it)) lab then if kept (fst it) then 1 else 0 else 0)))%R).
    + apply Rsum_mono. intros [i st] Hx. specialize (P _ Hx). apply (in_lookup its i st ND) in Hx. pose proof (Hnew i st Hx) as H. cbn [fst snd] in *.
      destruct (leqb (s_init st) lab); [|lra]. unfold kept in *. destruct (lookup its' i); [rewrite P by reflexivity; lra|].
      destruct (leqb (rep i) i) eqn:Er; [|lra]. apply leqb_spec in Er. destruct H as [H|H]; [contradiction|lra].
    + rewrite !Rsum_plus, !Rsum_scal_l. lra.
Qed.

(** The weight that clean_up loses: never negative, and at most the threshold for each state that
    disappears. *)
Theorem C37_weight_lost : forall labels cs cs' lab, NoDup labels -> NoDup (map fst (co_items cs)) ->
  (0 <= co_eps cs)%R -> Forall (fun it => (0 <= s_cum (snd it))%R) (co_items cs) ->
  clean_up labels cs = Some cs' ->
  (label_weight lab (co_items cs') <= label_weight lab (co_items cs)
   <= label_weight lab (co_items cs') + co_eps cs * (INR (label_count lab (co_items cs)) - INR (label_count lab (co_items cs'))))%R.
Proof.
  intros labels cs cs' lab NDl ND He HF HR. destruct (C37_clean_up labels cs cs' NDl ND HR) as (_ & _ & _ & rep & HM).
  exact (merged_lost _ _ _ _ _ lab ND He HF HM).
Qed.

(** A case: the weights of [twins] are not negative, one state disappears. *)
Example C37_weight_lost_case : Forall (fun it => (0 <= s_cum (snd it))%R) (co_items twins) /\
  (exists cs', clean_up [[120]] twins = Some cs' /\ label_count [120] (co_items twins) = 2 /\ label_count [120] (co_items cs') = 1).
Proof.
  split; [repeat constructor; cbn; lra|]. eexists. split; [exact twins_cleaned|]. split; reflexivity.
Qed.
