(** The quick time delay: number states with a common timing are sent through the elements. *)
From Coq Require Import Reals List Arith Lia Lra Bool Permutation.
From Coquelicot Require Import Complex.
From Verif Require Import Prelude NamesModel NamesSpec NamesProofs FockModel FockSpec FockProofs StateModel StateSpec StateProofs ApplyProofs
  CollectionModel EvalModel MeasureSpec MeasureProofs PropProducts ColumnModel ColumnSpec ColumnProofs PropColumn
  GroupProofs TemporalSpec TemporalProofs PropTemporal InterferenceSpec ArrangementProofs InterferenceProofs MeasuredProofs ExperimentSpec ExperimentProofs PermanentProofs PropPermanent SentProofs ConservationProofs SpreadProofs QuickSpec.
Import ListNotations.

(** ** A branch as seen by the detectors *)
Definition vbranch (phi : R * R -> R * R) (v : view) : branch :=
  Branch (v_amp v) (v_boson v) (map (fun x => lamp (fst x) (phi (or_else (snd x) (0%R, 1%R)))) (v_photons v)).
Lemma retimed_detection phi vs f : (forall a b, pulse_overlap (phi a) (phi b) = pulse_overlap a b) ->
  detection (map (vbranch phi) vs) f = detection (map (vbranch (fun a => a)) vs) f.
Proof.
  intro H. unfold detection. f_equal. f_equal. unfold interference.
  assert (HF : Forall2 (fun b b' => (exists v, b = vbranch phi v /\ b' = vbranch (fun a => a) v) /\ (length (br_photons b) =? NamesSpec.photons f) = true)
     (fitting (map (vbranch phi) vs) f) (fitting (map (vbranch (fun a => a)) vs) f)).
  { unfold fitting. apply forall2_filter.
    - induction vs as [|v vs IH]; cbn [map]; constructor; [exists v; split; reflexivity|exact IH].
    - intros b b' (v & -> & ->). unfold vbranch. cbn [br_photons]. now rewrite !map_length. }
  assert (NP : forall v j, ph_wave (nth_photon (vbranch phi v) j) = ph_wave (nth_photon (vbranch (fun a => a) v) j)).
  { intros v j. unfold nth_photon, vbranch. cbn [br_photons]. destruct (Nat.lt_ge_cases j (length (v_photons v))) as [Hj|Hj].
    - rewrite !(nth_indep _ no_photon (lamp 0 (0%R, 1%R))) by (now rewrite map_length).
      rewrite (nth_indep _ (lamp 0 (0%R, 1%R)) (lamp (fst (0, @None (R * R))) (phi (or_else (snd (0, @None (R * R))) (0%R, 1%R))))) by (now rewrite map_length).
      rewrite (map_nth (fun x => lamp (fst x) (phi (or_else (snd x) (0%R, 1%R))))).
      rewrite (nth_indep _ (lamp 0 (0%R, 1%R)) (lamp (fst (0, @None (R * R))) (or_else (snd (0, @None (R * R))) (0%R, 1%R)))) by (now rewrite map_length).
      rewrite (map_nth (fun x => lamp (fst x) (or_else (snd x) (0%R, 1%R)))). reflexivity.
    - rewrite !nth_overflow by (now rewrite map_length). reflexivity. }
  assert (TT : forall v j, j < length (v_photons v) -> ph_timing (nth_photon (vbranch phi v) j) = phi (ph_timing (nth_photon (vbranch (fun a => a) v) j))).
  { intros v j Hj. unfold nth_photon, vbranch. cbn [br_photons]. 
    rewrite (nth_indep _ no_photon (lamp (fst (0, @None (R * R))) (phi (or_else (snd (0, @None (R * R))) (0%R, 1%R))))) by (now rewrite map_length).
    rewrite (map_nth (fun x => lamp (fst x) (phi (or_else (snd x) (0%R, 1%R))))).
    rewrite (nth_indep _ no_photon (lamp (fst (0, @None (R * R))) (or_else (snd (0, @None (R * R))) (0%R, 1%R)))) by (now rewrite map_length).
    rewrite (map_nth (fun x => lamp (fst x) (or_else (snd x) (0%R, 1%R)))). reflexivity. }
  apply (Csum_forall2 _ _ _ _ _ HF). intros b1 b1' [(v1 & -> & ->) L1]. apply (Csum_forall2 _ _ _ _ _ HF). intros b2 b2' [(v2 & -> & ->) L2].
  apply Nat.eqb_eq in L1. apply Nat.eqb_eq in L2. unfold vbranch in L1, L2. cbn [br_photons] in L1, L2. rewrite map_length in L1, L2.
  apply Csum_ext. intros s Hs. apply Csum_ext. intros t Ht.
  assert (EP : forall v cs o, path (vbranch phi v) cs o = path (vbranch (fun a => a) v) cs o).
  { intros v cs o. unfold path. cbn [vbranch br_amplitude br_boson]. f_equal. apply Cprod_ext. intros x _. now rewrite NP. }
  rewrite !EP. f_equal. f_equal. unfold indistinct. apply Rprod_ext. intros [i j] Hx. cbn [fst snd]. pose proof (in_combine_l _ _ _ _ Hx) as Hi. pose proof (in_combine_r _ _ _ _ Hx) as Hj.
  rewrite !TT; [apply H| |]; [rewrite L2; now apply (orders_bound _ t)|rewrite L1; now apply (orders_bound _ s)].
Qed.

(** ** The terms of a column *)
Definition core_lamps (D : dims) (phi : R * R -> R * R) (c : core) : list photon := lamps (phi (or_else (snd c) (0%R, 1%R))) (channels_of (core_values D c)).
Lemma lamps_of_photons D phi l : map (fun x => lamp (fst x) (phi (or_else (snd x) (0%R, 1%R)))) (core_photons D l) = flat_map (core_lamps D phi) l.
Proof.
  unfold core_photons. induction l as [|c l IH]; [reflexivity|]. cbn [flat_map]. rewrite map_app, IH. f_equal. unfold core_lamps, lamps. rewrite map_map. cbn [fst snd]. now rewrite pc_channels.
Qed.
(** The state stands for the photon numbers [v] behind the elements, up to the phase [th]. *)
Definition fans (D : dims) (U : nat -> nat -> C) (v : values) (T : R * R) (th : C) (s : state) : Prop :=
  (forall x, In x (choices s) -> valid D (core_values D (snd x)) /\ NamesSpec.photons (core_values D (snd x)) = NamesSpec.photons v /\ snd (snd x) = Some T) /\
  forall Psi : values -> C, Csum (choices s) (fun x => fst x * Psi (core_values D (snd x)))%C
    = (th * Csum (numbers (dL D) (dN D) (NamesSpec.photons v)) (fun u => number_amplitude U v u * Psi u))%C.
Definition root (l : list values) : C := RtoC (sqrt (INR (product (map factorials l)))).
Lemma product_pos l : 0 < product (map factorials l).
Proof. induction l as [|v l IH]; cbn [map product fold_right]; [lia|]. pose proof (factorials_pos v). fold (product (map factorials l)). nia. Qed.
Lemma root_cons v l : root (v :: l) = (RtoC (sqrt (INR (factorials v))) * root l)%C.
Proof.
  unfold root. cbn [map product fold_right]. fold (product (map factorials l)). rewrite mult_INR, sqrt_mult by apply pos_INR. apply RtoC_mult.
Qed.
Lemma root_ne l : root l <> RtoC 0.
Proof. unfold root. apply sqrt_C_ne. apply lt_0_INR, product_pos. Qed.
Lemma fact_root v : (RtoC (sqrt (INR (factorials v))) * RtoC (sqrt (INR (factorials v))))%C = RtoC (INR (factorials v)).
Proof. rewrite <- RtoC_mult, sqrt_sqrt by apply pos_INR. reflexivity. Qed.
Lemma fact_root_ne v : RtoC (sqrt (INR (factorials v))) <> RtoC 0.
Proof. apply sqrt_C_ne. apply lt_0_INR, factorials_pos. Qed.
Lemma terms_spread D U phi : forall sts ps ths K, Forall2 (fun s q => fans D U (fst (fst q)) (snd (fst q)) (snd q) s) sts (combine ps ths) -> length ps = length ths ->
  Csum (terms sts) (fun t => fst t / root (map (core_values D) (snd t)) * K (flat_map (core_lamps D phi) (snd t)))%C
  = (Cprod ths (fun z => z) / root (map fst ps) * spread (dL D) (dN D) U (map (fun p => (fst p, phi (snd p))) ps) K)%C.
Proof.
  induction sts as [|s sts IH]; intros ps ths K HF Hlen.
  - inversion HF as [E|]; subst. destruct ps as [|p ps]; [|destruct ths; discriminate]. destruct ths; [|discriminate]. cbn [terms map spread flat_map Cprod fold_right]. rewrite Csum_cons, Csum_nil. cbn [fst snd flat_map map]. ring.
  - destruct ps as [|p ps]; [inversion HF|]. destruct ths as [|th ths]; [discriminate|]. cbn [combine] in HF. inversion HF as [|? ? ? ? Hs HF' E1 E2]; subst. cbn [fst snd] in Hs. injection Hlen as Hlen.
    destruct Hs as [Hc Hsum]. cbn [terms]. rewrite Csum_flat_map.
    transitivity (Csum (choices s) (fun x => fst x * (RtoC 1 / RtoC (sqrt (INR (factorials (core_values D (snd x))))) * (Cprod ths (fun z => z) / root (map fst ps) *
        spread (dL D) (dN D) U (map (fun p => (fst p, phi (snd p))) ps) (fun l => K (lamps (phi (snd p)) (channels_of (core_values D (snd x))) ++ l)))))%C).
    + apply Csum_ext. intros x Hx. destruct (Hc x Hx) as (_ & _ & HT). rewrite Csum_map.
      rewrite <- (IH ps ths (fun l => K (lamps (phi (snd p)) (channels_of (core_values D (snd x))) ++ l)) HF' Hlen). rewrite <- !Csum_scal_l. apply Csum_ext. intros y _. cbn [fst snd map flat_map].
      rewrite root_cons. unfold core_lamps at 1. rewrite HT. cbn [or_else]. pose proof (fact_root_ne (core_values D (snd x))). pose proof (root_ne (map (core_values D) (snd y))). field. now split.
    + rewrite (Hsum (fun w => RtoC 1 / RtoC (sqrt (INR (factorials w))) * (Cprod ths (fun z => z) / root (map fst ps) *
        spread (dL D) (dN D) U (map (fun p => (fst p, phi (snd p))) ps) (fun l => K (lamps (phi (snd p)) (channels_of w) ++ l))))%C).
      cbn [map spread fst snd Cprod fold_right]. fold (Cprod ths (fun z => z)). rewrite root_cons. rewrite <- !Csum_scal_l. apply Csum_ext. intros u _. unfold number_amplitude. rewrite RtoC_mult.
      rewrite <- (fact_root u). pose proof (fact_root_ne u). pose proof (fact_root_ne (fst p)). pose proof (root_ne (map fst ps)). field. repeat split; assumption.
Qed.

(** ** The amplitudes of a group *)
Definition cviews (D : dims) (c : column) : list view :=
  map (fun t => ((col_amp c * fst t)%C, (col_boson c * sqrt (INR (product (map factorials (map (core_values D) (snd t))))))%R, core_photons D (snd t))) (terms (col_states c)).
(** The column stands for the component [v] of a state; [th] is a phase. *)
Definition column_fans (D : dims) (U : nat -> nat -> C) (phi : R * R -> R * R) (beam : values -> list photon) (t : R) (th : C) (v : values) (c : column) : Prop :=
  exists ps ths, length ps = length ths /\ Forall2 (fun s q => fans D U (fst (fst q)) (snd (fst q)) (snd q) s) (col_states c) (combine ps ths) /\
    Cprod ths (fun z => z) = th /\ product (map factorials (map fst ps)) = factorials v /\ fold_right Nat.add 0 (map (fun p => NamesSpec.photons (fst p)) ps) = NamesSpec.photons v /\
    Forall (fun p => phi (snd p) = ((- t)%R, 1%R) \/ phi (snd p) = (0%R, 1%R)) ps /\
    Permutation (block_beams U (map (fun p => (fst p, phi (snd p))) ps)) (beam v) /\ col_boson c = 1%R.
Lemma terms_count D U : forall sts ps ths, Forall2 (fun s q => fans D U (fst (fst q)) (snd (fst q)) (snd q) s) sts (combine ps ths) -> length ps = length ths ->
  forall t, In t (terms sts) -> length (core_photons D (snd t)) = fold_right Nat.add 0 (map (fun p => NamesSpec.photons (fst p)) ps) /\
    forall x, In x (core_photons D (snd t)) -> exists p, In p ps /\ snd x = Some (snd p).
Proof.
  induction sts as [|s sts IH]; intros ps ths HF Hlen t Ht.
  - inversion HF as [E|]; subst. destruct ps as [|p ps]; [|destruct ths; discriminate]. destruct Ht as [<-|[]]. split; [reflexivity|intros x []].
  - destruct ps as [|p ps]; [inversion HF|]. destruct ths as [|th ths]; [discriminate|]. cbn [combine] in HF. inversion HF as [|? ? ? ? Hs HF' E1 E2]; subst. cbn [fst snd] in Hs. injection Hlen as Hlen.
    cbn [terms] in Ht. apply in_flat_map in Ht. destruct Ht as (x & Hx & Ht). apply in_map_iff in Ht. destruct Ht as (y & <- & Hy). cbn [snd].
    destruct (IH ps ths HF' Hlen y Hy) as [E IHx]. destruct (proj1 Hs x Hx) as (_ & Hp & HT). unfold core_photons in *. cbn [flat_map]. rewrite app_length, map_length, E. cbn [map fold_right]. split.
    + f_equal. rewrite pc_channels, channels_length. exact Hp.
    + intros z Hz. apply in_app_iff in Hz. destruct Hz as [Hz|Hz].
      * apply in_map_iff in Hz. destruct Hz as (ch & <- & _). exists p. split; [now left|exact HT].
      * destruct (IHx z Hz) as (p' & I & E'). exists p'. split; [now right|exact E'].
Qed.
Lemma filter_all {A} (p : A -> bool) b l : (forall x, In x l -> p x = b) -> filter p l = if b then l else [].
Proof.
  induction l as [|x l IH]; intro H; [now destruct b|]. cbn [filter]. rewrite (H x (or_introl eq_refl)), IH by (intros y Hy; apply H; now right). now destruct b.
Qed.
Lemma column_mode D U phi beam t th v c e f ms : column_fans D U phi beam t th v c -> NamesSpec.photons v < dL D -> length f = dN D -> length ms = NamesSpec.photons f ->
  length (beam v) = NamesSpec.photons v ->
  Csum (fitting (map (vbranch phi) (cviews D c)) f) (fun b => br_amplitude b / RtoC (br_boson b) * arr e (combine (channels_of f) ms) (br_photons b))%C
  = if NamesSpec.photons v =? NamesSpec.photons f then (th * (col_amp c / RtoC (sqrt (INR (factorials v))) * arr e (combine (channels_of f) ms) (beam v)))%C else RtoC 0.
Proof.
  intros (ps & ths & Hlen & HF & Eth & Efa & Eph & _ & HP & Eb) Hv Lf Lm Lb.
  unfold fitting. rewrite (filter_all _ (NamesSpec.photons v =? NamesSpec.photons f)).
  2: { intros b Hb. apply in_map_iff in Hb. destruct Hb as (w & <- & Hw). apply in_map_iff in Hw. destruct Hw as (tt & <- & Ht). unfold vbranch. cbn [br_photons v_photons snd]. rewrite map_length.
       rewrite (proj1 (terms_count D U _ _ _ HF Hlen tt Ht)), Eph. reflexivity. }
  destruct (NamesSpec.photons v =? NamesSpec.photons f) eqn:E; [|apply Csum_nil]. apply Nat.eqb_eq in E.
  set (qs := combine (channels_of f) ms). assert (Lq : length qs = NamesSpec.photons f) by (unfold qs; rewrite combine_length, channels_length; lia).
  assert (Hqs : Forall (fun q => fst q < dN D) qs).
  { apply Forall_forall. intros [x y] Hx. apply in_combine_l in Hx. cbn [fst]. rewrite <- Lf. now apply channels_bound. }
  unfold cviews. rewrite !Csum_map.
  transitivity (Csum (terms (col_states c)) (fun y => col_amp c * (fst y / root (map (core_values D) (snd y)) * arr e qs (flat_map (core_lamps D phi) (snd y))))%C).
  { apply Csum_ext. intros y _. unfold vbranch. cbn [br_amplitude br_boson br_photons v_amp v_boson v_photons fst snd]. rewrite lamps_of_photons, Eb, Rmult_1_l. fold (root (map (core_values D) (snd y))). unfold Cdiv. ring. }
  rewrite Csum_scal_l. rewrite (terms_spread D U phi _ ps ths (fun l => arr e qs ([] ++ l)) HF Hlen : Csum _ (fun t0 => fst t0 / root (map (core_values D) (snd t0)) * arr e qs (flat_map (core_lamps D phi) (snd t0)))%C = _).
  assert (Hsmall : forall p, In p ps -> NamesSpec.photons (fst p) <= NamesSpec.photons v).
  { rewrite <- Eph. clear. induction ps as [|p ps IH]; intros q Hq; [destruct Hq|]. destruct Hq as [<-|Hq]; cbn [map fold_right]; [lia|]. specialize (IH q Hq). lia. }
  rewrite (spread_arr (dL D) (dN D) U e qs Hqs (map (fun p => (fst p, phi (snd p))) ps) []).
  - cbn [app]. rewrite (arr_perm e qs _ (beam v)).
    + unfold root. rewrite Efa, Eth. unfold Cdiv. ring.
    + rewrite (Permutation_length HP). lia.
    + exact HP.
  - apply Forall_map. apply Forall_forall. intros p Hp. cbn [fst]. specialize (Hsmall p Hp). lia.
  - cbn [app]. rewrite (Permutation_length HP). lia.
Qed.
Lemma mode_app e bs bs' f ms : length ms = NamesSpec.photons f -> mode_amplitude e (bs ++ bs') f ms = (mode_amplitude e bs f ms + mode_amplitude e bs' f ms)%C.
Proof. intro H. rewrite !mode_arr by exact H. unfold fitting. rewrite filter_app. apply Csum_app. Qed.
Lemma group_mode D U phi beam t th (hv : column -> values) cols e f ms : Forall (fun c => column_fans D U phi beam t th (hv c) c /\ NamesSpec.photons (hv c) < dL D /\ length (beam (hv c)) = NamesSpec.photons (hv c)) cols ->
  length f = dN D -> length ms = NamesSpec.photons f ->
  mode_amplitude e (map (vbranch phi) (flat_map (cviews D) cols)) f ms
  = (th * mode_amplitude e (map (fun va => Branch (snd va) (sqrt (INR (factorials (fst va)))) (beam (fst va))) (map (fun c => (hv c, col_amp c)) cols)) f ms)%C.
Proof.
  intros HF Lf Lm. induction HF as [|c cols (Hc & Hv & Lb) HF IH].
  - cbn [flat_map map]. unfold mode_amplitude, fitting. cbn [filter]. rewrite !Csum_nil. ring.
  - cbn [flat_map map]. rewrite map_app, mode_app, IH by exact Lm. rewrite (mode_app e [_] _ f ms Lm : mode_amplitude e (_ :: _) f ms = _).
    rewrite (mode_arr e (map (vbranch phi) (cviews D c)) f ms Lm). rewrite (column_mode D U phi beam t th (hv c) c e f ms Hc Hv Lf Lm Lb).
    rewrite (mode_arr e [_] f ms Lm). unfold fitting. cbn [filter br_photons fst]. rewrite Lb. destruct (NamesSpec.photons (hv c) =? NamesSpec.photons f).
    + rewrite Csum_cons, Csum_nil. cbn [br_amplitude br_boson br_photons fst snd]. ring.
    + rewrite Csum_nil. ring.
Qed.
Lemma group_detection D U phi beam t th (hv : column -> values) cols bs f : Cnorm2 th = 1%R ->
  Forall (fun c => column_fans D U phi beam t th (hv c) c /\ NamesSpec.photons (hv c) < dL D /\ length (beam (hv c)) = NamesSpec.photons (hv c)) cols ->
  (forall v p, In p (beam v) -> ph_timing p = ((- t)%R, 1%R) \/ ph_timing p = (0%R, 1%R)) ->
  Permutation (map (fun va => Branch (snd va) (sqrt (INR (factorials (fst va)))) (beam (fst va))) (map (fun c => (hv c, col_amp c)) cols)) bs -> length f = dN D ->
  detection (map (vbranch phi) (flat_map (cviews D) cols)) f = detection bs f.
Proof.
  intros Hth HF Hbeam HP Lf. rewrite <- (detection_perm _ _ f HP). unfold detection. f_equal. f_equal.
  set (bs' := map _ (map (fun c => (hv c, col_amp c)) cols)).
  rewrite (interference_modes 2 (two_modes t 1)).
  - rewrite (interference_modes 2 (two_modes t 1) bs').
    + f_equal. apply Rsum_ext. intros ms Hms. apply tuples_in in Hms. rewrite (group_mode D U phi beam t th hv cols _ f ms HF Lf (proj1 Hms)). fold bs'. now rewrite Cnorm2_mult, Hth, Rmult_1_l.
    + intros b b' p p' Hb Hb' Hp Hp'. apply two_modes_overlap; [lra| |].
      * apply in_map_iff in Hb. destruct Hb as (x & <- & _). exact (Hbeam _ _ Hp).
      * apply in_map_iff in Hb'. destruct Hb' as (x & <- & _). exact (Hbeam _ _ Hp').
  - assert (TM : forall b p, In b (map (vbranch phi) (flat_map (cviews D) cols)) -> In p (br_photons b) -> ph_timing p = ((- t)%R, 1%R) \/ ph_timing p = (0%R, 1%R)).
    { intros b p Hb Hp. apply in_map_iff in Hb. destruct Hb as (v & <- & Hv). apply in_flat_map in Hv. destruct Hv as (c & Hc & Hv). apply in_map_iff in Hv. destruct Hv as (tt & <- & Ht).
      destruct (proj1 (Forall_forall _ _) HF c Hc) as ((ps & ths & Hlen & HF2 & _ & _ & _ & Ht2 & _) & _).
      unfold vbranch in Hp. cbn [br_photons v_photons snd] in Hp. apply in_map_iff in Hp. destruct Hp as (x & <- & Hx). destruct (proj2 (terms_count D U _ _ _ HF2 Hlen tt Ht) x Hx) as (q & Hq & Eq).
      cbn [lamp ph_timing]. rewrite Eq. cbn [or_else]. exact (proj1 (Forall_forall _ _) Ht2 q Hq). }
    intros b b' p p' Hb Hb' Hp Hp'. apply two_modes_overlap; [lra|exact (TM b p Hb Hp)|exact (TM b' p' Hb' Hp')].
Qed.

(** ** The elements act on a number state *)
Definition sends_numbers (D : dims) (eps : R) (ncl : nat) (es : list optic) (F : state -> state) : Prop :=
  (forall x, s_init (F x) = s_init x /\ s_aux (F x) = s_aux x /\ s_classical (F x) = s_classical x /\ s_cum (F x) = s_cum x) /\
  forall x v a p T, valid D v -> NamesSpec.photons v < dL D -> s_comps x = [(name_string D v, (a, p))] -> Cnorm2 a = 1%R -> check_state eps ncl x = true -> probs_ok x -> photon_of x = Some T ->
    splittable eps ncl (F x) /\ wf_state D (F x) /\ probs_ok (F x) /\
    exists th, Cnorm2 th = 1%R /\ fans D (transfer (dN D) es) v T th (F x) /\ (a = RtoC 1 -> no_certain_phase D es -> th = RtoC 1).
Lemma aux_photon a b : s_aux a = s_aux b -> photon_of a = photon_of b.
Proof. intro H. unfold photon_of, resolution_of. now rewrite H. Qed.
Lemma choices_single_one st : forall nm q, s_comps st = [(nm, q)] -> choices st = [(RtoC 1, core_of st)].
Proof. intros nm q H. unfold choices. now rewrite H. Qed.
Lemma choices_many st : 2 <= length (s_comps st) -> choices st = map (fun c => (fst (snd c), core_with (core_of st) (unit_comp (fst c)))) (s_comps st).
Proof. intro H. unfold choices. destruct (s_comps st) as [|c [|c' l]]; cbn [length] in H; [lia|lia|reflexivity]. Qed.

Section Numbers.
Variables (D : dims) (eps : R) (es : list optic) (nds : list onode).
Hypothesis (HL : 2 <= dL D) (He : (0 < eps)%R) (Hne : es <> []) (Hes : Forall (optic_ok D) es) (Hpl : place D (optic_gates es) = Some nds).
Hypothesis (Hclear : clear_amplitudes D eps es).
Let U := transfer (dN D) es.
Let M := nodes_matrix D nds.
Let triv : forall c k, c < dN D -> k < dN D -> U c k = RtoC 0 \/ (0 <= Cnorm2 (U c k))%R.
Proof. intros c k _ _. right. apply Cnorm2_nonneg. Qed.
Lemma numbers_matrix v u : valid D v -> valid D u -> NamesSpec.photons v < dL D ->
  M (index_of_values D u) (index_of_values D v) = if NamesSpec.photons u =? NamesSpec.photons v then number_amplitude U v u else RtoC 0.
Proof.
  intros Hv Hu Hb. pose proof (optics_matrix D 0 es nds HL Hne Hes Hpl triv) as EM. destruct (NamesSpec.photons u =? NamesSpec.photons v) eqn:E.
  - apply Nat.eqb_eq in E. unfold number_amplitude. apply (circuit_permanent D es M v u ltac:(lia) Hes EM (proj1 Hv) (proj1 Hu)); lia.
  - apply Nat.eqb_neq in E. apply (GateProofs.circuit_conserves D (optic_gates es) M u v ltac:(lia)); try assumption. apply (optics_two D 0 es nds HL Hne Hes Hpl triv).
Qed.
Lemma clear_one c k : c < dN D -> k < dN D -> U c k = RtoC 0 \/ (eps <= Cnorm2 (U c k))%R.
Proof.
  intros Hc Hk. destruct (one_facts (dN D) c Hc) as [Lc [Pc _]]. destruct (one_facts (dN D) k Hk) as [Lk [Pk _]].
  assert (Vc : valid D (one_photon (dN D) c)) by (apply valid_bound; [exact Lc|lia]). assert (Vk : valid D (one_photon (dN D) k)) by (apply valid_bound; [exact Lk|lia]).
  assert (E : number_amplitude U (one_photon (dN D) k) (one_photon (dN D) c) = U c k).
  { pose proof (numbers_matrix _ _ Vk Vc ltac:(lia)) as E. rewrite Pc, Pk, Nat.eqb_refl in E. rewrite <- E. unfold M. apply (C48_one_photon D es); try assumption; try lia. apply (optics_matrix D 0 es nds HL Hne Hes Hpl triv). }
  rewrite <- E. apply Hclear; try assumption; lia.
Qed.
Lemma numbers_sent ncl : sends_numbers D eps ncl es (optical_step D eps nds).
Proof.
  split; [intro x; repeat split|]. intros x v a p T Hv Hb Hx Ha Hck Hpx HT. set (x' := optical_step D eps nds x). set (y := mat_vec (size_of_basis D) M (state_vector D x)).
  pose proof clear_one as Hthr.
  assert (Y1 : forall u, valid D u -> y (index_of_values D u) = ((if NamesSpec.photons u =? NamesSpec.photons v then number_amplitude U v u else RtoC 0) * a)%C).
  { intros u Hu. unfold y, M. rewrite (one_image D nds HL x v a p Hv Hx) by (now apply index_of_values_bound). f_equal. now apply numbers_matrix. }
  assert (Hy : forall i, i < size_of_basis D -> y i = RtoC 0 \/ (eps <= Cnorm2 (y i))%R).
  { intros i Hi. pose proof (values_from_index_valid D i ltac:(lia)) as Vi. pose proof (index_values_roundtrip D i ltac:(lia) Hi) as Ei. rewrite <- Ei, Y1 by exact Vi.
    destruct (NamesSpec.photons _ =? _) eqn:E; [|left; ring]. apply Nat.eqb_eq in E. rewrite Cnorm2_mult, Ha, Rmult_1_r. destruct (Hclear v _ (proj1 Hv) (proj1 Vi) (eq_sym E) Hb) as [Z|Z]; [left; fold U in Z; rewrite Z; ring|now right]. }
  assert (Ha0 : a <> RtoC 0) by (intros ->; rewrite Cnorm2_zero in Ha; lra).
  assert (Hwf : wf_state D x') by (apply components_wf; lia).
  assert (Hn1 : state_norm2 x' = 1%R) by exact (kept_norm D eps es nds HL Hne Hes Hpl Hthr x v a p Hv Hx Ha Hy).
  assert (Hin : forall nm b q, In (nm, (b, q)) (s_comps x') -> exists us, valid D us /\ nm = name_string D us /\ NamesSpec.photons us = NamesSpec.photons v /\ b = (number_amplitude U v us * a)%C /\ b <> RtoC 0).
  { intros nm b q H. destruct (kept_in D eps nds HL He x nm b q H) as (us & Vu & En & Eb & Hb0 & _). exists us. split; [exact Vu|]. split; [exact En|]. fold M in Eb. fold y in Eb. rewrite Y1 in Eb by exact Vu.
    destruct (NamesSpec.photons us =? NamesSpec.photons v) eqn:E; [apply Nat.eqb_eq in E; now repeat split|]. exfalso. apply Hb0. rewrite Eb. ring. }
  assert (Hamp : forall u, length u = dN D -> NamesSpec.photons u = NamesSpec.photons v -> amplitude x' (name_string D u) = (number_amplitude U v u * a)%C).
  { intros u Lu Pu. assert (Vu : valid D u) by (apply valid_bound; [exact Lu|lia]). unfold x'. rewrite (kept_amplitude D eps nds HL x Hy u Vu). fold M. fold y. rewrite Y1 by exact Vu. now rewrite Pu, Nat.eqb_refl. }
  assert (HT' : photon_of x' = Some T) by (rewrite <- HT; now apply aux_photon).
  split.
  { split; [exact (kept_check D eps es nds HL He Hne Hes Hpl Hthr x v a p Hv Hx Ha ncl Hck)|]. split; [exact (kept_some D eps es nds HL Hne Hes Hpl Hthr x v a p Hv Hx Ha Hy)|].
    intros _. split; [|exact Hn1]. apply Forall_forall. intros [nm [b q]] H. destruct (Hin nm b q H) as (us & _ & _ & _ & _ & Hb0). exact Hb0. }
  split; [exact Hwf|]. split; [apply components_probs|].
  destruct (s_comps x') as [|[n1 [b1 q1]] [|c2 l]] eqn:Ec.
  - exfalso. unfold state_norm2 in Hn1. rewrite Ec in Hn1. unfold Rsum in Hn1. cbn in Hn1. lra.
  - destruct (Hin n1 b1 q1 (or_introl eq_refl)) as (us & Vu & En & Pu & Eb & Hb0).
    assert (Nz : Cnorm2 (number_amplitude U v us) = 1%R).
    { unfold state_norm2 in Hn1. rewrite Ec in Hn1. rewrite Rsum_cons in Hn1. cbn [fst snd] in Hn1. unfold Rsum in Hn1. cbn in Hn1. rewrite Eb, Cnorm2_mult, Ha in Hn1. lra. }
    assert (Fv : first_values D x' = us) by (apply (first_values_one D x' us b1 q1 Vu); now rewrite Ec, En).
    exists (Cconj (number_amplitude U v us)). split; [|split].
    + rewrite <- Nz. unfold Cnorm2. cbn. ring.
    + split.
      * intros z Hz. rewrite (choices_single_one x' n1 (b1, q1) Ec) in Hz. destruct Hz as [<-|[]]. cbn [snd]. rewrite core_values_of, Fv. split; [exact Vu|]. split; [exact Pu|]. exact HT'.
      * intro Psi. rewrite (choices_single_one x' n1 (b1, q1) Ec), Csum_cons, Csum_nil. cbn [fst snd]. rewrite core_values_of, Fv.
        assert (Es : Csum (numbers (dL D) (dN D) (NamesSpec.photons v)) (fun u => number_amplitude U v u * Psi u)%C = (number_amplitude U v us * Psi us)%C).
        { assert (HI : In us (numbers (dL D) (dN D) (NamesSpec.photons v))) by (apply numbers_in; [exact Hb|]; split; [exact (proj1 Vu)|exact Pu]).
          rewrite (Csum_image _ [us] (fun u => u)).
          - rewrite Csum_cons, Csum_nil. ring.
          - apply numbers_nodup.
          - constructor; [intros []|constructor].
          - intros ? ? _ _ E. exact E.
          - intros z [<-|[]]. exact HI.
          - intros u Hu Hnot. apply numbers_in in Hu; [|exact Hb]. destruct Hu as [Lu Pu']. specialize (Hnot us (or_introl eq_refl)).
            pose proof (Hamp u Lu Pu') as HA. unfold amplitude in HA. rewrite Ec in HA. cbn [dget] in HA. destruct (leqb (name_string D u) n1) eqn:E.
            + exfalso. apply leqb_spec in E. rewrite En in E. apply (PropPRMeasure.name_inj D) in E; [now apply Hnot|apply valid_bound; [exact Lu|lia]|exact Vu].
            + destruct (Ceq_dec (number_amplitude U v u) (RtoC 0)) as [Z|Z]; [rewrite Z; ring|]. exfalso. exact (Cmult_neq_0 _ _ Z Ha0 (eq_sym HA)). }
        fold U. rewrite Es. rewrite Cmult_assoc, Cconj_mult_norm2, Nz. ring.
    + intros _ Hno. assert (Ez : number_amplitude U v us = RtoC 1) by (apply Hno; try assumption; [exact (proj1 Hv)|exact (proj1 Vu)|now symmetry]). rewrite Ez. apply C_eq; cbn; ring.
  - assert (L2 : 2 <= length (s_comps x')) by (rewrite Ec; cbn [length]; lia). rewrite <- Ec in Hin. clear Ec l c2 n1 b1 q1. exists a. split; [exact Ha|]. split.
    + split.
      * intros z Hz. rewrite (choices_many x' L2) in Hz. apply in_map_iff in Hz. destruct Hz as ([nm [b q]] & <- & H). cbn [fst snd core_with]. destruct (Hin nm b q H) as (us & Vu & En & Pu & _).
        assert (Ev : core_values D (with_comps (fst (core_of x')) (unit_comp nm), snd (core_of x')) = us).
        { unfold core_values. cbn [fst]. rewrite En. unfold unit_comp. now apply first_values_with. }
        unfold core_with. cbn [fst snd]. rewrite Ev. split; [exact Vu|]. split; [exact Pu|exact HT'].
      * intro Psi. rewrite (choices_many x' L2), Csum_map. cbn [fst snd]. rewrite <- Csum_scal_l. symmetry. fold U.
        destruct Hwf as [ND _].
        assert (G : forall c, In c (s_comps x') -> exists us, valid D us /\ fst c = name_string D us /\ values_of_name D (fst c) = us /\ NamesSpec.photons us = NamesSpec.photons v /\ fst (snd c) = (number_amplitude U v us * a)%C).
        { intros [nm [b q]] H. destruct (Hin nm b q H) as (us & Vu & En & Pu & Eb & _). exists us. cbn [fst snd]. split; [exact Vu|]. split; [exact En|]. split; [rewrite En; apply values_of_name_string, (proj2 Vu)|]. now split. }
        rewrite (Csum_image _ (s_comps x') (fun c => values_of_name D (fst c))).
        -- apply Csum_ext. intros c Hc. destruct (G c Hc) as (us & Vu & En & Ev & Pu & Eb). rewrite Eb, Ev.
           assert (Ev2 : core_values D (core_with (core_of x') (unit_comp (fst c))) = us) by (unfold core_values, core_with; cbn [fst]; rewrite En; unfold unit_comp; now apply first_values_with). rewrite Ev2. ring.
        -- apply numbers_nodup.
        -- exact (NoDup_map_inv _ _ ND).
        -- intros c c' Hc Hc' E. destruct (G c Hc) as (us & Vu & En & Ev & _). destruct (G c' Hc') as (us' & Vu' & En' & Ev' & _). rewrite Ev, Ev' in E. subst us'.
           assert (En2 : fst c = fst c') by congruence. clear -ND Hc Hc' En2. revert ND Hc Hc' En2. induction (s_comps x') as [|z l IH]; intros ND Hc Hc' E; [destruct Hc|]. cbn [map] in ND. inversion ND as [|? ? Hz ND']; subst.
           destruct Hc as [->|Hc], Hc' as [->|Hc']; [reflexivity| | |now apply IH]; exfalso; apply Hz; [rewrite E|rewrite <- E]; now apply in_map.
        -- intros c Hc. destruct (G c Hc) as (us & Vu & En & Ev & Pu & _). rewrite Ev. apply numbers_in; [exact Hb|]. split; [exact (proj1 Vu)|exact Pu].
        -- intros u Hu Hnot. apply numbers_in in Hu; [|exact Hb]. destruct Hu as [Lu Pu]. pose proof (Hamp u Lu Pu) as HA. unfold amplitude in HA. destruct (dget leqb (name_string D u) (s_comps x')) as [ap|] eqn:E.
           ++ exfalso. apply (dget_some_in leqb leqb_spec) in E. apply (Hnot _ E). cbn [fst]. symmetry. apply values_of_name_string. apply (proj2 (valid_bound D u Lu ltac:(lia))).
           ++ destruct (Ceq_dec (number_amplitude U v u) (RtoC 0)) as [Z|Z]; [rewrite Z; ring|]. exfalso. exact (Cmult_neq_0 _ _ Z Ha0 (eq_sym HA)).
    + intros E _. exact E.
Qed.
End Numbers.
Lemma nothing_sent D eps ncl : 2 <= dL D -> sends_numbers D eps ncl [] (fun x => x).
Proof.
  intro HL. split; [intro x; repeat split|]. intros x v a p T Hv Hb Hx Ha Hck Hpx HT. assert (Fv : first_values D x = v) by (now apply (first_values_one D x v a p)).
  assert (Hz : forall u, length u = dN D -> NamesSpec.photons u = NamesSpec.photons v -> number_amplitude (transfer (dN D) []) v u = if leqb v u then RtoC 1 else RtoC 0).
  { intros u Lu Pu. assert (Lv : length v = length u) by (rewrite Lu; exact (proj1 Hv)). pose proof (ideal_ket [] v u Lv (eq_sym Pu) ltac:(constructor)) as E.
    unfold number_amplitude. rewrite Lu in E. rewrite <- E. cbn [ideal]. unfold ket. destruct (leqb u v) eqn:E1.
    - apply leqb_spec in E1. subst. now rewrite leqb_same.
    - rewrite leqb_false; [reflexivity|]. intros ->. now rewrite leqb_same in E1. }
  split; [split; [exact Hck|]; rewrite Hx; split; [discriminate|cbn [length]; lia]|]. split; [split; rewrite Hx; cbn [map fst]; [constructor; [intros []|constructor]|intros nm [<-|[]]; now exists v]|]. split; [exact Hpx|].
  exists (RtoC 1). split; [unfold Cnorm2; cbn; ring|]. split; [|reflexivity]. split.
  - intros z Hz'. rewrite (choices_single_one x _ _ Hx) in Hz'. destruct Hz' as [<-|[]]. cbn [snd]. rewrite core_values_of, Fv. now repeat split; try apply Hv.
  - intro Psi. rewrite (choices_single_one x _ _ Hx), Csum_cons, Csum_nil. cbn [fst snd]. rewrite core_values_of, Fv.
    rewrite (Csum_image (numbers _ _ _) [v] (fun u => u)).
    + rewrite Csum_cons, Csum_nil, Hz by (try reflexivity; exact (proj1 Hv)). rewrite leqb_same. ring.
    + apply numbers_nodup.
    + constructor; [intros []|constructor].
    + intros ? ? _ _ E. exact E.
    + intros z [<-|[]]. apply numbers_in; [exact Hb|]. split; [exact (proj1 Hv)|reflexivity].
    + intros u Hu Hnot. apply numbers_in in Hu; [|exact Hb]. destruct Hu as [Lu Pu]. rewrite Hz by assumption. rewrite leqb_false; [ring|]. intro E. exact (Hnot v (or_introl eq_refl) (eq_sym E)).
Qed.
