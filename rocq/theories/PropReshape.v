(** Property theorems C34 (reduce), C35 (extend) and C36 (adjust_length_of_fock_state). *)
From Coq Require Import Reals List Arith Lia Lra Bool Permutation.
From Coquelicot Require Import Complex.
From Verif Require Import Prelude NamesModel NamesSpec NamesProofs FockModel FockSpec StateModel StateSpec StateProofs
  ApplyProofs CollectionModel CollectionSpec EvalModel EvalSpec EvalProofs MeasureSpec MeasureProofs WfProofs
  PropState PropMeasure PropEval PropCollection PropProducts ReshapeSpec ReshapeProofs.
Import ListNotations.

(** ** C36 *)
(** [s] is [st] in a circuit with another Fock length. *)
Definition same_state (D D' : dims) (st s : state) : Prop :=
  same_but_components st s /\ wf_state D' s /\ state_norm2 s = state_norm2 st /\
  (forall vs, valid D vs -> valid D' vs -> amp_of D' s vs = amp_of D st vs) /\
  (forall vs, valid D vs -> ~ valid D' vs -> amp_of D st vs = RtoC 0) /\
  (forall vs, valid D' vs -> ~ valid D vs -> amp_of D' s vs = RtoC 0).

Lemma map_mod_small L' vs : Forall (fun v => v < L') vs -> map (fun v => v mod L') vs = vs.
Proof.
  induction 1 as [|v vs H _ IH]; [reflexivity|]. cbn [map]. now rewrite IH, Nat.mod_small.
Qed.

Lemma adjust_same D L' st : 1 <= dL D -> wf_state D st ->
  (forall vs, has D st vs -> Forall (fun v => v < L') vs) ->
  same_state D (shape_with_length D L') st (with_comps st (adjust_components D L' (s_comps st))).
Proof.
  intros HL W Hf.
  destruct (renamed_spec D (adjusted_dims D L') (map (fun v => v mod L')) st HL W) as (E & W' & A & Z).
  { intros vs H. rewrite map_mod_small by auto. split; [exact (proj1 (proj1 H))|now apply Hf]. }
  { intros us vs H1 H2. rewrite !map_mod_small by auto. auto. }
  assert (EA : adjust_components D L' (s_comps st) = renamed D (adjusted_dims D L') (map (fun v => v mod L')) (s_comps st)) by exact E.
  rewrite EA. change (shape_with_length D L') with (adjusted_dims D L'). split; [repeat split|]. split; [exact W'|].
  split; [now apply (renamed_norm D (adjusted_dims D L') (map (fun v => v mod L')))|]. split; [|split].
  - intros vs V V'. destruct (has_dec D st vs V) as [H|H].
    + rewrite <- (A vs H). now rewrite map_mod_small by (exact (proj2 V')).
    + rewrite (amp_absent D st vs V H). apply Z; [exact (proj2 V')|]. intros us Hu ->. apply H. now rewrite map_mod_small by auto.
  - intros vs V V'. apply amp_absent; auto. intros H. apply V'. split; [exact (proj1 V)|now apply Hf].
  - intros vs V V'. apply Z; [exact (proj2 V)|]. intros us Hu ->. apply V'. rewrite map_mod_small by auto. exact (proj1 Hu).
Qed.

(** Changing the Fock length of a collection whose photon numbers fit in the new length keeps
    identifiers, order, weights, classical data and every amplitude. *)
Theorem C36_adjust_length : forall L' cs cs', 1 <= dL (co_D cs) -> 1 <= L' ->
  NoDup (map fst (co_items cs)) ->
  Forall (fun it => wf_state (co_D cs) (snd it) /\ forall vs, has (co_D cs) (snd it) vs -> Forall (fun v => v < L') vs) (co_items cs) ->
  adjust_length L' cs = Some cs' ->
  co_D cs' = shape_with_length (co_D cs) L' /\ co_ncl cs' = co_ncl cs /\ co_eps cs' = co_eps cs /\
  Forall2 (fun it it' => fst it' = fst it /\ same_state (co_D cs) (co_D cs') (snd it) (snd it')) (co_items cs) (co_items cs').
Proof.
  intros L' cs cs' HL HL' ND HF E. unfold adjust_length in E. destruct (Nat.eqb_spec L' 0) as [|_]; [lia|].
  destruct (option_list _) as [its|] eqn:Eo; [|discriminate]. injection E as <-. cbn [co_D co_ncl co_eps co_items].
  split; [reflexivity|]. split; [reflexivity|]. split; [reflexivity|].
  apply option_list_some in Eo. apply map_some_inv in Eo.
  assert (G : Forall2 (fun it it' => fst it' = fst it /\ same_state (co_D cs) (adjusted_dims (co_D cs) L') (snd it) (snd it')) (co_items cs) its).
  { clear ND. induction Eo as [|it it' l l' H _ IH]; [constructor|]. inversion HF as [|? ? [W Hf] HF']; subst. constructor; [|now apply IH].
    unfold adjust_state, make_state in H. destruct (check_state _ _ _); [|discriminate]. cbn [option_map] in H. injection H as <-.
    cbn [fst snd]. split; [reflexivity|]. now apply adjust_same. }
  rewrite (dict_of_nodup leqb leqb_spec); [exact G|].
  assert (EK : map fst (co_items cs) = map fst its).
  { clear - G. induction G as [|? ? ? ? [H _] _ IH]; [reflexivity|]. cbn [map]. congruence. }
  rewrite EK in ND. exact ND.
Qed.

(** It does not raise for valid states. *)
Theorem C36_does_not_raise : forall L' cs, 1 <= dL (co_D cs) -> 1 <= L' ->
  Forall (fun it => wf_state (co_D cs) (snd it) /\ (forall vs, has (co_D cs) (snd it) vs -> Forall (fun v => v < L') vs) /\
                    check_state (co_eps cs) (co_ncl cs) (snd it) = true) (co_items cs) ->
  exists cs', adjust_length L' cs = Some cs'.
Proof.
  intros L' cs HL HL' HF. unfold adjust_length. destruct (Nat.eqb_spec L' 0) as [|_]; [lia|].
  rewrite (option_list_all _ (fun it => (fst it, with_comps (snd it) (adjust_components (co_D cs) L' (s_comps (snd it)))))); [eexists; reflexivity|].
  intros it Hin. rewrite Forall_forall in HF. destruct (HF it Hin) as (W & Hf & Hc). unfold adjust_state, make_state.
  replace (check_state _ _ _) with true; [reflexivity|]. symmetry.
  destruct (renamed_spec (co_D cs) (adjusted_dims (co_D cs) L') (map (fun v => v mod L')) (snd it) HL W) as (E & _).
  { intros vs H. rewrite map_mod_small by auto. split; [exact (proj1 (proj1 H))|now apply Hf]. }
  { intros us vs H1 H2. rewrite !map_mod_small by auto. auto. }
  assert (EA : adjust_components (co_D cs) L' (s_comps (snd it)) = renamed (co_D cs) (adjusted_dims (co_D cs) L') (map (fun v => v mod L')) (s_comps (snd it))) by exact E.
  rewrite EA. unfold check_state in *. cbn [s_cum s_comps s_classical with_comps].
  apply andb_prop in Hc. destruct Hc as [Hc ->]. apply andb_prop in Hc. destruct Hc as [-> Hc]. rewrite andb_true_r. cbn [andb].
  unfold renamed. rewrite forallb_forall in *. intros c H. apply in_map_iff in H. destruct H as (d & <- & Hd). cbn [snd]. now apply Hc.
Qed.

(** If they do not fit, the photon numbers are taken modulo the new length: different components
    can be overwritten and the state is no longer normalised. *)
Theorem C36_too_short_refuted : exists L' cs cs' st s,
  1 <= dL (co_D cs) /\ 1 <= L' /\ co_items cs = [([97], st)] /\ wf_state (co_D cs) st /\ state_norm2 st = 1%R /\
  adjust_length L' cs = Some cs' /\ co_items cs' = [([97], s)] /\ state_norm2 s = (/2)%R.
Proof.
  set (st := State [120] 1 [([0;0], (RtoC (/ sqrt 2), (/2)%R)); ([2;0], (RtoC (/ sqrt 2), (/2)%R))] [] [] []).
  exists 2, (Coll (Dims 3 2 true) 0 0 [([97], st)]).
  exists (Coll (Dims 2 2 true) 0 0 [([97], with_comps st [([0;0], (RtoC (/ sqrt 2), (/2)%R))])]).
  exists st, (with_comps st [([0;0], (RtoC (/ sqrt 2), (/2)%R))]).
  split; [cbn; lia|]. split; [lia|]. split; [reflexivity|]. split.
  { split; [repeat constructor; cbn; intuition discriminate|]. intros nm. cbn. intros [<-|[<-|[]]].
    - exists [0;0]. split; [split; [reflexivity|repeat constructor; cbn; lia]|reflexivity].
    - exists [2;0]. split; [split; [reflexivity|repeat constructor; cbn; lia]|reflexivity]. }
  split. { unfold state_norm2, Rsum. cbn [s_comps st fold_right fst snd]. rewrite !Cnorm2_RtoC, inv_sqrt2_sq. lra. }
  split; [|split; [reflexivity|unfold state_norm2, Rsum; cbn [s_comps with_comps fold_right fst snd]; rewrite !Cnorm2_RtoC, inv_sqrt2_sq; lra]].
  unfold adjust_length. cbn [Nat.eqb co_items co_D co_eps co_ncl map option_list snd fst].
  unfold adjust_state, make_state. change (adjust_components (Dims 3 2 true) 2 (s_comps st)) with [([0;0], (RtoC (/ sqrt 2), (/2)%R))].
  replace (check_state _ _ _) with true; [reflexivity|]. symmetry. unfold check_state, Rltb.
  cbn [s_cum with_comps s_comps s_classical st forallb snd fst length Nat.eqb].
  repeat (destruct (Rlt_dec _ _); [exfalso; lra|]). reflexivity.
Qed.

Example C36_case : wf_state (Dims 2 2 true) split_photon /\
  (forall vs, has (Dims 2 2 true) split_photon vs -> Forall (fun v => v < 11) vs) /\
  adjust_components (Dims 2 2 true) 11 (s_comps split_photon)
  = [([0;0;0;1], (RtoC (/ sqrt 2), (/2)%R)); ([0;1;0;0], (RtoC (/ sqrt 2), (/2)%R))].
Proof.
  split; [|split; [|reflexivity]].
  - destruct C20_case as (_ & _ & _ & [_ Hw] & _). exact (proj1 (Forall_inv Hw)).
  - intros vs [[_ HF] _]. revert HF. apply Forall_impl. cbn. lia.
Qed.

(** ** C35 *)
Lemma distribution_prob_snoc dist vs v : distribution_prob dist (vs ++ [v]) = (nth v dist 0 * distribution_prob dist vs)%R.
Proof.
  induction vs as [|u vs IH]; cbn [app distribution_prob fold_right]; [reflexivity|]. fold (distribution_prob dist (vs ++ [v])).
  rewrite IH. fold (distribution_prob dist vs). ring.
Qed.

Definition configs (L : nat) (n : nat) : list values := map snd (extra_values L [] n).
Lemma extra_values_configs L dist n :
  extra_values L dist n = map (fun vs => (distribution_prob dist vs, vs)) (configs L n).
Proof.
  induction n as [|n IH]; [reflexivity|]. unfold configs. cbn [extra_values]. rewrite IH. unfold extra_step.
  unfold configs. generalize (extra_values L [] n). intros l. clear IH.
  induction l as [|[p vs] l IH]; [reflexivity|]. cbn [map flat_map fst snd]. rewrite IH, map_app. rewrite (map_app (fun vs0 : values => (distribution_prob dist vs0, vs0))). f_equal.
  rewrite !map_map. apply map_ext. intros v. cbn [snd]. now rewrite distribution_prob_snoc.
Qed.
Lemma configs_S L n : configs L (S n) = flat_map (fun vs => map (fun v => vs ++ [v]) (seq 0 L)) (configs L n).
Proof.
  unfold configs at 1. cbn [extra_values]. unfold extra_step, configs. generalize (extra_values L [] n). intros l.
  induction l as [|[p vs] l IH]; [reflexivity|]. cbn [map flat_map fst snd]. rewrite map_app, <- IH. f_equal.
  rewrite map_map. reflexivity.
Qed.
Lemma configs_in L n vs : In vs (configs L n) <-> length vs = n /\ Forall (fun v => v < L) vs.
Proof.
  revert vs. induction n as [|n IH]; intros vs.
  - cbn. split; [intros [<-|[]]; auto|]. intros [H _]. destruct vs; [now left|discriminate].
  - rewrite configs_S, in_flat_map. split.
    + intros (us & Hu & Hin). apply in_map_iff in Hin. destruct Hin as (v & <- & Hv). apply IH in Hu. destruct Hu as [Hl HF].
      apply in_seq in Hv. rewrite app_length, Hl. split; [cbn; lia|]. apply Forall_app. split; auto. constructor; [lia|constructor].
    + intros [Hl HF]. destruct vs as [|x xs] using rev_ind; [discriminate|]. clear IHxs. rewrite app_length in Hl. cbn in Hl.
      apply Forall_app in HF. destruct HF as [H1 H2]. exists xs. split; [apply IH; split; [lia|auto]|].
      apply in_map_iff. exists x. split; auto. apply in_seq. inversion H2; subst. lia.
Qed.
Lemma NoDup_app' {A} (l1 l2 : list A) : NoDup l1 -> NoDup l2 -> (forall x, In x l1 -> ~ In x l2) -> NoDup (l1 ++ l2).
Proof.
  induction l1 as [|x l1 IH]; intros N1 N2 H; [exact N2|]. inversion N1; subst. cbn [app]. constructor.
  - intros Hin. apply in_app_or in Hin. destruct Hin; [contradiction|]. apply (H x); [now left|auto].
  - apply IH; auto. intros y Hy. apply H. now right.
Qed.
Lemma configs_nodup L n : NoDup (configs L n).
Proof.
  induction n as [|n IH]; [repeat constructor; auto|]. rewrite configs_S. revert IH. generalize (configs L n). intros l.
  induction l as [|vs l IHl]; intros ND; [constructor|]. inversion ND; subst. cbn [flat_map]. apply NoDup_app'; auto.
  - apply map_inj_NoDup; [|apply seq_NoDup]. intros a b _ _ E. apply app_inj_tail in E. tauto.
  - intros x Hx Hin. apply in_map_iff in Hx. destruct Hx as (v & <- & _). apply in_flat_map in Hin. destruct Hin as (us & Hu & Hin).
    apply in_map_iff in Hin. destruct Hin as (w & E & _). apply app_inj_tail in E. destruct E as [-> _]. contradiction.
Qed.

Lemma extended_extension D p extra kcl st : 1 <= dL D -> wf_state D st -> Forall (fun v => v < dL D) extra ->
  extension D p extra kcl st (extended_state D p extra kcl st).
Proof.
  intros HL W He.
  destruct (renamed_spec D (extended_dims D (length extra)) (fun vs => vs ++ extra) st HL W) as (E & W' & A & Z).
  { intros vs [[Hl HF] _]. split; [rewrite app_length; cbn; lia|]. apply Forall_app. auto. }
  { intros us vs _ _ E. now apply app_inv_tail in E. }
  assert (EA : extend_components D extra (s_comps st) = renamed D (extended_dims D (length extra)) (fun vs => vs ++ extra) (s_comps st)) by exact E.
  unfold extension, extended_state. cbn [s_init s_results s_aux s_classical s_cum]. do 5 (split; [reflexivity|]).
  rewrite EA. change (shape_with_extra D (length extra)) with (extended_dims D (length extra)).
  split; [exact W'|]. split; [exact (renamed_norm D (extended_dims D (length extra)) (fun vs => vs ++ extra) st _ eq_refl)|]. split; [|split].
  - intros vs V. destruct (has_dec D st vs V) as [H|H]; [now apply A|]. rewrite (amp_absent D st vs V H).
    apply Z; [apply Forall_app; split; [exact (proj2 V)|exact He]|]. intros us Hu Eq. apply app_inv_tail in Eq. now subst.
  - intros vs other V V' Hne. apply Z; [exact (proj2 V')|]. intros us Hu Eq. apply Hne.
    apply app_inj_len in Eq; [tauto|]. now rewrite (proj1 V), (proj1 (proj1 Hu)).
  - intros ws Hw. apply (renamed_has D (extended_dims D (length extra)) (fun vs => vs ++ extra) st _ ws HL W) in Hw; [exact Hw| |reflexivity].
    intros vs [[Hl HF] _]. split; [rewrite app_length; cbn; lia|]. apply Forall_app. auto.
Qed.

Lemma extend_fold D eps ncl' kcl rnd l : forall its seed its' seed',
  NoDup (dkeys its) ->
  fold_left (extend_step D eps ncl' kcl rnd) l (Some (its, seed)) = Some (its', seed') ->
  NoDup (dkeys its') /\ exists new, its' = its ++ new /\
    map snd new = map (fun x => extended_state D (fst (fst x)) (snd (fst x)) kcl (snd x))
                      (filter (fun x => Rleb eps (s_cum (snd x) * fst (fst x))) l).
Proof.
  induction l as [|x l IH]; intros its seed its' seed' ND E.
  - cbn [fold_left] in E. injection E as <- <-. split; auto. exists []. split; [now rewrite app_nil_r|reflexivity].
  - cbn [fold_left] in E. unfold extend_step at 2 in E. cbn [extended_state s_cum] in E. unfold Rleb. cbn [filter].
    destruct (Rle_dec eps (s_cum (snd x) * fst (fst x))) as [Hle|Hlt].
    + unfold make_state in E. destruct (check_state _ _ _).
      * destruct (add_state_random rnd seed (extended_state D (fst (fst x)) (snd (fst x)) kcl (snd x)) its) as [its1 seed1] eqn:EA.
        pose proof (add_state_random_app rnd seed (extended_state D (fst (fst x)) (snd (fst x)) kcl (snd x)) its) as HA. rewrite EA in HA. cbn [fst] in HA.
        pose proof (add_state_random_nodup rnd seed (extended_state D (fst (fst x)) (snd (fst x)) kcl (snd x)) its ND) as HN. rewrite EA in HN. cbn [fst] in HN.
        destruct (IH its1 seed1 its' seed' HN E) as (N' & new & -> & Em). split; [exact N'|].
        eexists. split; [rewrite HA, <- app_assoc; reflexivity|]. cbn [app map snd]. f_equal. exact Em.
      * exfalso. clear - E. induction l as [|y l IH]; [discriminate|]. apply IH. exact E.
    + exact (IH its seed its' seed' ND E).
Qed.

Lemma list_prod_map_l {A A' B} (f : A -> A') (l1 : list A) (l2 : list B) :
  list_prod (map f l1) l2 = map (fun x => (f (fst x), snd x)) (list_prod l1 l2).
Proof.
  induction l1 as [|a l1 IH]; [reflexivity|]. cbn [map list_prod]. rewrite map_app, IH, map_map. reflexivity.
Qed.
Lemma filter_map_comm {A B} (f : A -> B) p l : filter p (map f l) = map f (filter (fun x => p (f x)) l).
Proof. induction l as [|a l IH]; [reflexivity|]. cbn [map filter]. destruct (p (f a)); cbn [map]; now rewrite IH. Qed.
Lemma Forall2_map_eq {A B X} (R : A -> B -> Prop) (f : A -> X) (g : B -> X) l l' :
  map g l' = map f l -> (forall a b, In a l -> g b = f a -> R a b) -> Forall2 R l l'.
Proof.
  revert l'. induction l as [|a l IH]; intros [|b l'] E H; try discriminate; constructor; cbn [map] in E; injection E as E1 E2.
  - apply H; [now left|auto].
  - apply IH; auto. intros; apply H; [now right|auto].
Qed.

(** extend gives, for every photon-number tuple of the extra channels and every state, the state
    with those photon numbers in the extra channels (which come after the original ones) and the
    weight multiplied by the probability of the tuple, except for the weights below the
    threshold. Nothing else is in the new collection, and the identifiers are distinct. *)
Theorem C35_extend : forall rnd seed k kcl dist cs cs' seed',
  1 <= dL (co_D cs) -> Forall (fun it => wf_state (co_D cs) (snd it)) (co_items cs) ->
  length dist = dL (co_D cs) -> 0 < k + kcl ->
  extend rnd seed k kcl dist cs = Some (cs', seed') ->
  co_D cs' = shape_with_extra (co_D cs) k /\ co_ncl cs' = co_ncl cs + kcl /\ co_eps cs' = co_eps cs /\
  NoDup (map fst (co_items cs')) /\
  exists tuples : list values, NoDup tuples /\
    (forall vs, In vs tuples <-> length vs = k /\ Forall (fun v => v < dL (co_D cs)) vs) /\
    Forall2 (fun x it' => extension (co_D cs) (distribution_prob dist (fst x)) (fst x) kcl (snd x) (snd it'))
      (filter (fun x => Rleb (co_eps cs) (s_cum (snd x) * distribution_prob dist (fst x)))
              (list_prod tuples (map snd (co_items cs)))) (co_items cs').
Proof.
  intros rnd seed k kcl dist cs cs' seed' HL HF Hd Hk E. unfold extend in E.
  assert (Ed : match dist with [] => Some (default_distribution (dL (co_D cs))) | _ :: _ => if length dist =? dL (co_D cs) then Some dist else None end = Some dist).
  { destruct dist; [cbn in Hd; lia|]. now rewrite (proj2 (Nat.eqb_eq _ _) Hd). }
  cbv zeta in E. rewrite Ed in E. replace ((k =? 0) && (kcl =? 0)) with false in E.
  2:{ symmetry. apply andb_false_iff. destruct k; [right; apply Nat.eqb_neq; lia|left; reflexivity]. }
  destruct (fold_left _ _ _) as [[its' sd]|] eqn:EF; [|discriminate]. injection E as <- <-. cbn [co_D co_ncl co_eps co_items].
  split; [reflexivity|]. split; [reflexivity|]. split; [reflexivity|].
  assert (N0 : NoDup (dkeys (@nil (ident * state)))) by constructor.
  destruct (extend_fold _ _ _ _ _ _ _ _ _ _ N0 EF) as (ND & new & Enew & Em). cbn [app] in Enew. subst new.
  split; [exact ND|]. exists (configs (dL (co_D cs)) k). split; [apply configs_nodup|]. split; [apply configs_in|].
  rewrite extra_values_configs, list_prod_map_l, filter_map_comm, map_map in Em. cbn [fst snd] in Em.
  apply (Forall2_map_eq _ _ _ _ _ Em). intros [vs st] [i s] Hin Es. cbn [fst snd] in *. rewrite Es.
  apply filter_In in Hin. destruct Hin as [Hin _]. apply in_prod_iff in Hin. destruct Hin as [Hv Hs].
  apply configs_in in Hv. rewrite Forall_forall in HF. apply in_map_iff in Hs. destruct Hs as ([j st'] & Ej & Hj). cbn in Ej. subst st'.
  apply extended_extension; auto; [exact (HF _ Hj)|tauto].
Qed.

Lemma filter_prod_single {A B} (p : A * B -> bool) (a0 : A) l1 l2 : NoDup l1 -> In a0 l1 ->
  (forall a b, In a l1 -> In b l2 -> a <> a0 -> p (a, b) = false) -> (forall b, In b l2 -> p (a0, b) = true) ->
  filter p (list_prod l1 l2) = map (fun b => (a0, b)) l2.
Proof.
  intros ND Hin. revert p. induction l1 as [|a l1 IH]; intros p Hf Ht; [destruct Hin|]. inversion ND; subst. cbn [list_prod]. rewrite filter_app.
  assert (Z : forall l, (forall x, In x l -> p x = false) -> filter p l = []).
  { induction l as [|x l IHl]; intros H; [reflexivity|]. cbn [filter]. rewrite H by now left. apply IHl. intros; apply H; now right. }
  destruct Hin as [->|Hin].
  - rewrite (Z (list_prod l1 l2)).
    + rewrite app_nil_r. apply filter_all. intros x Hx. apply in_map_iff in Hx. destruct Hx as (b & <- & Hb). now apply Ht.
    + intros [x y] Hx. apply in_prod_iff in Hx. apply Hf; [right; tauto|tauto|]. intros ->. tauto.
  - rewrite (IH H2 Hin p); auto; [|intros x y Hx; apply Hf; now right]. rewrite Z; [reflexivity|].
    intros x Hx. apply in_map_iff in Hx. destruct Hx as (b & <- & Hb). apply Hf; [now left|auto|]. intros ->. contradiction.
Qed.

Lemma default_distribution_nth L v : nth v (default_distribution L) 0%R = if (v =? 0) && (v <? L) then 1%R else 0%R.
Proof.
  unfold default_distribution. destruct (Nat.ltb_spec v L) as [H|H].
  - rewrite andb_true_r. rewrite (nth_indep _ 0%R (if 0 =? 0 then 1%R else 0%R)) by (rewrite map_length, seq_length; lia).
    rewrite (map_nth (fun k => if k =? 0 then 1%R else 0%R)). now rewrite seq_nth by lia.
  - rewrite andb_false_r. apply nth_overflow. rewrite map_length, seq_length. lia.
Qed.
Lemma default_distribution_prob L vs : 1 <= L ->
  distribution_prob (default_distribution L) vs = if forallb (Nat.eqb 0) vs then 1%R else 0%R.
Proof.
  intros HL. induction vs as [|v vs IH]; [reflexivity|]. cbn [distribution_prob fold_right forallb].
  fold (distribution_prob (default_distribution L) vs). rewrite IH, default_distribution_nth. rewrite (Nat.eqb_sym v 0).
  destruct (Nat.eqb_spec 0 v) as [<-|]; cbn [andb]; [|ring]. replace (0 <? L) with true by (symmetry; apply Nat.ltb_lt; lia).
  destruct (forallb _ vs); ring.
Qed.
Lemma forallb_zero vs : forallb (Nat.eqb 0) vs = true <-> vs = repeat 0 (length vs).
Proof.
  induction vs as [|v vs IH]; [cbn; tauto|]. cbn [forallb length repeat]. rewrite andb_true_iff, Nat.eqb_eq, IH. split; [intros [<- ->]|intros [= -> H]; auto].
  f_equal. now rewrite repeat_length.
Qed.

(** By default the extra channels are empty: with a positive threshold and weights not below it
    the new collection has exactly the old states, in order, with vacuum in the extra channels. *)
Theorem C35_default_is_vacuum : forall rnd seed k kcl cs cs' seed',
  1 <= dL (co_D cs) -> Forall (fun it => wf_state (co_D cs) (snd it)) (co_items cs) -> 0 < k + kcl ->
  (0 < co_eps cs)%R -> Forall (fun it => (co_eps cs <= s_cum (snd it))%R) (co_items cs) ->
  extend rnd seed k kcl [] cs = Some (cs', seed') ->
  co_D cs' = shape_with_extra (co_D cs) k /\ co_ncl cs' = co_ncl cs + kcl /\ NoDup (map fst (co_items cs')) /\
  Forall2 (fun it it' => extension (co_D cs) 1 (repeat 0 k) kcl (snd it) (snd it')) (co_items cs) (co_items cs').
Proof.
  intros rnd seed k kcl cs cs' seed' HL HF Hk He Hc E.
  assert (E' : extend rnd seed k kcl (default_distribution (dL (co_D cs))) cs = Some (cs', seed')).
  { unfold extend in *. cbv zeta in *. rewrite <- E. unfold default_distribution. destruct (dL (co_D cs)) eqn:EL; [lia|]. cbn [seq map].
    cbn [length]. rewrite map_length, seq_length, Nat.eqb_refl. reflexivity. }
  destruct (C35_extend rnd seed k kcl (default_distribution (dL (co_D cs))) cs cs' seed' HL HF) as (ED & En & _ & ND & tuples & NDt & Ht & HG); auto.
  { unfold default_distribution. now rewrite map_length, seq_length. }
  split; [exact ED|]. split; [exact En|]. split; [exact ND|].
  rewrite (filter_prod_single _ (repeat 0 k)) in HG; auto.
  - clear - HG HL. rewrite map_map in HG.
    revert HG. generalize (co_items cs'). induction (co_items cs) as [|it l IH]; intros [|it' l'] HG; inversion HG; subst; constructor; auto.
    cbn [fst snd] in *. rewrite default_distribution_prob in H2 by auto.
    replace (forallb (Nat.eqb 0) (repeat 0 k)) with true in H2; [exact H2|]. symmetry. apply forallb_zero. now rewrite repeat_length.
  - apply Ht. split; [apply repeat_length|]. apply Forall_forall. intros v Hv. apply repeat_spec in Hv. lia.
  - intros a b Ha Hb Hne. cbn [fst snd]. rewrite default_distribution_prob by auto.
    destruct (forallb (Nat.eqb 0) a) eqn:Ez.
    + exfalso. apply Hne. apply forallb_zero in Ez. apply Ht in Ha. rewrite Ez. f_equal. tauto.
    + rewrite Rmult_0_r. unfold Rleb. destruct (Rle_dec _ _); [lra|reflexivity].
  - intros b Hb. cbn [fst snd]. rewrite default_distribution_prob by auto.
    replace (forallb (Nat.eqb 0) (repeat 0 k)) with true by (symmetry; apply forallb_zero; now rewrite repeat_length).
    rewrite Rmult_1_r. unfold Rleb. apply in_map_iff in Hb. destruct Hb as (it & <- & Hit). rewrite Forall_forall in Hc.
    destruct (Rle_dec _ _) as [|n]; [reflexivity|]. exfalso. apply n. now apply Hc.
Qed.

Lemma configs_total L dist n :
  Rsum (configs L n) (distribution_prob dist) = (Rsum (seq 0 L) (fun v => nth v dist 0) ^ n)%R.
Proof.
  induction n as [|n IH]; [cbn; ring|]. rewrite configs_S, Rsum_flat_map. cbn [pow]. rewrite <- IH, <- Rsum_scal_l.
  apply Rsum_ext. intros vs _. rewrite Rsum_map. rewrite Rmult_comm, <- Rsum_scal_l. apply Rsum_ext. intros v _. rewrite distribution_prob_snoc. ring.
Qed.
Lemma distribution_prob_nonneg dist vs : Forall (fun p => (0 <= p)%R) dist -> (0 <= distribution_prob dist vs)%R.
Proof.
  intros HF. induction vs as [|v vs IH]; [cbn; lra|]. cbn [distribution_prob fold_right]. apply Rmult_le_pos; [|exact IH].
  destruct (nth_in_or_default v dist 0%R) as [H| ->]; [|lra]. rewrite Forall_forall in HF. now apply HF.
Qed.

(** With threshold 0 (or below) and a probability distribution the total weight is unchanged. *)
Theorem C35_total_weight : forall rnd seed k kcl dist cs cs' seed',
  1 <= dL (co_D cs) -> Forall (fun it => wf_state (co_D cs) (snd it) /\ (0 <= s_cum (snd it))%R) (co_items cs) ->
  length dist = dL (co_D cs) -> 0 < k + kcl -> (co_eps cs <= 0)%R ->
  Forall (fun p => (0 <= p)%R) dist -> Rsum (seq 0 (length dist)) (fun v => nth v dist 0%R) = 1%R ->
  extend rnd seed k kcl dist cs = Some (cs', seed') ->
  Rsum (co_items cs') (fun it => s_cum (snd it)) = Rsum (co_items cs) (fun it => s_cum (snd it)).
Proof.
  intros rnd seed k kcl dist cs cs' seed' HL HF Hd Hk He Hp Hs E.
  assert (HW : Forall (fun it => wf_state (co_D cs) (snd it)) (co_items cs)) by (eapply Forall_impl; [|exact HF]; intros a [H _]; exact H).
  destruct (C35_extend rnd seed k kcl dist cs cs' seed' HL HW Hd Hk E) as (_ & _ & _ & _ & tuples & NDt & Ht & HG).
  rewrite filter_all in HG.
  2:{ intros [vs st] Hin. cbn [fst snd]. apply in_prod_iff in Hin. destruct Hin as [_ Hin]. apply in_map_iff in Hin. destruct Hin as (it & <- & Hit).
      rewrite Forall_forall in HF. destruct (HF it Hit) as [_ Hc]. pose proof (distribution_prob_nonneg dist vs Hp).
      unfold Rleb. destruct (Rle_dec _ _) as [|n]; [reflexivity|]. exfalso. apply n. assert (0 <= s_cum (snd it) * distribution_prob dist vs)%R by now apply Rmult_le_pos. lra. }
  transitivity (Rsum (list_prod tuples (map snd (co_items cs))) (fun x => (s_cum (snd x) * distribution_prob dist (fst x))%R)).
  - clear - HG. induction HG as [|x it l l' H _ IH]; [reflexivity|]. rewrite !Rsum_cons, IH. f_equal. destruct H as (_ & _ & _ & _ & H & _). exact H.
  - rewrite Rsum_prod. cbn [fst snd].
    rewrite Rsum_swap, Rsum_map. apply Rsum_ext. intros it _. rewrite Rsum_scal_l.
    rewrite (Rsum_perm tuples (configs (dL (co_D cs)) k)).
    + rewrite configs_total, <- Hd, Hs, pow1. ring.
    + apply NoDup_Permutation; [auto|apply configs_nodup|]. intros vs. now rewrite Ht, configs_in.
Qed.

(** It does not raise for valid states and probabilities at most 1. *)
Theorem C35_does_not_raise : forall rnd seed k kcl dist cs,
  1 <= dL (co_D cs) -> (0 <= co_eps cs)%R -> length dist = dL (co_D cs) ->
  Forall (fun p => (0 <= p <= 1)%R) dist ->
  Forall (fun it => wf_state (co_D cs) (snd it) /\ check_state (co_eps cs) (co_ncl cs) (snd it) = true) (co_items cs) ->
  exists r, extend rnd seed k kcl dist cs = Some r.
Proof.
  intros rnd seed k kcl dist cs HL He Hd Hp HF. unfold extend. cbv zeta.
  assert (Ed : match dist with [] => Some (default_distribution (dL (co_D cs))) | _ :: _ => if length dist =? dL (co_D cs) then Some dist else None end = Some dist).
  { destruct dist; [cbn in Hd; lia|]. now rewrite (proj2 (Nat.eqb_eq _ _) Hd). }
  rewrite Ed. destruct ((k =? 0) && (kcl =? 0)); [eexists; reflexivity|].
  assert (Hq : forall vs, (0 <= distribution_prob dist vs <= 1)%R).
  { induction vs as [|v vs IH]; [cbn; lra|]. cbn [distribution_prob fold_right]. fold (distribution_prob dist vs).
    assert (0 <= nth v dist 0 <= 1)%R.
    { destruct (nth_in_or_default v dist 0%R) as [H| ->]; [|lra]. rewrite Forall_forall in Hp. now apply Hp. }
    split; [apply Rmult_le_pos; lra|]. rewrite <- (Rmult_1_r 1). apply Rmult_le_compat; lra. }
  assert (HA : forall x, In x (list_prod (extra_values (dL (co_D cs)) dist k) (map snd (co_items cs))) ->
     (0 <= fst (fst x) <= 1)%R /\ Forall (fun v => v < dL (co_D cs)) (snd (fst x)) /\ wf_state (co_D cs) (snd x) /\ check_state (co_eps cs) (co_ncl cs) (snd x) = true).
  { intros [pv st] Hin. apply in_prod_iff in Hin. destruct Hin as [H1 H2]. rewrite extra_values_configs in H1. apply in_map_iff in H1.
    destruct H1 as (vs & <- & Hv). apply in_map_iff in H2. destruct H2 as (it & <- & Hit). rewrite Forall_forall in HF. destruct (HF it Hit) as [Hw Hc].
    cbn [fst snd]. apply configs_in in Hv. split; [apply Hq|]. split; [tauto|]. split; auto. }
  revert HA. generalize (list_prod (extra_values (dL (co_D cs)) dist k) (map snd (co_items cs))). intros l HA.
  assert (G : forall its sd, exists r, fold_left (extend_step (co_D cs) (co_eps cs) (co_ncl cs + kcl) kcl rnd) l (Some (its, sd)) = Some r).
  { induction l as [|x l IH]; intros its sd; [eexists; reflexivity|]. cbn [fold_left]. unfold extend_step at 2.
    destruct (HA x (or_introl eq_refl)) as (Hx & Hv & Hw & Hc).
    destruct (Rle_dec _ _) as [Hle|]; [|apply IH; intros; apply HA; now right].
    unfold make_state. replace (check_state _ _ _) with true.
    - destruct (add_state_random rnd sd _ its) as [its1 sd1]. apply IH. intros; apply HA; now right.
    - symmetry. destruct (renamed_spec (co_D cs) (extended_dims (co_D cs) (length (snd (fst x)))) (fun vs => vs ++ snd (fst x)) (snd x) HL Hw) as (E & _).
      { intros vs [[Hl HF'] _]. split; [rewrite app_length; cbn; lia|]. apply Forall_app. auto. }
      { intros us vs _ _ E. now apply app_inv_tail in E. }
      assert (EA : extend_components (co_D cs) (snd (fst x)) (s_comps (snd x)) = renamed (co_D cs) (extended_dims (co_D cs) (length (snd (fst x)))) (fun vs => vs ++ snd (fst x)) (s_comps (snd x))) by exact E.
      unfold check_state in *. cbn [s_cum s_comps s_classical extended_state] in *. rewrite EA.
      apply andb_prop in Hc. destruct Hc as [Hc Hlen]. apply andb_prop in Hc. destruct Hc as [Hc Hprob]. apply andb_prop in Hc. destruct Hc as [H1 H2].
      apply andb_true_intro. split; [apply andb_true_intro; split; [apply andb_true_intro; split|]|].
      + unfold Rltb. destruct (Rlt_dec _ _) as [H|]; [|reflexivity]. exfalso. lra.
      + unfold Rltb in *. destruct (Rlt_dec (co_eps cs) (s_cum (snd x) * fst (fst x) - 1)) as [H|]; [|reflexivity]. exfalso. destruct (Rlt_dec (co_eps cs) (s_cum (snd x) - 1)) as [|Hn]; [discriminate|].
        assert (s_cum (snd x) * fst (fst x) <= s_cum (snd x) \/ s_cum (snd x) * fst (fst x) <= 0)%R.
        { destruct (Rle_lt_dec 0 (s_cum (snd x))); [left|right; nra]. rewrite <- (Rmult_1_r (s_cum (snd x))) at 2. apply Rmult_le_compat_l; lra. }
        lra.
      + unfold renamed. rewrite forallb_forall in *. intros c H. apply in_map_iff in H. destruct H as (d & <- & Hdd). cbn [snd]. now apply Hprob.
      + apply Nat.eqb_eq in Hlen. apply Nat.eqb_eq. rewrite app_length, repeat_length. lia. }
  destruct (G [] seed) as [r Gr]. destruct (fold_left _ l _) as [[its sd]|] eqn:EF; [eexists; reflexivity|].
  discriminate Gr.
Qed.

Lemma Forall2_length {A B} (R : A -> B -> Prop) l l' : Forall2 R l l' -> length l = length l'.
Proof. induction 1; cbn; auto. Qed.

Example C35_case : forall rnd, exists cs' seed',
  extend rnd 0 1 1 [] measure_input = Some (cs', seed') /\
  co_D cs' = Dims 2 3 true /\ length (co_items cs') = 2 /\
  Forall2 (fun it it' => amp_of (Dims 2 3 true) (snd it') [1;0;0] = amp_of (Dims 2 2 true) (snd it) [1;0] /\
                         amp_of (Dims 2 3 true) (snd it') [1;0;1] = RtoC 0 /\
                         s_classical (snd it') = s_classical (snd it) ++ [0%R]) (co_items measure_input) (co_items cs').
Proof.
  intros rnd. destruct C20_case as (_ & _ & _ & [ND Hw] & _ & Hn & _).
  assert (HF : Forall (fun it => wf_state (co_D measure_input) (snd it)) (co_items measure_input)) by (eapply Forall_impl; [|exact Hw]; intros a [H _]; exact H).
  assert (HC : Forall (fun it => wf_state (co_D measure_input) (snd it) /\ check_state (co_eps measure_input) (co_ncl measure_input) (snd it) = true) (co_items measure_input)).
  { inversion HF as [|? ? H1 HF1]; subst. inversion HF1 as [|? ? H2 _]; subst.
    apply Forall_cons; [split; [exact H1|]|apply Forall_cons; [split; [exact H2|]|apply Forall_nil]];
      (unfold check_state, Rltb; cbn [measure_input coll_of measure_circuit co_eps co_ncl c_eps c_ncl snd split_photon photon_1 s_cum s_comps s_classical forallb fst length Nat.eqb];
       repeat (destruct (Rlt_dec _ _); [exfalso; lra|]); reflexivity). }
  assert (E0 : extend rnd 0 1 1 [] measure_input = extend rnd 0 1 1 [1%R; 0%R] measure_input) by reflexivity.
  destruct (C35_does_not_raise rnd 0 1 1 [1%R; 0%R] measure_input) as [[cs' sd] E]; auto.
  { cbn [measure_input coll_of co_D c_D measure_circuit dL]. lia. }
  { cbn [measure_input coll_of co_eps measure_circuit c_eps]. lra. }
  { constructor; [lra|]. constructor; [lra|constructor]. }
  exists cs', sd. rewrite E0. split; [exact E|]. rewrite <- E0 in E.
  destruct (C35_default_is_vacuum rnd 0 1 1 measure_input cs' sd) as (H1 & _ & _ & H2); auto.
  { cbn [measure_input coll_of co_D c_D measure_circuit dL]. lia. }
  { cbn [measure_input coll_of co_eps measure_circuit c_eps]. lra. }
  { cbn [measure_input coll_of co_eps measure_circuit c_eps co_items]. apply Forall_cons; [cbn; lra|apply Forall_cons; [cbn; lra|apply Forall_nil]]. }
  split; [exact H1|]. split; [symmetry; exact (Forall2_length _ _ _ H2)|].
  eapply Forall2_impl; [|exact H2]. intros it it' (_ & _ & _ & Hcl & _ & _ & _ & A & Z & _).
  assert (V : valid (Dims 2 2 true) [1;0]) by (split; [reflexivity|]; constructor; [cbn; lia|]; constructor; [cbn; lia|constructor]).
  assert (V' : valid (Dims 2 3 true) [1;0;1]) by (split; [reflexivity|]; constructor; [cbn; lia|]; constructor; [cbn; lia|]; constructor; [cbn; lia|constructor]).
  split; [exact (A [1;0] V)|]. split; [exact (Z [1;0] [1] V V' ltac:(discriminate))|]. exact Hcl.
Qed.

(** ** C34 *)
Lemma traced_values_readout n keep vs : traced_values n keep vs = readout (other_channels n keep) vs.
Proof. reflexivity. Qed.

Definition group_state (D : dims) (others o : list nat) (st : state) : state := with_comps st (members D others o st).
Lemma group_state_wf D others o st : wf_state D st -> wf_state D (group_state D others o st).
Proof.
  intros [ND Hn]. unfold wf_state, group_state. cbn [s_comps with_comps]. unfold members. split; [now apply filter_NoDup_map|].
  intros nm H. apply in_map_iff in H. destruct H as (c & <- & Hc). apply filter_In in Hc. apply Hn. apply in_map. tauto.
Qed.
Lemma group_state_has D others o st vs : 1 <= dL D -> wf_state D st ->
  (has D (group_state D others o st) vs <-> has D st vs /\ readout others vs = o).
Proof.
  intros HL W. unfold has, group_state. cbn [s_comps with_comps]. split.
  - intros [V Hin]. apply in_map_iff in Hin. destruct Hin as (c & Ec & Hc). apply members_in in Hc. destruct Hc as [Hc Er].
    rewrite Ec in Er. rewrite values_of_name_string in Er by (auto; exact (proj2 V)). split; [split; [auto|]|auto]. rewrite <- Ec. now apply in_map.
  - intros [[V Hin] Er]. split; auto. apply in_map_iff in Hin. destruct Hin as (c & Ec & Hc). apply in_map_iff. exists c. split; auto.
    apply members_in. split; auto. rewrite Ec. rewrite values_of_name_string by (auto; exact (proj2 V)). exact Er.
Qed.
Lemma group_state_amp D others o st vs : 1 <= dL D -> wf_state D st -> valid D vs -> readout others vs = o ->
  amp_of D (group_state D others o st) vs = amp_of D st vs.
Proof.
  intros HL W V Er. destruct (has_dec D st vs V) as [H|H].
  - destruct H as [_ Hin]. apply in_map_iff in Hin. destruct Hin as ([nm ap] & En & Hc). cbn [fst] in En. subst nm.
    unfold amp_of, amplitude. rewrite (dget_in leqb leqb_spec _ ap (s_comps st)); [|apply W|exact Hc].
    rewrite (dget_in leqb leqb_spec _ ap (s_comps (group_state D others o st))); [reflexivity|apply (group_state_wf D others o st W)|].
    cbn [group_state s_comps with_comps]. apply members_in. split; auto. cbn [fst]. rewrite values_of_name_string by (auto; exact (proj2 V)). exact Er.
  - rewrite (amp_absent D st vs V H). apply amp_absent; auto. intros H'. apply group_state_has in H'; auto. tauto.
Qed.

(** The readings of the channels that are traced out. *)
Definition readings (D : dims) (others : list nat) (st : state) : list (list nat) :=
  dkeys (group_by leqb (fun c => readout others (values_of_name D (fst c))) (s_comps st)).
Lemma readings_spec D others st : 1 <= dL D -> wf_state D st ->
  NoDup (readings D others st) /\ forall o, In o (readings D others st) <-> possible D st others o.
Proof.
  intros HL W. split; [apply (group_by_nodup leqb leqb_spec)|]. intros o. unfold readings. rewrite (group_by_key_iff leqb leqb_spec). split.
  - intros (c & Hc & <-). destruct (has_comp D st c HL W Hc) as [V Hin]. exists (values_of_name D (fst c)). auto.
  - intros (vs & V & Hin & <-). apply in_map_iff in Hin. destruct Hin as (c & Ec & Hc). exists c. split; auto. rewrite Ec.
    rewrite values_of_name_string by (auto; exact (proj2 V)). reflexivity.
Qed.

Lemma reduce_groups_eq D keep st : 1 <= dL D -> wf_state D st ->
  reduce_groups D keep st
  = map (fun o => (traced_name D o, dict_of leqb (renamed D (kept_shape D keep) (readout keep) (members D (other_channels (dN D) keep) o st))))
        (readings D (other_channels (dN D) keep) st).
Proof.
  intros HL W. unfold reduce_groups.
  rewrite (group_by_encode (traced_name D) (fun c : name * (C * R) => readout (other_channels (dN D) keep) (values_of_name D (fst c)))).
  - rewrite group_by_map_keys, map_map, map_map. reflexivity.
  - intros x y Hx Hy E. apply traced_name_inj in E; auto;
      apply readout_lt; auto; [apply (has_comp D st x HL W Hx)|apply (has_comp D st y HL W Hy)].
Qed.

Lemma reduced_renamed D keep o st : 1 <= dL D -> wf_state D st ->
  let others := other_channels (dN D) keep in
  let cs := renamed D (kept_shape D keep) (readout keep) (members D others o st) in
  dict_of leqb cs = cs /\ wf_state (kept_shape D keep) (with_comps st cs) /\
  (forall vs, valid D vs -> readout others vs = o -> amp_of (kept_shape D keep) (with_comps st cs) (readout keep vs) = amp_of D st vs) /\
  (forall ks, valid (kept_shape D keep) ks -> (forall vs, valid D vs -> readout others vs = o -> readout keep vs <> ks) ->
     amp_of (kept_shape D keep) (with_comps st cs) ks = RtoC 0) /\
  Rsum cs (fun c => Cnorm2 (fst (snd c))) = outcome_prob D st others o.
Proof.
  intros HL W others cs.
  destruct (renamed_spec D (kept_shape D keep) (readout keep) (group_state D others o st) HL (group_state_wf D others o st W)) as (E & W' & A & Z).
  { intros vs [V _]. now apply kept_valid. }
  { intros us vs Hu Hv Ek. apply group_state_has in Hu, Hv; auto. destruct Hu as [[Vu _] Eu], Hv as [[Vv _] Ev].
    apply (kept_other_inj D keep); auto. unfold others in *. congruence. }
  cbn [group_state s_comps with_comps] in *. fold cs in E, W', A, Z.
  split; [exact E|]. split; [exact W'|]. split; [|split].
  - intros vs V Er. rewrite <- (group_state_amp D others o st vs HL W V Er).
    destruct (has_dec D (group_state D others o st) vs V) as [H|H]; [exact (A vs H)|].
    rewrite (amp_absent _ _ _ V H). apply Z; [exact (proj2 (kept_valid D keep vs HL V))|]. intros us Hu Ek. apply H.
    replace vs with us; auto. pose proof Hu as Hu'. apply group_state_has in Hu'; auto. destruct Hu' as [[Vu _] Eu].
    symmetry. apply (kept_other_inj D keep); auto. unfold others in *. congruence.
  - intros ks V H. apply Z; [exact (proj2 V)|]. intros us Hu ->. apply group_state_has in Hu; auto. destruct Hu as [[Vu _] Eu]. now apply (H us).
  - unfold cs, renamed. rewrite Rsum_map. cbn [fst snd]. rewrite <- outcome_prob_members, Rsum_map. reflexivity.
Qed.

Definition scaled (k : R) (cs : list (name * (C * R))) : list (name * (C * R)) :=
  map (fun c => let a := (fst (snd c) * RtoC k)%C in (fst c, (a, Cnorm2 a))) cs.
Lemma scaled_keys k cs : map fst (scaled k cs) = map fst cs.
Proof. unfold scaled. rewrite map_map. reflexivity. Qed.
Lemma scaled_get k cs nm : dget leqb nm (scaled k cs) = option_map (fun ap => ((fst ap * RtoC k)%C, Cnorm2 (fst ap * RtoC k)%C)) (dget leqb nm cs).
Proof. induction cs as [|[n' [a p]] cs IH]; [reflexivity|]. cbn [scaled map dget fst snd]. destruct (leqb nm n'); [reflexivity|exact IH]. Qed.
Lemma scaled_amp D st k cs vs : amp_of D (with_comps st (scaled k cs)) vs = (amp_of D (with_comps st cs) vs * RtoC k)%C.
Proof. unfold amp_of, amplitude. cbn [s_comps with_comps]. rewrite scaled_get. destruct (dget leqb _ cs); cbn [option_map fst]; [reflexivity|ring]. Qed.
Lemma scaled_norm k cs : Rsum (scaled k cs) (fun c => Cnorm2 (fst (snd c))) = (k * k * Rsum cs (fun c => Cnorm2 (fst (snd c))))%R.
Proof. unfold scaled. rewrite Rsum_map, <- Rsum_scal_l. apply Rsum_ext. intros c _. cbn [fst snd]. rewrite Cnorm2_mult, Cnorm2_RtoC. ring. Qed.

Lemma sqrt_one_over p : (0 < p)%R -> sqrt (1 / p) = (/ sqrt p)%R.
Proof. intros Hp. unfold Rdiv. rewrite Rmult_1_l. now rewrite <- sqrt_inv. Qed.

Lemma amp_of_comps D s s' vs : s_comps s = s_comps s' -> amp_of D s vs = amp_of D s' vs.
Proof. unfold amp_of, amplitude. now intros ->. Qed.

Lemma reduced_state_spec D eps keep clkeep o st s : 1 <= dL D -> wf_state D st ->
  reduced_state eps clkeep st (renamed D (kept_shape D keep) (readout keep) (members D (other_channels (dN D) keep) o st)) = Some s ->
  reduced D keep clkeep o st s.
Proof.
  intros HL W E. destruct (reduced_renamed D keep o st HL W) as (_ & W' & A & Z & EP). unfold reduced_state in E.
  set (others := other_channels (dN D) keep) in *. set (cs := renamed D (kept_shape D keep) (readout keep) (members D others o st)) in *.
  rewrite EP in E. destruct (Req_EM_T _ 0) as [|Hne]; [discriminate|].
  unfold make_state in E. destruct (check_state _ _ _); [|discriminate]. injection E as <-.
  fold (scaled (sqrt (1 / outcome_prob D st others o)) cs). set (p := outcome_prob D st others o) in *.
  assert (Hp : (0 < p)%R) by (pose proof (outcome_prob_nonneg D st others o); fold p in H; lra).
  assert (Hs : sqrt p <> 0%R) by (apply Rgt_not_eq; now apply sqrt_lt_R0).
  set (s := State _ _ _ _ _ _).
  assert (HA : forall vs, amp_of (kept_shape D keep) s vs = (amp_of (kept_shape D keep) (with_comps st cs) vs / RtoC (sqrt p))%C).
  { intros vs. rewrite (amp_of_comps _ s (with_comps st (scaled (sqrt (1 / p)) cs))) by reflexivity. rewrite scaled_amp, sqrt_one_over by auto.
    unfold Cdiv. now rewrite RtoC_inv by auto. }
  unfold reduced. fold others. fold p. do 5 (split; [reflexivity|]). split; [exact Hp|]. split; [|split; [|split; [|split; [|split]]]].
  - destruct W' as [ND Hn]. split; cbn [s s_comps]; rewrite scaled_keys; [exact ND|exact Hn].
  - intros nm a q Hin. cbn [s s_comps] in Hin. unfold scaled in Hin. apply in_map_iff in Hin. destruct Hin as (c & Ec & _). cbv zeta in Ec. injection Ec as _ <- <-. reflexivity.
  - unfold state_norm2. cbn [s s_comps]. rewrite scaled_norm, EP, sqrt_one_over by auto. rewrite <- Rinv_mult, sqrt_sqrt by lra. now apply Rinv_l.
  - intros vs V Er. rewrite HA. now rewrite A.
  - intros ks V H. rewrite HA. rewrite Z by auto. unfold Cdiv. now rewrite Cmult_0_l.
  - intros ks Hk. destruct (renamed_has D (kept_shape D keep) (readout keep) (group_state D others o st) s ks HL (group_state_wf D others o st W)) as (vs & Hv & ->); auto.
    + intros vs [V _]. now apply kept_valid.
    + cbn [s s_comps group_state with_comps]. now rewrite scaled_keys.
    + apply group_state_has in Hv; auto. exists vs. tauto.
Qed.

Lemma suffixed_nodup {V} (m : nat) (ids : list (list nat)) (ls : list (list (list nat * V))) :
  Forall2 (fun i g => exists ss, map fst g = map (fun s => i ++ s) ss /\ NoDup ss /\ Forall (fun s => length s = m) ss) ids ls ->
  NoDup ids -> NoDup (map fst (concat ls)).
Proof.
  assert (HI : forall (ids : list (list nat)) ls x, Forall2 (fun i (g : list (list nat * V)) => exists ss, map fst g = map (fun s => i ++ s) ss /\ NoDup ss /\ Forall (fun s => length s = m) ss) ids ls ->
     In x (map fst (concat ls)) -> exists i s, In i ids /\ length s = m /\ x = i ++ s).
  { induction 1 as [|i g l l' (ss & E & _ & HF) _ IH]; intros Hin; [destruct Hin|]. cbn [concat] in Hin. rewrite map_app in Hin.
    apply in_app_or in Hin. destruct Hin as [Hin|Hin].
    - rewrite E in Hin. apply in_map_iff in Hin. destruct Hin as (s & <- & Hs). exists i, s. rewrite Forall_forall in HF. split; [now left|]. split; auto.
    - destruct (IH Hin) as (j & s & Hj & H). exists j, s. split; [now right|auto]. }
  induction 1 as [|i g l l' (ss & E & NDs & HF) HG IH]; intros ND; [constructor|]. inversion ND; subst. cbn [concat]. rewrite map_app. apply NoDup_app'; auto.
  - rewrite E. apply map_inj_NoDup; auto. intros a b _ _ Eab. now apply app_inv_head in Eab.
  - intros x Hx Hx'. rewrite E in Hx. apply in_map_iff in Hx. destruct Hx as (s & <- & Hs). destruct (HI l l' _ HG Hx') as (j & s' & Hj & Hl & Eq).
    rewrite Forall_forall in HF. apply app_inj_len in Eq.
    + destruct Eq as [-> _]. contradiction.
    + specialize (HF s Hs). apply (f_equal (@length nat)) in Eq. rewrite !app_length in Eq. lia.
Qed.

(** reduce replaces every state by one state per reading of the channels traced out: photon
    numbers and relative amplitudes in the kept channels are those of the components with that
    reading, the weight is multiplied by the probability of the reading; components with
    different readings end in different states. The identifiers are distinct, and the weights of
    the states made from one normalised state add up to its weight. *)
Theorem C34_reduce : forall keep clkeep cs cs',
  1 <= dL (co_D cs) -> keep <> [] -> clkeep <> [] \/ co_ncl cs = 0 -> co_items cs <> [] ->
  NoDup (map fst (co_items cs)) -> Forall (fun it => wf_state (co_D cs) (snd it)) (co_items cs) ->
  reduce keep clkeep cs = Some cs' ->
  let others := other_channels (dN (co_D cs)) keep in
  co_D cs' = kept_shape (co_D cs) keep /\ co_ncl cs' = length clkeep /\ co_eps cs' = co_eps cs /\
  NoDup (map fst (co_items cs')) /\
  exists groups, co_items cs' = concat groups /\
    Forall2 (fun it g =>
      one_per_outcome (co_D cs) others (snd it) g (fun o new =>
        fst new = fst it ++ map (fun d => 48 + d) (traced_name (co_D cs) o) /\
        reduced (co_D cs) keep clkeep o (snd it) (snd new)) /\
      Rsum g (fun new => s_cum (snd new)) = (s_cum (snd it) * state_norm2 (snd it))%R) (co_items cs) groups.
Proof.
  intros keep clkeep cs cs' HL Hk Hcl Hne ND HF E others. unfold reduce in E. cbv zeta in E.
  destruct keep as [|k0 kr]; [contradiction|]. set (keep := k0 :: kr) in *.
  assert (Ecl : match clkeep with [] => seq 0 (co_ncl cs) | _ :: _ => clkeep end = clkeep).
  { destruct clkeep; [destruct Hcl as [H| ->]; [contradiction|reflexivity]|reflexivity]. } rewrite Ecl in E. clear Ecl.
  destruct (forallb _ keep && forallb _ clkeep && _); [|discriminate].
  destruct (co_items cs) as [|it0 itr] eqn:Eit; [contradiction|]. rewrite <- Eit in *. clear Hne.
  destruct (option_list _) as [ls|] eqn:Eo; [|discriminate]. injection E as <-. cbn [co_D co_ncl co_eps co_items].
  split; [reflexivity|]. split; [reflexivity|]. split; [reflexivity|].
  apply option_list_some in Eo. apply map_some_inv in Eo.
  assert (G : Forall2 (fun it g =>
      one_per_outcome (co_D cs) others (snd it) g (fun o new =>
        fst new = fst it ++ map (fun d => 48 + d) (traced_name (co_D cs) o) /\
        reduced (co_D cs) keep clkeep o (snd it) (snd new))) (co_items cs) ls).
  { clear ND Eit. induction Eo as [|it g l l' H _ IH]; [constructor|]. inversion HF as [|? ? W HF']; subst. constructor; [|now apply IH].
    clear IH HF HF'. destruct it as [i st]. cbn [fst snd] in *. unfold reduce_state in H. cbn [snd fst] in H. rewrite reduce_groups_eq in H by auto.
    rewrite map_map in H. apply option_list_some in H. apply map_some_inv in H. cbn [fst snd] in H. fold others in H.
    destruct (readings_spec (co_D cs) others st HL W) as [NDr Hr]. exists (readings (co_D cs) others st). split; [exact NDr|]. split; [exact Hr|].
    eapply Forall2_impl; [|exact H]. intros o new Ho. cbv beta in Ho.
    destruct (reduced_renamed (co_D cs) keep o st HL W) as (Edict & _). fold others in Edict. rewrite Edict in Ho.
    destruct (reduced_state _ _ _ _) as [s|] eqn:Es; [|discriminate]. injection Ho as <-. cbn [fst snd]. split; [reflexivity|].
    unfold others in Es. now apply reduced_state_spec in Es. }
  assert (NDc : NoDup (map fst (concat ls))).
  { apply (suffixed_nodup (digits_per_channel (co_D cs) * length others) (map fst (co_items cs))); [|exact ND].
    clear Eo Eit ND HF. induction G as [|it g l l' H _ IH]; [constructor|]. cbn [map]. constructor; [|exact IH].
    destruct H as (os & NDo & Ho & H). exists (map (fun o => map (fun d => 48 + d) (traced_name (co_D cs) o)) os). split; [|split].
    - rewrite map_map. clear - H. induction H as [|o new os g [H _] _ IH]; [reflexivity|]. cbn [map]. f_equal; [exact H|exact IH].
    - apply map_inj_NoDup; auto. intros a b Ha Hb Eab. apply map_add_inj in Eab.
      apply Ho in Ha, Hb. destruct Ha as (us & Vu & _ & <-), Hb as (vs & Vv & _ & <-). apply traced_name_inj in Eab; auto; now apply readout_lt.
    - apply Forall_forall. intros s Hs. apply in_map_iff in Hs. destruct Hs as (o & <- & Hin). apply Ho in Hin. destruct Hin as (us & _ & _ & <-).
      now rewrite map_length, traced_name_length, readout_length. }
  rewrite (dict_of_nodup leqb leqb_spec) by exact NDc. split; [exact NDc|]. exists ls. split; [reflexivity|].
  clear Eo Eit ND NDc. revert HF. induction G as [|it g l l' H _ IH]; intros HF; [constructor|]. inversion HF as [|? ? W HF']; subst. constructor; [|now apply IH].
  split; [exact H|]. destruct H as (os & NDo & Ho & H). rewrite <- (possible_total (co_D cs) others (snd it) os) by auto. rewrite <- Rsum_scal_l.
  clear - H. induction H as [|o new os g [_ H] _ IH]; [reflexivity|]. rewrite !Rsum_cons, IH. f_equal. destruct H as (_ & _ & _ & _ & H & _). exact H.
Qed.

(** An empty channel list means all channels (a collection without classical channels keeps none,
    see [C34_reduce]). *)
Theorem C34_all_channels : forall keep clkeep cs, 0 < dN (co_D cs) -> 0 < co_ncl cs ->
  reduce [] clkeep cs = reduce (seq 0 (dN (co_D cs))) clkeep cs /\
  reduce keep [] cs = reduce keep (seq 0 (co_ncl cs)) cs.
Proof.
  intros keep clkeep cs H1 H2. unfold reduce. split.
  - destruct (dN (co_D cs)); [lia|]. reflexivity.
  - destruct (co_ncl cs); [lia|]. reflexivity.
Qed.

(** reduce of valid, normalised states without zero components does not raise. *)
Theorem C34_does_not_raise : forall keep clkeep cs,
  1 <= dL (co_D cs) -> 2 <= length keep -> clkeep <> [] \/ co_ncl cs = 0 ->
  Forall (fun c => c < dN (co_D cs)) keep -> Forall (fun c => c < co_ncl cs) clkeep -> (0 <= co_eps cs)%R ->
  Forall (fun it => wf_state (co_D cs) (snd it) /\ state_norm2 (snd it) = 1%R /\ (0 <= s_cum (snd it) <= 1)%R /\
     forall vs, has (co_D cs) (snd it) vs -> amp_of (co_D cs) (snd it) vs <> RtoC 0) (co_items cs) ->
  exists cs', reduce keep clkeep cs = Some cs'.
Proof.
  intros keep clkeep cs HL Hk Hcl Hkb Hclb He HF. unfold reduce. cbv zeta.
  destruct keep as [|k0 kr]; [cbn in Hk; lia|]. set (keep := k0 :: kr) in *.
  assert (Ecl : match clkeep with [] => seq 0 (co_ncl cs) | _ :: _ => clkeep end = clkeep).
  { destruct clkeep; [destruct Hcl as [H| ->]; [contradiction|reflexivity]|reflexivity]. } rewrite Ecl. clear Ecl.
  replace (forallb (fun c => c <? dN (co_D cs)) keep) with true by (symmetry; apply forallb_forall; rewrite Forall_forall in Hkb; intros; apply Nat.ltb_lt; auto).
  replace (forallb (fun c => c <? co_ncl cs) clkeep) with true by (symmetry; apply forallb_forall; rewrite Forall_forall in Hclb; intros; apply Nat.ltb_lt; auto).
  replace (2 <=? length keep) with true by (symmetry; now apply Nat.leb_le). cbn [andb].
  destruct (co_items cs) as [|it0 itr] eqn:Eit; [eexists; reflexivity|]. rewrite <- Eit in *.
  assert (G : exists ls, option_list (map (reduce_state (co_D cs) (co_eps cs) keep clkeep) (co_items cs)) = Some ls).
  { clear Eit. induction HF as [|it l (W & Hn & Hc & Hz) _ IH]; [eexists; reflexivity|]. destruct IH as [ls IH]. cbn [map option_list]. rewrite IH.
    assert (Gs : exists g, reduce_state (co_D cs) (co_eps cs) keep clkeep it = Some g).
    { destruct it as [i st]. cbn [snd] in *. unfold reduce_state. cbn [fst snd]. rewrite reduce_groups_eq by auto. rewrite map_map.
      set (others := other_channels (dN (co_D cs)) keep).
      assert (HO : forall o, In o (readings (co_D cs) others st) ->
         exists s, reduced_state (co_eps cs) clkeep st (dict_of leqb (renamed (co_D cs) (kept_shape (co_D cs) keep) (readout keep) (members (co_D cs) others o st))) = Some s).
      { intros o Ho. apply (proj2 (readings_spec (co_D cs) others st HL W)) in Ho.
        destruct (reduced_renamed (co_D cs) keep o st HL W) as (Edict & _ & _ & _ & EP). fold others in Edict, EP. rewrite Edict. unfold reduced_state. rewrite EP.
        assert (Hpos : (0 < outcome_prob (co_D cs) st others o)%R).
        { destruct Ho as (vs & V & Hin & Er). pose proof (Hz vs (conj V Hin)) as Hza. apply in_map_iff in Hin. destruct Hin as (c & Ec & Hcin).
          assert (Hnn : forall y, In y (s_comps st) -> (0 <= if leqb (readout others (values_of_name (co_D cs) (fst y))) o then Cnorm2 (fst (snd y)) else 0)%R)
            by (intros y _; destruct (leqb _ _); [apply Cnorm2_nonneg|lra]).
          pose proof (Rsum_le_term (s_comps st) _ c Hnn Hcin) as HR.
          cbv beta in HR. rewrite Ec in HR. rewrite values_of_name_string in HR by (auto; exact (proj2 V)). rewrite (proj2 (leqb_spec _ _) Er) in HR.
          assert (Ha : fst (snd c) = amp_of (co_D cs) st vs).
          { unfold amp_of, amplitude. destruct c as [nm ap]. cbn [fst snd] in *. subst nm. now rewrite (dget_in leqb leqb_spec _ ap (s_comps st)) by (auto; apply W). }
          assert (Hc0 : Cnorm2 (fst (snd c)) <> 0%R) by (intros H0; apply Cnorm2_eq0 in H0; rewrite Ha in H0; contradiction).
          pose proof (Cnorm2_nonneg (fst (snd c))). unfold outcome_prob. lra. }
        pose proof (outcome_prob_le (co_D cs) st others o) as Hle. rewrite Hn in Hle.
        destruct (Req_EM_T _ 0) as [|_]; [lra|]. set (p := outcome_prob (co_D cs) st others o) in *.
        fold (scaled (sqrt (1 / p)) (renamed (co_D cs) (kept_shape (co_D cs) keep) (readout keep) (members (co_D cs) others o st))).
        set (rs := renamed (co_D cs) (kept_shape (co_D cs) keep) (readout keep) (members (co_D cs) others o st)) in *.
        unfold make_state. replace (check_state _ _ _) with true; [eexists; reflexivity|]. symmetry. unfold check_state. cbn [s_cum s_comps s_classical].
        apply andb_true_intro. split; [apply andb_true_intro; split; [apply andb_true_intro; split|]|].
        - unfold Rltb. destruct (Rlt_dec _ _); [|reflexivity]. exfalso. assert (0 <= s_cum st * p)%R by (apply Rmult_le_pos; lra). lra.
        - unfold Rltb. destruct (Rlt_dec _ _); [|reflexivity]. exfalso. assert (s_cum st * p <= 1 * 1)%R by (apply Rmult_le_compat; lra). lra.
        - apply forallb_forall. intros c Hin. 
          assert (Hq : (0 <= snd (snd c) <= 1)%R).
          { assert (Hp2 : snd (snd c) = Cnorm2 (fst (snd c))) by (unfold scaled in Hin; apply in_map_iff in Hin; destruct Hin as (d & <- & _); reflexivity).
            rewrite Hp2. split; [apply Cnorm2_nonneg|].
            pose proof (Rsum_le_term (scaled (sqrt (1 / p)) rs) (fun c => Cnorm2 (fst (snd c))) c (fun y _ => Cnorm2_nonneg (fst (snd y))) Hin) as HR.
            rewrite scaled_norm, EP, sqrt_one_over in HR by auto. rewrite <- Rinv_mult, sqrt_sqrt, Rinv_l in HR by lra. exact HR. }
          unfold Rltb. destruct (Rlt_dec _ _); [exfalso; lra|]. destruct (Rlt_dec _ _); [exfalso; lra|reflexivity].
        - apply Nat.eqb_eq. apply map_length. }
      revert HO. generalize (readings (co_D cs) others st). intros os HO. induction os as [|o os IHo]; [eexists; reflexivity|].
      destruct IHo as [g Hg]; [intros; apply HO; now right|]. destruct (HO o (or_introl eq_refl)) as [s Es]. cbn [map option_list fst snd]. cbn [fst snd] in Hg.
      rewrite Es, Hg. eexists. reflexivity. }
    destruct Gs as [g ->]. eexists. reflexivity. }
  destruct G as [ls ->]. eexists. reflexivity.
Qed.

(** On an empty collection nothing happens: it keeps the channels it had. *)
Theorem C34_empty_collection_refuted : exists keep clkeep cs cs', co_items cs = [] /\
  reduce keep clkeep cs = Some cs' /\ dN (co_D cs') <> length keep.
Proof. exists [0;1], [0], (Coll (Dims 2 3 true) 1 0 []), (Coll (Dims 2 3 true) 1 0 []). split; [reflexivity|]. split; [reflexivity|]. discriminate. Qed.

(** *** reduce is the partial trace *)
Lemma with_label_sum lab its f : Csum (with_label lab its) f = Csum its (fun it => if leqb (s_init (snd it)) lab then f (snd it) else RtoC 0).
Proof. unfold with_label. now rewrite Csum_map, Csum_filter. Qed.

Definition part (D : dims) (keep : list nat) (st : state) (ks o : list nat) : C :=
  Csum (all_values D) (fun vs => if leqb (readout keep vs) ks && leqb (readout (other_channels (dN D) keep) vs) o then amp_of D st vs else RtoC 0).

Lemma part_single D keep st vs : 1 <= dL D -> valid D vs ->
  part D keep st (readout keep vs) (readout (other_channels (dN D) keep) vs) = amp_of D st vs.
Proof.
  intros HL V. unfold part. rewrite (Csum_single (all_values D) vs).
  - now rewrite !(proj2 (leqb_spec _ _) eq_refl).
  - now apply all_values_NoDup.
  - now apply all_values_in.
  - intros us Hu Hne. apply all_values_in in Hu; auto. destruct (leqb (readout keep us) _) eqn:E1; [|reflexivity]. destruct (leqb (readout (other_channels _ _) us) _) eqn:E2; [|reflexivity].
    apply leqb_spec in E1, E2. exfalso. apply Hne. now apply (kept_other_inj D keep).
Qed.

Lemma reduced_part D keep clkeep o st s ks : 1 <= dL D -> reduced D keep clkeep o st s -> valid (kept_shape D keep) ks ->
  amp_of (kept_shape D keep) s ks = (part D keep st ks o / RtoC (sqrt (outcome_prob D st (other_channels (dN D) keep) o)))%C.
Proof.
  intros HL (_ & _ & _ & _ & _ & _ & _ & _ & _ & A & Z & _) V.
  destruct (existsb (fun vs => leqb (readout keep vs) ks && leqb (readout (other_channels (dN D) keep) vs) o) (all_values D)) eqn:E.
  - apply existsb_exists in E. destruct E as (vs & Hv & E). apply all_values_in in Hv; auto. apply andb_prop in E. destruct E as [E1 E2].
    apply leqb_spec in E1, E2. subst ks o. rewrite A by auto. now rewrite part_single.
  - rewrite Z; auto.
    + unfold part. rewrite Csum_zero; [unfold Cdiv; now rewrite Cmult_0_l|]. intros vs Hv.
      destruct (leqb (readout keep vs) ks && leqb (readout (other_channels (dN D) keep) vs) o) eqn:E'; [|reflexivity].
      apply not_true_iff_false in E. exfalso. apply E. apply existsb_exists. exists vs. auto.
    + intros vs V' Eo Ek. apply not_true_iff_false in E. apply E. apply existsb_exists. exists vs. split; [now apply all_values_in|].
      now rewrite (proj2 (leqb_spec _ _) Ek), (proj2 (leqb_spec _ _) Eo).
Qed.

(** Summing over two tuples that agree in the channels traced out. *)
Definition traced_pairs (D : dims) (keep : list nat) (ks ks' : values) (f : values -> values -> C) : C :=
  Csum (all_values D) (fun vs => Csum (all_values D) (fun vs' =>
    if leqb (readout keep vs) ks && leqb (readout keep vs') ks' &&
       leqb (readout (other_channels (dN D) keep) vs) (readout (other_channels (dN D) keep) vs')
    then f vs vs' else RtoC 0)).

Lemma parts_sum D keep st ks ks' os : 1 <= dL D -> NoDup os ->
  (forall o, In o os <-> possible D st (other_channels (dN D) keep) o) ->
  Csum os (fun o => (Cconj (part D keep st ks o) * part D keep st ks' o)%C)
  = traced_pairs D keep ks ks' (fun vs vs' => (Cconj (amp_of D st vs) * amp_of D st vs')%C).
Proof.
  intros HL ND Ho. unfold traced_pairs, part. set (others := other_channels (dN D) keep) in *.
  transitivity (Csum os (fun o => Csum (all_values D) (fun vs => Csum (all_values D) (fun vs' =>
    (Cconj (if leqb (readout keep vs) ks && leqb (readout others vs) o then amp_of D st vs else RtoC 0) *
     (if leqb (readout keep vs') ks' && leqb (readout others vs') o then amp_of D st vs' else RtoC 0))%C)))).
  { apply Csum_ext. intros o _. rewrite Csum_conj, Csum_prod2. reflexivity. }
  rewrite Csum_swap. apply Csum_ext. intros vs Hv. rewrite Csum_swap. apply Csum_ext. intros vs' Hv'.
  apply all_values_in in Hv, Hv'; auto.
  destruct (leqb (readout keep vs) ks) eqn:E1; cbn [andb]; [|apply Csum_zero; intros; rewrite Cconj_RtoC; ring].
  destruct (leqb (readout keep vs') ks') eqn:E2; cbn [andb]; [|apply Csum_zero; intros; ring].
  destruct (has_dec D st vs Hv) as [Hh|Hh].
  - assert (Hin : In (readout others vs) os) by (apply Ho; exists vs; split; [auto|split; [exact (proj2 Hh)|reflexivity]]).
    rewrite (Csum_single os (readout others vs)); auto.
    + rewrite (proj2 (leqb_spec _ _) eq_refl). rewrite (leqb_sym (readout others vs')). destruct (leqb (readout others vs) (readout others vs')); [reflexivity|ring].
    + intros o _ Hne. destruct (leqb (readout others vs) o) eqn:E; [apply leqb_spec in E; congruence|]. rewrite Cconj_RtoC. ring.
  - rewrite (amp_absent D st vs Hv Hh). rewrite Csum_zero; [destruct (leqb (readout others vs) (readout others vs')); [rewrite Cconj_RtoC, Cmult_0_l; reflexivity|reflexivity]|].
    intros o _. destruct (leqb (readout others vs) o); rewrite Cconj_RtoC; ring.
Qed.

Lemma traced_pairs_ext D keep ks ks' f g : 1 <= dL D -> (forall vs vs', valid D vs -> valid D vs' -> f vs vs' = g vs vs') ->
  traced_pairs D keep ks ks' f = traced_pairs D keep ks ks' g.
Proof.
  intros HL H. unfold traced_pairs. apply Csum_ext. intros vs Hv. apply Csum_ext. intros vs' Hv'. apply all_values_in in Hv, Hv'; auto.
  destruct (_ && _ && _); [now apply H|reflexivity].
Qed.
Lemma traced_pairs_sum {A} D keep ks ks' (l : list A) f :
  Csum l (fun x => traced_pairs D keep ks ks' (f x)) = traced_pairs D keep ks ks' (fun vs vs' => Csum l (fun x => f x vs vs')).
Proof.
  unfold traced_pairs. rewrite Csum_swap. apply Csum_ext. intros vs _. rewrite Csum_swap. apply Csum_ext. intros vs' _.
  destruct (_ && _ && _); [reflexivity|]. now apply Csum_zero.
Qed.
Lemma traced_pairs_scal D keep ks ks' k f :
  (k * traced_pairs D keep ks ks' f)%C = traced_pairs D keep ks ks' (fun vs vs' => (k * f vs vs')%C).
Proof.
  unfold traced_pairs. rewrite <- Csum_scal_l. apply Csum_ext. intros vs _. rewrite <- Csum_scal_l. apply Csum_ext. intros vs' _.
  destruct (_ && _ && _); ring.
Qed.

(** The density matrix after reduce is the partial trace of the density matrix before: the
    entry for two tuples of the kept channels is the sum of the entries for all pairs of
    extensions that agree in the channels traced out. *)
Theorem C34_partial_trace : forall keep clkeep cs cs' lab ks ks',
  1 <= dL (co_D cs) -> keep <> [] -> clkeep <> [] \/ co_ncl cs = 0 -> co_items cs <> [] ->
  NoDup (map fst (co_items cs)) -> Forall (fun it => wf_state (co_D cs) (snd it)) (co_items cs) ->
  reduce keep clkeep cs = Some cs' ->
  valid (co_D cs') ks -> valid (co_D cs') ks' ->
  let D := co_D cs in let D' := co_D cs' in
  density_matrix D' lab (co_items cs') (index_of_values D' ks) (index_of_values D' ks')
  = traced_pairs D keep ks ks' (fun vs vs' => density_matrix D lab (co_items cs) (index_of_values D vs) (index_of_values D vs')).
Proof.
  intros keep clkeep cs cs' lab ks ks' HL Hk Hcl Hne ND HF E V V' D D'.
  destruct (C34_reduce keep clkeep cs cs' HL Hk Hcl Hne ND HF E) as (ED & _ & _ & _ & groups & EG & HG). fold D in ED, HG. fold D' in ED.
  assert (HL' : 1 <= dL D') by (rewrite ED; exact HL).
  assert (Hlab : forall l, Forall (fun it => wf_state D (snd it)) l -> Forall (wf_state D) (with_label lab l)).
  { intros l H. unfold with_label. apply Forall_forall. intros st Hin. apply in_map_iff in Hin. destruct Hin as (it & <- & Hin). apply filter_In in Hin.
    rewrite Forall_forall in H. apply H. tauto. }
  assert (HF' : Forall (fun it => wf_state D' (snd it)) (co_items cs')).
  { rewrite EG, ED. clear - HG. induction HG as [|it g l l' [(os & _ & _ & H) _] _ IH]; [constructor|]. cbn [concat]. apply Forall_app. split; [|exact IH].
    clear - H. induction H as [|o new os g [_ H] _ IH]; [constructor|]. apply Forall_cons; [|exact IH]. apply H. }
  assert (Hlab' : Forall (wf_state D') (with_label lab (co_items cs'))).
  { unfold with_label. apply Forall_forall. intros st Hin. apply in_map_iff in Hin. destruct Hin as (it & <- & Hin). apply filter_In in Hin.
    rewrite Forall_forall in HF'. apply HF'. tauto. }
  rewrite density_entry_vectors by auto.
  rewrite (traced_pairs_ext D keep ks ks' _ (fun vs vs' => Csum (with_label lab (co_items cs)) (fun st => (RtoC (s_cum st) * (Cconj (amp_of D st vs) * amp_of D st vs'))%C)));
    [|exact HL|intros; now apply density_entry_vectors; auto].
  rewrite <- traced_pairs_sum. rewrite !with_label_sum. rewrite EG. 
  assert (GG : forall l gs, Forall (fun it => wf_state D (snd it)) l -> Forall2 (fun it g =>
      one_per_outcome D (other_channels (dN D) keep) (snd it) g (fun o new =>
        fst new = fst it ++ map (fun d => 48 + d) (traced_name D o) /\ reduced D keep clkeep o (snd it) (snd new)) /\
      Rsum g (fun new => s_cum (snd new)) = (s_cum (snd it) * state_norm2 (snd it))%R) l gs ->
    Csum (concat gs) (fun it => if leqb (s_init (snd it)) lab then (RtoC (s_cum (snd it)) * (Cconj (amp_of D' (snd it) ks) * amp_of D' (snd it) ks'))%C else RtoC 0)
    = Csum l (fun it => if leqb (s_init (snd it)) lab then traced_pairs D keep ks ks' (fun vs vs' => (RtoC (s_cum (snd it)) * (Cconj (amp_of D (snd it) vs) * amp_of D (snd it) vs'))%C) else RtoC 0)).
  { clear - HL ED V V'. intros l gs HFl HGl. revert HFl. induction HGl as [|it g l gs [(os & NDo & Ho & HO) _] _ IH]; intros HFl; [reflexivity|]. inversion HFl as [|? ? W HF]; subst.
    cbn [concat]. rewrite Csum_app, Csum_cons, IH by auto. f_equal.
    rewrite <- traced_pairs_scal, <- (parts_sum D keep (snd it) ks ks' os) by auto.
    transitivity (Csum os (fun o => if leqb (s_init (snd it)) lab then (RtoC (s_cum (snd it)) * (Cconj (part D keep (snd it) ks o) * part D keep (snd it) ks' o))%C else RtoC 0)).
    2:{ destruct (leqb (s_init (snd it)) lab); [apply Csum_scal_l|now apply Csum_zero]. }
    clear NDo Ho IH HF HFl. rewrite ED in *. induction HO as [|o new os g [_ HR] _ IH]; [reflexivity|]. rewrite !Csum_cons. rewrite IH. f_equal.
    pose proof HR as (Ei & _ & _ & _ & Ec & Hp & _). rewrite Ei. destruct (leqb (s_init (snd it)) lab); [|reflexivity].
    change (co_D cs') with D' in V, V'. rewrite ED in V, V'.
    rewrite (reduced_part D keep clkeep o (snd it) (snd new) ks HL HR V), (reduced_part D keep clkeep o (snd it) (snd new) ks' HL HR V').
    rewrite Ec. set (q := outcome_prob D (snd it) (other_channels (dN D) keep) o) in *.
    assert (Hs : (0 < sqrt q)%R) by now apply sqrt_lt_R0. assert (Hq : q = (sqrt q * sqrt q)%R) by (symmetry; apply sqrt_sqrt; lra).
    rewrite Hq at 1. unfold Cdiv. rewrite Cconj_mult. rewrite <- RtoC_inv by lra. rewrite Cconj_RtoC, !RtoC_mult.
    transitivity ((RtoC (sqrt q) * RtoC (/ sqrt q)) * (RtoC (sqrt q) * RtoC (/ sqrt q)) * (RtoC (s_cum (snd it)) * (Cconj (part D keep (snd it) ks o) * part D keep (snd it) ks' o)))%C; [ring|].
    rewrite <- !RtoC_mult, Rinv_r by lra. rewrite Rmult_1_r. ring. }
  rewrite (GG (co_items cs) groups HF HG). apply Csum_ext. intros it _. reflexivity.
Qed.

(** A case: a photon pair in channels 0 and 1 superposed with one photon in channel 2. Tracing
    out channel 2 leaves two states of weight 1/2, and the coherence between the two is lost. *)
Definition three_way : state :=
  State [120] 1 [([0;0;1], (RtoC (/ sqrt 2), (/2)%R)); ([1;1;0], (RtoC (/ sqrt 2), (/2)%R))] [5%R; 6%R] [] [].
Definition three_way_input : coll := Coll (Dims 2 3 true) 2 0 [([97], three_way)].

Example C34_case : exists cs', reduce [0;1] [1] three_way_input = Some cs' /\
  co_D cs' = Dims 2 2 true /\ co_ncl cs' = 1 /\ length (co_items cs') = 2 /\
  density_matrix (co_D cs') [120] (co_items cs') (index_of_values (co_D cs') [1;1]) (index_of_values (co_D cs') [1;1]) = RtoC (/2) /\
  density_matrix (co_D cs') [120] (co_items cs') (index_of_values (co_D cs') [0;0]) (index_of_values (co_D cs') [1;1]) = RtoC 0.
Proof.
  set (D := Dims 2 3 true).
  assert (V : forall a b c, a < 2 -> b < 2 -> c < 2 -> valid D [a;b;c]).
  { intros a b c Ha Hb Hc. split; [reflexivity|]. constructor; [exact Ha|]. constructor; [exact Hb|]. constructor; [exact Hc|constructor]. }
  assert (Hw : wf_state D three_way).
  { split; [repeat constructor; cbn; intuition discriminate|]. intros nm. cbn. intros [<-|[<-|[]]].
    - exists [0;0;1]. split; [apply V; lia|reflexivity].
    - exists [1;1;0]. split; [apply V; lia|reflexivity]. }
  assert (Hs : (0 < / sqrt 2)%R) by (apply Rinv_0_lt_compat, sqrt_lt_R0; lra).
  assert (HF : Forall (fun it => wf_state (co_D three_way_input) (snd it)) (co_items three_way_input)) by (apply Forall_cons; [exact Hw|apply Forall_nil]).
  assert (ND : NoDup (map fst (co_items three_way_input))) by (repeat constructor; intros []).
  destruct (C34_does_not_raise [0;1] [1] three_way_input) as [cs' E].
  { cbn; lia. } { cbn; lia. } { left; discriminate. } { repeat constructor. } { repeat constructor. } { cbn; lra. }
  { apply Forall_cons; [|apply Forall_nil]. cbn [snd]. split; [exact Hw|]. split; [|split; [cbn; lra|]].
    - unfold state_norm2. cbn [s_comps three_way]. rewrite !Rsum_cons. unfold Rsum. cbn [fold_right fst snd]. rewrite !Cnorm2_RtoC, inv_sqrt2_sq. lra.
    - intros vs [Hv Hin]. change (co_D three_way_input) with D in *. unfold amp_of. destruct Hin as [H|[H|[]]]; cbn [fst] in H;
        rewrite <- H; cbn; intros K; apply RtoC_inj in K; lra. }
  exists cs'. split; [exact E|].
  destruct (C34_reduce [0;1] [1] three_way_input cs') as (ED & EN & _ & _ & gs & EG & HG); auto; try discriminate; [cbn; lia|left; discriminate|].
  split; [exact ED|]. split; [exact EN|]. split.
  { rewrite EG. inversion HG as [|it g l l' [(os & NDo & Ho & HO) _] HN]; subst. inversion HN; subst. cbn [concat]. rewrite app_nil_r.
    rewrite <- (Forall2_length _ _ _ HO).
    assert (P : Permutation os [[0];[1]]).
    { apply NoDup_Permutation; [exact NDo|repeat constructor; cbn; intuition discriminate|]. intros o. rewrite Ho.
      rewrite <- outcomes_possible by (auto; cbn; lia). change (outcomes _ _ _) with [[1];[0]]. cbn. tauto. }
    apply Permutation_length in P. exact P. }
  assert (V2 : forall a b, a < 2 -> b < 2 -> valid (co_D cs') [a;b]).
  { intros a b Ha Hb. rewrite ED. split; [reflexivity|]. constructor; [exact Ha|]. constructor; [exact Hb|constructor]. }
  assert (Q : forall ks ks', valid (co_D cs') ks -> valid (co_D cs') ks' ->
    density_matrix (co_D cs') [120] (co_items cs') (index_of_values (co_D cs') ks) (index_of_values (co_D cs') ks')
    = traced_pairs D [0;1] ks ks' (fun vs vs' => (Cconj (amp_of D three_way vs) * amp_of D three_way vs')%C)).
  { intros ks ks' Hk Hk'. rewrite (C34_partial_trace [0;1] [1] three_way_input cs'); auto; try discriminate; [|cbn; lia|left; discriminate].
    apply traced_pairs_ext; [cbn; lia|]. intros vs vs' Hv Hv'. change (co_D three_way_input) with D. rewrite density_entry_vectors; auto; [|cbn; lia|].
    - change (with_label [120] (co_items three_way_input)) with [three_way]. unfold Csum. cbn [fold_right three_way s_cum]. ring.
    - change (with_label [120] (co_items three_way_input)) with [three_way]. repeat apply Forall_cons; auto. }
  assert (EA : all_values D = [[0;0;0];[1;0;0];[0;1;0];[1;1;0];[0;0;1];[1;0;1];[0;1;1];[1;1;1]]) by reflexivity.
  split; rewrite Q by (apply V2; lia); unfold traced_pairs; rewrite EA; unfold Csum; cbn -[Cplus Cmult RtoC Cconj sqrt Rinv].
  - rewrite !Cplus_0_l, !Cplus_0_r, !Cconj_RtoC. rewrite Cmult_0_l, Cplus_0_r. rewrite <- RtoC_mult. now rewrite inv_sqrt2_sq.
  - rewrite !Cplus_0_l. rewrite ?Cconj_RtoC. ring.
Qed.
