(** Property theorems C33 (density matrices) and C38 (inner and tensor products). *)
From Coq Require Import Reals List Arith Lia Lra Bool Permutation.
From Coquelicot Require Import Complex.
From Verif Require Import Prelude NamesModel NamesSpec NamesProofs FockModel FockSpec StateModel StateSpec StateProofs
  ApplyProofs CollectionModel CollectionSpec MeasureProofs WfProofs PropState PropMeasure EvalModel EvalSpec EvalProofs PropEval PropCollection.
Import ListNotations.

(** ** Sums over components are sums over the basis *)
Lemma comps_sum (cs : list (name * (C * R))) (l : list name) (g : name -> C -> C) :
  NoDup (map fst cs) -> NoDup l -> (forall nm, In nm (map fst cs) -> In nm l) -> (forall nm, g nm (RtoC 0) = RtoC 0) ->
  Csum cs (fun c => g (fst c) (fst (snd c)))
  = Csum l (fun nm => g nm (match dget leqb nm cs with Some ap => fst ap | None => RtoC 0 end)).
Proof.
  intros ND NDl Hin Hg. induction cs as [|[nm [a p]] cs IH].
  - cbn [dget]. rewrite Csum_nil. symmetry. apply Csum_zero. auto.
  - cbn [map fst] in *. inversion ND; subst. rewrite Csum_cons. cbn [fst snd]. rewrite IH; auto; [|intros; apply Hin; now right].
    transitivity (Csum l (fun x => (if leqb x nm then g nm a else RtoC 0) + g x (match dget leqb x cs with Some ap => fst ap | None => RtoC 0 end)))%C.
    + rewrite Csum_plus. f_equal. symmetry.
      rewrite (Csum_single l nm).
      * now rewrite (proj2 (leqb_spec nm nm) eq_refl).
      * auto.
      * apply Hin. now left.
      * intros x Hx Hne. destruct (leqb x nm) eqn:E; auto. apply leqb_spec in E. contradiction.
    + apply Csum_ext. intros x Hx. cbn [dget]. destruct (leqb x nm) eqn:E.
      * apply leqb_spec in E. subst x. rewrite (proj2 (dget_none_iff leqb leqb_spec nm cs)) by auto.
        rewrite Hg. cbn [fst]. ring.
      * ring.
Qed.

Lemma wf_names D st : 1 <= dL D -> wf_state D st -> forall nm, In nm (map fst (s_comps st)) -> In nm (all_names D).
Proof. intros HL [_ Hn] nm H. destruct (Hn nm H) as (vs & Hv & ->). rewrite all_names_map. apply in_map. now apply all_values_in. Qed.

Lemma inner_row st1 st2 : NoDup (map fst (s_comps st2)) ->
  inner st1 st2 = Csum (s_comps st1) (fun c => (Cconj (fst (snd c)) * amplitude st2 (fst c))%C).
Proof.
  intros ND. unfold inner. apply Csum_ext. intros [n1 [a1 p1]] _. cbn [fst snd]. unfold amplitude.
  induction (s_comps st2) as [|[nm [a p]] cs IH].
  - cbn [dget]. rewrite Csum_nil. ring.
  - cbn [map fst] in ND. inversion ND; subst. rewrite Csum_cons. cbn [fst snd dget]. destruct (leqb n1 nm) eqn:E.
    + rewrite IH by auto. apply leqb_spec in E. subst nm. rewrite (proj2 (dget_none_iff leqb leqb_spec n1 cs)) by auto.
      cbn [fst]. ring.
    + rewrite IH by auto. ring.
Qed.

(** ** C38: inner products *)
(** inner is the sum over all photon-number tuples of conj(amplitude) * amplitude. *)
Theorem C38_inner : forall D st1 st2, 1 <= dL D -> wf_state D st1 -> wf_state D st2 ->
  inner st1 st2 = Csum (all_values D) (fun vs => (Cconj (amp_of D st1 vs) * amp_of D st2 vs)%C).
Proof.
  intros D st1 st2 HL H1 H2. rewrite inner_row by apply H2.
  rewrite (comps_sum (s_comps st1) (all_names D) (fun nm a => Cconj a * amplitude st2 nm)%C).
  - rewrite all_names_map, Csum_map. reflexivity.
  - apply H1.
  - now apply all_names_NoDup.
  - now apply wf_names.
  - intros nm. rewrite Cconj_RtoC. ring.
Qed.

(** Conjugate symmetry; inner(s,s) is the squared norm, hence real, nonnegative, and zero only
    if all amplitudes are; linearity in the second argument. *)
Theorem C38_inner_laws : forall D, 1 <= dL D ->
  (forall s t, wf_state D s -> wf_state D t -> inner t s = Cconj (inner s t)) /\
  (forall s, wf_state D s -> inner s s = RtoC (state_norm2 s)) /\
  (forall s, wf_state D s -> (inner s s = RtoC 0 <-> forall vs, valid D vs -> amp_of D s vs = RtoC 0)) /\
  (forall s t u a b, wf_state D s -> wf_state D t -> wf_state D u ->
     (forall vs, valid D vs -> amp_of D u vs = (a * amp_of D s vs + b * amp_of D t vs)%C) ->
     forall w, wf_state D w -> inner w u = (a * inner w s + b * inner w t)%C).
Proof.
  intros D HL.
  assert (Hself : forall s, wf_state D s -> inner s s = RtoC (state_norm2 s)).
  { intros s Hs. rewrite inner_row by apply Hs. unfold state_norm2. rewrite <- Csum_RtoC. apply Csum_ext.
    intros [nm [a p]] Hin. cbn [fst snd]. unfold amplitude. rewrite (dget_in leqb leqb_spec nm (a, p)); [|apply Hs|exact Hin].
    cbn [fst]. apply Cconj_mult_norm2. }
  split; [|split; [|split]].
  - intros s t Hs Ht. rewrite !(C38_inner D) by auto. rewrite Csum_conj. apply Csum_ext. intros vs _.
    rewrite Cconj_mult, Cconj_invol. ring.
  - exact Hself.
  - intros s Hs. split.
    + intros E vs Hv. rewrite Hself in E by auto. injection E as E. unfold amp_of, amplitude.
      destruct (dget leqb (name_string D vs) (s_comps s)) as [[a p]|] eqn:Eg; [|reflexivity]. cbn [fst].
      apply (dget_some_in leqb leqb_spec) in Eg. apply Cnorm2_eq0.
      pose proof (Rsum_le_term (s_comps s) (fun c => Cnorm2 (fst (snd c))) _ (fun y _ => Cnorm2_nonneg (fst (snd y))) Eg) as H.
      cbn [fst snd] in H. pose proof (Cnorm2_nonneg a). unfold state_norm2 in E. apply Rle_antisym; [rewrite <- E; exact H|auto].
    + intros H. rewrite (C38_inner D) by auto. apply Csum_zero. intros vs Hv. apply all_values_in in Hv; auto. rewrite H by auto. ring.
  - intros s t u a b Hs Ht Hu H w Hw. rewrite !(C38_inner D) by auto. rewrite <- !Csum_scal_l, <- Csum_plus.
    apply Csum_ext. intros vs Hv. apply all_values_in in Hv; auto. rewrite H by auto. ring.
Qed.

(** outer(s,t) at the indices of two tuples: conj(amplitude of s) * amplitude of t. *)
Theorem C38_outer : forall D s t us vs, 1 <= dL D -> wf_state D s -> wf_state D t -> valid D us -> valid D vs ->
  outer D s t (index_of_values D us) (index_of_values D vs) = (Cconj (amp_of D s us) * amp_of D t vs)%C.
Proof. intros. unfold outer. now rewrite !state_vector_amp. Qed.

(** ** C38: tensor products *)
Lemma flat_map_prod {A B X} (f : A -> B -> X) l1 l2 :
  flat_map (fun a => map (f a) l2) l1 = map (fun p => f (fst p) (snd p)) (list_prod l1 l2).
Proof.
  induction l1 as [|a l1 IH]; [reflexivity|]. cbn [flat_map list_prod]. rewrite map_app, map_map. cbn [fst snd]. now rewrite IH.
Qed.
Lemma Csum_prod {A B} (l1 : list A) (l2 : list B) f :
  Csum (list_prod l1 l2) f = Csum l1 (fun a => Csum l2 (fun b => f (a, b))).
Proof.
  induction l1 as [|a l1 IH]; [reflexivity|]. cbn [list_prod]. rewrite Csum_app, Csum_map, Csum_cons. now rewrite IH.
Qed.
Lemma NoDup_map_prod {A B X} (f : A * B -> X) l1 l2 :
  NoDup l1 -> NoDup l2 -> (forall p q, In p (list_prod l1 l2) -> In q (list_prod l1 l2) -> f p = f q -> p = q) ->
  NoDup (map f (list_prod l1 l2)).
Proof.
  intros N1 N2 Hf. apply map_inj_NoDup; [intros; now apply Hf|]. clear Hf.
  induction l1 as [|a l1 IH]; [constructor|]. cbn [list_prod]. inversion N1; subst.
  assert (Na : NoDup (map (fun b : B => (a, b)) l2)) by (apply map_inj_NoDup; auto; intros x y _ _ E; now injection E).
  assert (Hd : forall x, In x (map (fun b : B => (a, b)) l2) -> ~ In x (list_prod l1 l2)).
  { intros x Hx Hin. apply in_map_iff in Hx. destruct Hx as (b & <- & _). apply in_prod_iff in Hin. tauto. }
  specialize (IH H2). revert Na Hd. generalize (map (fun b : B => (a, b)) l2). induction l as [|x l IHl]; intros Na Hd; [exact IH|].
  inversion Na; subst. cbn [app]. constructor.
  - intros Hin. apply in_app_or in Hin. destruct Hin; [contradiction|]. apply (Hd x); [now left|auto].
  - apply IHl; auto. intros y Hy. apply Hd. now right.
Qed.

Lemma app_inj_len {A} (a b c d : list A) : length a = length c -> a ++ b = c ++ d -> a = c /\ b = d.
Proof.
  revert c. induction a as [|x a IH]; intros [|y c] H E; try discriminate; [auto|].
  cbn in H, E. injection E as -> E. destruct (IH c) as [-> ->]; auto.
Qed.

(** The component of the tensor product for a pair of components. *)
Definition tensor_comp (D1 D2 : dims) (p : (name * (C * R)) * (name * (C * R))) : name * (C * R) :=
  let a := (fst (snd (fst p)) * fst (snd (snd p)))%C in
  (name_string (tensor_dims D1 D2) (values_of_name D1 (fst (fst p)) ++ values_of_name D2 (fst (snd p))), (a, Cnorm2 a)).

Lemma valid_app_dims D1 D2 us vs : valid D1 us -> valid D2 vs -> Forall (fun v => v < dL D1) vs ->
  valid (tensor_dims D1 D2) (us ++ vs).
Proof. intros [L1 F1] [L2 F2] F. split; [rewrite app_length; cbn; lia|]. apply Forall_app. auto. Qed.

(** The photon numbers of the second state exist in the first state's circuit. *)
Definition fits (D1 D2 : dims) (st2 : state) : Prop :=
  forall vs, valid D2 vs -> In (name_string D2 vs) (map fst (s_comps st2)) -> Forall (fun v => v < dL D1) vs.

Lemma tensor_state_list D1 D2 s1 s2 :
  1 <= dL D1 -> 1 <= dL D2 -> wf_state D1 s1 -> wf_state D2 s2 -> fits D1 D2 s2 ->
  tensor_state D1 D2 s1 s2 = Some (map (tensor_comp D1 D2) (list_prod (s_comps s1) (s_comps s2))) /\
  NoDup (map fst (map (tensor_comp D1 D2) (list_prod (s_comps s1) (s_comps s2)))).
Proof.
  intros HL1 HL2 W1 W2 Hf. unfold tensor_state.
  assert (HV : forall p, In p (list_prod (s_comps s1) (s_comps s2)) ->
     valid D1 (values_of_name D1 (fst (fst p))) /\ name_string D1 (values_of_name D1 (fst (fst p))) = fst (fst p) /\
     valid D2 (values_of_name D2 (fst (snd p))) /\ name_string D2 (values_of_name D2 (fst (snd p))) = fst (snd p) /\
     valid (tensor_dims D1 D2) (values_of_name D1 (fst (fst p)) ++ values_of_name D2 (fst (snd p)))).
  { intros [c1 c2] Hp. apply in_prod_iff in Hp. destruct Hp as [H1 H2]. cbn [fst snd].
    destruct (wf_comp_values D1 s1 c1 HL1 W1 H1) as [V1 E1]. destruct (wf_comp_values D2 s2 c2 HL2 W2 H2) as [V2 E2].
    do 4 (split; auto). apply valid_app_dims; auto. apply Hf; auto. rewrite E2. now apply in_map. }
  assert (ND : NoDup (map fst (map (tensor_comp D1 D2) (list_prod (s_comps s1) (s_comps s2))))).
  { rewrite map_map. apply NoDup_map_prod.
    - apply (NoDup_map_inv fst). apply W1.
    - apply (NoDup_map_inv fst). apply W2.
    - intros [c1 c2] [d1 d2] Hp Hq E. cbn [tensor_comp fst] in E.
      destruct (HV _ Hp) as (V1 & E1 & V2 & E2 & V). destruct (HV _ Hq) as (V1' & E1' & V2' & E2' & V'). cbn [fst snd] in *.
      apply name_string_inj in E; [|exact (proj2 V)|exact (proj2 V')]. apply app_inj_len in E; [|destruct V1 as [-> _]; destruct V1' as [-> _]; reflexivity].
      destruct E as [Ea Eb]. apply in_prod_iff in Hp, Hq. destruct Hp as [P1 P2], Hq as [Q1 Q2].
      assert (N1 : fst c1 = fst d1) by (rewrite <- E1, <- E1'; now f_equal).
      assert (N2 : fst c2 = fst d2) by (rewrite <- E2, <- E2'; now f_equal).
      destruct c1 as [n1 x1], c2 as [n2 x2], d1 as [m1 y1], d2 as [m2 y2]. cbn [fst] in *. subst m1 m2.
      f_equal; f_equal.
      + pose proof (dget_in leqb leqb_spec n1 x1 _ (proj1 W1) P1). pose proof (dget_in leqb leqb_spec n1 y1 _ (proj1 W1) Q1). congruence.
      + pose proof (dget_in leqb leqb_spec n2 x2 _ (proj1 W2) P2). pose proof (dget_in leqb leqb_spec n2 y2 _ (proj1 W2) Q2). congruence. }
  split; auto. rewrite flat_map_prod, (option_list_all _ (tensor_comp D1 D2)).
  - f_equal. now apply (dict_of_nodup leqb leqb_spec).
  - intros p Hp. cbv beta zeta. destruct (HV p Hp) as (_ & _ & _ & _ & V).
    unfold tensor_comp. rewrite name_of_values_valid by exact (proj2 V). reflexivity.
Qed.

Lemma tensor_keys D1 D2 s1 s2 nm :
  1 <= dL D1 -> 1 <= dL D2 -> wf_state D1 s1 -> wf_state D2 s2 -> fits D1 D2 s2 ->
  In nm (map fst (map (tensor_comp D1 D2) (list_prod (s_comps s1) (s_comps s2)))) ->
  exists us vs, valid D1 us /\ valid D2 vs /\ Forall (fun v => v < dL D1) vs /\ nm = name_string (tensor_dims D1 D2) (us ++ vs) /\
    In (name_string D1 us) (map fst (s_comps s1)) /\ In (name_string D2 vs) (map fst (s_comps s2)).
Proof.
  intros HL1 HL2 W1 W2 Hf Hin. rewrite map_map in Hin. apply in_map_iff in Hin. destruct Hin as ([c1 c2] & <- & Hp).
  apply in_prod_iff in Hp. destruct Hp as [H1 H2].
  destruct (wf_comp_values D1 s1 c1 HL1 W1 H1) as [V1 E1]. destruct (wf_comp_values D2 s2 c2 HL2 W2 H2) as [V2 E2].
  exists (values_of_name D1 (fst c1)), (values_of_name D2 (fst c2)). split; [exact V1|split; [exact V2|]].
  assert (I2 : In (name_string D2 (values_of_name D2 (fst c2))) (map fst (s_comps s2))) by (rewrite E2; now apply in_map).
  split; [now apply Hf|]. split; [reflexivity|]. split; [rewrite E1; now apply in_map|exact I2].
Qed.

(** The tensor product of two states exists as soon as the photon numbers of the second one exist
    in the first one's circuit; it is a well-formed state over the channels of both (those of the
    second after those of the first) and the amplitude of a combined tuple of photon numbers is
    the product of the amplitudes. *)
Theorem C38_tensor : forall D1 D2 s1 s2,
  1 <= dL D1 -> 1 <= dL D2 -> wf_state D1 s1 -> wf_state D2 s2 -> fits D1 D2 s2 ->
  exists cs, tensor_state D1 D2 s1 s2 = Some cs /\
    wf_state (tensor_dims D1 D2) (with_comps s1 cs) /\ probs_ok (with_comps s1 cs) /\
    forall us vs, valid D1 us -> valid D2 vs -> Forall (fun v => v < dL D1) vs ->
      amp_of (tensor_dims D1 D2) (with_comps s1 cs) (us ++ vs) = (amp_of D1 s1 us * amp_of D2 s2 vs)%C.
Proof.
  intros D1 D2 s1 s2 HL1 HL2 W1 W2 Hf. destruct (tensor_state_list D1 D2 s1 s2 HL1 HL2 W1 W2 Hf) as [E ND].
  exists (map (tensor_comp D1 D2) (list_prod (s_comps s1) (s_comps s2))). split; [exact E|]. split; [split; [exact ND|]|split].
  - intros nm Hin. cbn [s_comps with_comps] in Hin. destruct (tensor_keys D1 D2 s1 s2 nm HL1 HL2 W1 W2 Hf Hin) as (us & vs & V1 & V2 & F & -> & _).
    exists (us ++ vs). split; [now apply valid_app_dims|reflexivity].
  - intros nm a p Hin. cbn [s_comps with_comps] in Hin. apply in_map_iff in Hin. destruct Hin as (c & Ec & _).
    unfold tensor_comp in Ec. injection Ec as _ <- <-. reflexivity.
  - intros us vs V1 V2 F. unfold amp_of at 1, amplitude. cbn [s_comps with_comps].
    assert (Hno : ~ (In (name_string D1 us) (map fst (s_comps s1)) /\ In (name_string D2 vs) (map fst (s_comps s2))) ->
       dget leqb (name_string (tensor_dims D1 D2) (us ++ vs)) (map (tensor_comp D1 D2) (list_prod (s_comps s1) (s_comps s2))) = None).
    { intros Hno. apply (dget_none_iff leqb leqb_spec). intros Hin. apply Hno.
      destruct (tensor_keys D1 D2 s1 s2 _ HL1 HL2 W1 W2 Hf Hin) as (us' & vs' & V1' & V2' & F' & En & I1 & I2).
      apply name_string_inj in En; [|exact (proj2 (valid_app_dims D1 D2 us vs V1 V2 F))|exact (proj2 (valid_app_dims D1 D2 us' vs' V1' V2' F'))].
      apply app_inj_len in En; [|now rewrite (proj1 V1), (proj1 V1')]. destruct En as [-> ->]. auto. }
    unfold amp_of, amplitude.
    destruct (dget leqb (name_string D1 us) (s_comps s1)) as [[a p]|] eqn:G1.
    2:{ rewrite Hno; [ring|]. intros [H _]. revert H. now apply (dget_none_iff leqb leqb_spec). }
    destruct (dget leqb (name_string D2 vs) (s_comps s2)) as [[b q]|] eqn:G2.
    2:{ rewrite Hno; [ring|]. intros [_ H]. revert H. now apply (dget_none_iff leqb leqb_spec). }
    apply (dget_some_in leqb leqb_spec) in G1, G2.
    rewrite (dget_in leqb leqb_spec _ ((a * b)%C, Cnorm2 (a * b)%C)); [reflexivity|exact ND|].
    apply in_map_iff. exists ((name_string D1 us, (a, p)), (name_string D2 vs, (b, q))). split; [|now apply in_prod_iff].
    unfold tensor_comp. cbn [fst snd]. rewrite !values_of_name_string by (auto; first [exact (proj2 V1)|exact (proj2 V2)]). reflexivity.
Qed.

(** Otherwise it raises. *)
Theorem C38_tensor_raises : forall D1 D2 s1 s2 vs,
  1 <= dL D2 -> s_comps s1 <> [] -> valid D2 vs -> In (name_string D2 vs) (map fst (s_comps s2)) ->
  ~ Forall (fun v => v < dL D1) vs -> tensor_state D1 D2 s1 s2 = None.
Proof.
  intros D1 D2 s1 s2 vs HL2 Hne V Hin HF. unfold tensor_state. rewrite flat_map_prod.
  destruct (s_comps s1) as [|c1 r] eqn:E1; [contradiction|]. apply in_map_iff in Hin. destruct Hin as (c2 & E2 & I2).
  rewrite (option_list_raises _ _ (c1, c2)); [reflexivity|apply in_prod_iff; split; [now left|exact I2]|].
  cbn [fst snd]. rewrite E2, values_of_name_string by (auto; exact (proj2 V)).
  unfold name_of_values. replace (forallb _ _) with false; [reflexivity|]. symmetry. rewrite forallb_app.
  replace (forallb (fun v : nat => v <? dL (tensor_dims D1 D2)) vs) with false; [apply andb_false_r|]. symmetry.
  apply not_true_is_false. intros Hf. apply HF. rewrite forallb_forall in Hf. apply Forall_forall. intros v Hv. apply Nat.ltb_lt. apply (Hf v Hv).
Qed.

Lemma Rsum_prod {A B} (l1 : list A) (l2 : list B) f :
  Rsum (list_prod l1 l2) f = Rsum l1 (fun a => Rsum l2 (fun b => f (a, b))).
Proof.
  induction l1 as [|a l1 IH]; [reflexivity|]. cbn [list_prod]. rewrite Rsum_app, Rsum_map, Rsum_cons. now rewrite IH.
Qed.

(** Inner products and norms of tensor products multiply. *)
Theorem C38_tensor_inner : forall D1 D2 s1 s2 t1 t2 cs ct,
  1 <= dL D1 -> 1 <= dL D2 -> wf_state D1 s1 -> wf_state D2 s2 -> fits D1 D2 s2 ->
  wf_state D1 t1 -> wf_state D2 t2 -> fits D1 D2 t2 ->
  tensor_state D1 D2 s1 s2 = Some cs -> tensor_state D1 D2 t1 t2 = Some ct ->
  inner (with_comps s1 cs) (with_comps t1 ct) = (inner s1 t1 * inner s2 t2)%C /\
  state_norm2 (with_comps s1 cs) = (state_norm2 s1 * state_norm2 s2)%R.
Proof.
  intros D1 D2 s1 s2 t1 t2 cs ct HL1 HL2 Ws1 Ws2 Fs Wt1 Wt2 Ft Es Et.
  destruct (tensor_state_list D1 D2 s1 s2 HL1 HL2 Ws1 Ws2 Fs) as [Es' _]. rewrite Es in Es'. injection Es' as ->.
  destruct (tensor_state_list D1 D2 t1 t2 HL1 HL2 Wt1 Wt2 Ft) as [Et' _]. rewrite Et in Et'. injection Et' as ->.
  split.
  - unfold inner. cbn [s_comps with_comps]. rewrite Csum_map, Csum_prod.
    rewrite <- Csum_scal_r. apply Csum_ext. intros c1 H1.
    transitivity (Csum (s_comps s2) (fun c2 => Csum (s_comps t1) (fun d1 => Csum (s_comps t2) (fun d2 =>
      ((if leqb (fst c1) (fst d1) then Cconj (fst (snd c1)) * fst (snd d1) else RtoC 0) *
       (if leqb (fst c2) (fst d2) then Cconj (fst (snd c2)) * fst (snd d2) else RtoC 0))%C)))).
    + apply Csum_ext. intros c2 H2. rewrite Csum_map, Csum_prod. apply Csum_ext. intros d1 H3. apply Csum_ext. intros d2 H4.
      destruct (wf_comp_values D1 s1 c1 HL1 Ws1 H1) as [V1 E1]. destruct (wf_comp_values D2 s2 c2 HL2 Ws2 H2) as [V2 E2].
      destruct (wf_comp_values D1 t1 d1 HL1 Wt1 H3) as [V3 E3]. destruct (wf_comp_values D2 t2 d2 HL2 Wt2 H4) as [V4 E4].
      assert (F2 : Forall (fun v => v < dL D1) (values_of_name D2 (fst c2))) by (apply Fs; auto; rewrite E2; now apply in_map).
      assert (F4 : Forall (fun v => v < dL D1) (values_of_name D2 (fst d2))) by (apply Ft; auto; rewrite E4; now apply in_map).
      unfold tensor_comp. cbn [fst snd].
      destruct (leqb (name_string _ _) _) eqn:E.
      * apply leqb_spec in E. apply name_string_inj in E; [|exact (proj2 (valid_app_dims D1 D2 _ _ V1 V2 F2))|exact (proj2 (valid_app_dims D1 D2 _ _ V3 V4 F4))].
        apply app_inj_len in E; [|now rewrite (proj1 V1), (proj1 V3)]. destruct E as [Ea Eb].
        assert (N1 : fst c1 = fst d1) by (rewrite <- E1, <- E3; now f_equal).
        assert (N2 : fst c2 = fst d2) by (rewrite <- E2, <- E4; now f_equal).
        rewrite (proj2 (leqb_spec _ _) N1), (proj2 (leqb_spec _ _) N2). rewrite Cconj_mult. ring.
      * destruct (leqb (fst c1) (fst d1)) eqn:L1; [|ring]. destruct (leqb (fst c2) (fst d2)) eqn:L2; [|ring].
        exfalso. apply leqb_spec in L1, L2. rewrite L1, L2 in E. rewrite (proj2 (leqb_spec _ _) eq_refl) in E. discriminate.
    + rewrite Csum_swap. rewrite <- Csum_scal_r. apply Csum_ext. intros d1 _. rewrite <- Csum_scal_l. apply Csum_ext. intros c2 _.
      rewrite Csum_scal_l. reflexivity.
  - unfold state_norm2. cbn [s_comps with_comps]. rewrite Rsum_map, Rsum_prod. rewrite Rmult_comm, <- Rsum_scal_l. apply Rsum_ext. intros c1 _.
    rewrite Rmult_comm, <- Rsum_scal_l. apply Rsum_ext. intros c2 _. unfold tensor_comp. cbn [fst snd]. now rewrite Cnorm2_mult.
Qed.

Lemma name_string_app D1 D2 us vs : dL D1 = dL D2 -> dLeft D1 = dLeft D2 ->
  name_string (tensor_dims D1 D2) (us ++ vs)
  = if dLeft D1 then name_string D1 us ++ name_string D2 vs else name_string D2 vs ++ name_string D1 us.
Proof.
  intros HL Hl. unfold name_string, digits_per_channel. cbn [dL dLeft tensor_dims]. rewrite <- Hl, <- HL.
  destruct (dLeft D1).
  - now rewrite map_app, concat_app.
  - now rewrite rev_app_distr, map_app, concat_app.
Qed.

Lemma flat_map_ext_in {A B} (f g : A -> list B) l : (forall x, In x l -> f x = g x) -> flat_map f l = flat_map g l.
Proof.
  induction l as [|x l IH]; intros H; [reflexivity|]. cbn [flat_map]. rewrite H, IH; auto using in_eq. intros; apply H; now right.
Qed.

(** Passing the second state as a list of (name, amplitude) gives the same components. *)
Theorem C38_tensor_list : forall D1 D2 s1 s2, 1 <= dL D1 -> dL D2 = dL D1 -> dLeft D2 = dLeft D1 ->
  wf_state D1 s1 -> wf_state D2 s2 ->
  tensor_state D1 D2 s1 s2 = Some (tensor_list (dLeft D1) s1 (map (fun c => (fst c, fst (snd c))) (s_comps s2))).
Proof.
  intros D1 D2 s1 s2 HL1 HL Hl W1 W2.
  assert (Hf : fits D1 D2 s2) by (intros vs V _; rewrite <- HL; exact (proj2 V)).
  destruct (tensor_state_list D1 D2 s1 s2 HL1 ltac:(lia) W1 W2 Hf) as [E ND]. rewrite E. f_equal. unfold tensor_list.
  rewrite <- (dict_of_nodup leqb leqb_spec _ ND) at 1. f_equal.
  rewrite <- flat_map_prod with (f := fun a b => tensor_comp D1 D2 (a, b)).
  apply flat_map_ext_in. intros c1 H1. rewrite map_map. apply map_ext_in. intros c2 H2.
  destruct (wf_comp_values D1 s1 c1 HL1 W1 H1) as [V1 E1]. destruct (wf_comp_values D2 s2 c2 ltac:(lia) W2 H2) as [V2 E2].
  unfold tensor_comp. cbn [fst snd]. rewrite name_string_app by auto. now rewrite E1, E2.
Qed.
(** ... and so does the form with a dictionary of components. *)
Theorem C38_tensor_dict : forall D1 D2 s1 s2, 1 <= dL D1 -> dL D2 = dL D1 -> dLeft D2 = dLeft D1 ->
  wf_state D1 s1 -> wf_state D2 s2 -> tensor_state D1 D2 s1 s2 = Some (tensor_dict (dLeft D1) s1 (s_comps s2)).
Proof.
  intros D1 D2 s1 s2 HL1 HL Hl W1 W2. rewrite (C38_tensor_list D1 D2 s1 s2 HL1 HL Hl W1 W2). f_equal.
  unfold tensor_list, tensor_dict. f_equal. apply flat_map_ext. intro c1. rewrite map_map. reflexivity.
Qed.

(** A case: the split photon (two channels) and a photon in one channel. *)
Example C38_case : fits (Dims 2 2 true) (Dims 2 2 true) photon_1 /\
  amp_of (Dims 2 2 true) split_photon [1;0] = RtoC (/ sqrt 2) /\
  tensor_state (Dims 2 2 true) (Dims 2 2 true) split_photon photon_1
  = Some [([0;1;0;1], ((RtoC (/ sqrt 2) * RtoC 1)%C, Cnorm2 (RtoC (/ sqrt 2) * RtoC 1)%C));
          ([1;0;0;1], ((RtoC (/ sqrt 2) * RtoC 1)%C, Cnorm2 (RtoC (/ sqrt 2) * RtoC 1)%C))].
Proof. split; [intros vs V _; exact (proj2 V)|]. split; reflexivity. Qed.

(** ** C33: density matrices *)
(** The states that contribute to the density matrix of a label. *)
Definition with_label (lab : ident) (its : items) : list state :=
  map snd (filter (fun it => leqb (s_init (snd it)) lab) its).

Lemma density_sum D lab its i j :
  density_matrix D lab its i j
  = Csum (with_label lab its) (fun st => (RtoC (s_cum st) * (Cconj (state_vector D st i) * state_vector D st j))%C).
Proof.
  unfold density_matrix, with_label.
  assert (G : forall (m : mat), fold_left (fun (dm : mat) (it : ident * state) =>
     if leqb (s_init (snd it)) lab then
       fun i j => (dm i j + RtoC (s_cum (snd it)) * (Cconj (state_vector D (snd it) i) * state_vector D (snd it) j))%C
     else dm) its m i j = (m i j + Csum (map snd (filter (fun it => leqb (s_init (snd it)) lab) its))
        (fun st => (RtoC (s_cum st) * (Cconj (state_vector D st i) * state_vector D st j))%C))%C).
  { induction its as [|it its IH]; intros m.
    - cbn [fold_left filter map]. rewrite Csum_nil. ring.
    - cbn [fold_left filter]. rewrite IH. destruct (leqb (s_init (snd it)) lab); [|reflexivity].
      cbn [map]. rewrite Csum_cons. ring. }
  rewrite G. ring.
Qed.

Lemma inner_vector D s t : 1 <= dL D -> wf_state D s -> wf_state D t ->
  inner s t = Csum (seq 0 (size_of_basis D)) (fun i => (Cconj (state_vector D s i) * state_vector D t i)%C).
Proof.
  intros HL Hs Ht. rewrite (C38_inner D) by auto. unfold all_values. rewrite Csum_map. apply Csum_ext. intros i Hi. apply in_seq in Hi.
  rewrite !state_vector_spec by (auto; lia). reflexivity.
Qed.

Lemma Csum_prod2 {A B} (l1 : list A) (l2 : list B) f g :
  (Csum l1 f * Csum l2 g)%C = Csum l1 (fun a => Csum l2 (fun b => (f a * g b)%C)).
Proof. rewrite <- Csum_scal_r. apply Csum_ext. intros a _. now rewrite Csum_scal_l. Qed.

Lemma density_entry_vectors D lab its us vs : 1 <= dL D -> Forall (wf_state D) (with_label lab its) -> valid D us -> valid D vs ->
  density_matrix D lab its (index_of_values D us) (index_of_values D vs)
  = Csum (with_label lab its) (fun st => (RtoC (s_cum st) * (Cconj (amp_of D st us) * amp_of D st vs))%C).
Proof.
  intros HL Hw Hu Hv. rewrite density_sum. rewrite Forall_forall in Hw. apply Csum_ext. intros st Hin.
  now rewrite !state_vector_amp by auto.
Qed.

Lemma Csum_scaled {A} (l : list A) (k : C) f g : (forall x, In x l -> f x = (k * g x)%C) -> Csum l f = (k * Csum l g)%C.
Proof. intros H. rewrite <- Csum_scal_l. now apply Csum_ext. Qed.

(** The density matrix of a label: entries (the matrix is indexed [ket photon numbers conjugated,
    then bra], the transpose of the textbook matrix), Hermitian, positive semidefinite for
    nonnegative weights, trace = sum of weight times squared norm, trace of the square = sum over
    pairs of states of the weights times the squared overlap. *)
Theorem C33_density_matrix : forall D lab its, 1 <= dL D ->
  Forall (fun st => wf_state D st) (with_label lab its) ->
  let n := size_of_basis D in
  let rho := density_matrix D lab its in
  let states := with_label lab its in
  (forall us vs, valid D us -> valid D vs ->
     rho (index_of_values D us) (index_of_values D vs)
     = Csum states (fun st => (RtoC (s_cum st) * (Cconj (amp_of D st us) * amp_of D st vs))%C)) /\
  (forall i j, rho j i = Cconj (rho i j)) /\
  (Forall (fun st => (0 <= s_cum st)%R) states -> forall x : vec, exists r : R, (0 <= r)%R /\
     Csum (seq 0 n) (fun i => Csum (seq 0 n) (fun j => (Cconj (x i) * rho i j * x j)%C)) = RtoC r) /\
  Csum (seq 0 n) (fun i => rho i i) = RtoC (Rsum states (fun st => (s_cum st * state_norm2 st)%R)) /\
  Csum (seq 0 n) (fun i => Csum (seq 0 n) (fun j => (rho i j * rho j i)%C))
  = RtoC (Rsum states (fun s => Rsum states (fun t => (s_cum s * s_cum t * Cnorm2 (inner s t))%R))).
Proof.
  intros D lab its HL Hw n rho states. unfold rho.
  split; [|split; [|split; [|split]]].
  - intros. now apply density_entry_vectors.
  - intros i j. rewrite !density_sum, Csum_conj. apply Csum_ext. intros st _. rewrite !Cconj_mult, Cconj_invol, Cconj_RtoC. ring.
  - intros Hpos x. exists (Rsum states (fun st => (s_cum st * Cnorm2 (Csum (seq 0 n) (fun j => (state_vector D st j * x j)%C)))%R)).
    split.
    + apply Rsum_nonneg. intros st Hin. rewrite Forall_forall in Hpos. apply Rmult_le_pos; [now apply Hpos|apply Cnorm2_nonneg].
    + transitivity (Csum (seq 0 n) (fun i => Csum states (fun st => (Csum (seq 0 n) (fun j =>
         RtoC (s_cum st) * (Cconj (state_vector D st i * x i) * (state_vector D st j * x j))))))%C).
      * apply Csum_ext. intros i _.
        rewrite (Csum_swap states). apply Csum_ext. intros j _. rewrite density_sum.
        fold states. rewrite <- Csum_scal_l, <- Csum_scal_r. apply Csum_ext. intros st _. rewrite Cconj_mult. ring.
      * rewrite Csum_swap. rewrite <- Csum_RtoC. apply Csum_ext. intros st _.
        rewrite RtoC_mult, <- Cconj_mult_norm2, Csum_conj, Csum_prod2, <- Csum_scal_l. apply Csum_ext. intros i _.
        now rewrite Csum_scal_l.
  - transitivity (Csum (seq 0 n) (fun i => Csum states (fun st => (RtoC (s_cum st) * (Cconj (state_vector D st i) * state_vector D st i))%C))).
    { apply Csum_ext. intros i _. apply density_sum. }
    rewrite Csum_swap, <- Csum_RtoC. apply Csum_ext. intros st Hin. rewrite Csum_scal_l, RtoC_mult. f_equal.
    rewrite Forall_forall in Hw. unfold n; rewrite <- inner_vector by auto. apply (proj1 (proj2 (C38_inner_laws D HL))); now apply Hw.
  - transitivity (Csum states (fun s => Csum states (fun t => (RtoC (s_cum s) * RtoC (s_cum t) * (inner s t * inner t s))%C))).
    + transitivity (Csum (seq 0 n) (fun i => Csum (seq 0 n) (fun j => Csum states (fun s => Csum states (fun t =>
         RtoC (s_cum s) * RtoC (s_cum t) * ((Cconj (state_vector D s i) * state_vector D t i) * (Cconj (state_vector D t j) * state_vector D s j))))))%C).
      { apply Csum_ext. intros i _. apply Csum_ext. intros j _. rewrite !density_sum. fold states. rewrite Csum_prod2.
        apply Csum_ext. intros s _. apply Csum_ext. intros t _. ring. }
      transitivity (Csum (seq 0 n) (fun i => Csum states (fun s => Csum states (fun t => Csum (seq 0 n) (fun j =>
         RtoC (s_cum s) * RtoC (s_cum t) * ((Cconj (state_vector D s i) * state_vector D t i) * (Cconj (state_vector D t j) * state_vector D s j))))))%C).
      { apply Csum_ext. intros i _. rewrite Csum_swap. apply Csum_ext. intros s _. apply Csum_swap. }
      rewrite Csum_swap. apply Csum_ext. intros s Hs. rewrite Csum_swap. apply Csum_ext. intros t Ht.
      rewrite Forall_forall in Hw. rewrite (inner_vector D s t), (inner_vector D t s) by auto. fold n. rewrite Csum_prod2, <- Csum_scal_l.
      apply Csum_ext. intros i _. rewrite <- Csum_scal_l. reflexivity.
    + rewrite <- Csum_RtoC. apply Csum_ext. intros s Hs. rewrite <- Csum_RtoC. apply Csum_ext. intros t Ht.
      rewrite Forall_forall in Hw. rewrite (proj1 (C38_inner_laws D HL) s t) by auto. rewrite !RtoC_mult, <- Cconj_mult_norm2. ring.
Qed.

(** For normalised states the trace is the total weight of the label. *)
Theorem C33_trace_is_weight : forall D lab its, 1 <= dL D ->
  Forall (fun st => wf_state D st /\ state_norm2 st = 1%R) (with_label lab its) ->
  Csum (seq 0 (size_of_basis D)) (fun i => density_matrix D lab its i i) = RtoC (Rsum (with_label lab its) s_cum).
Proof.
  intros D lab its HL H. rewrite Forall_forall in H.
  assert (Hw : Forall (fun st => wf_state D st) (with_label lab its)) by (apply Forall_forall; intros st Hin; now apply H).
  destruct (C33_density_matrix D lab its HL Hw) as (_ & _ & _ & T & _). rewrite T. f_equal. apply Rsum_ext.
  intros st Hin. rewrite (proj2 (H st Hin)). ring.
Qed.

(** The matrix is the complex conjugate of the textbook density matrix sum w |s><s|, whose entry
    (i,j) is w * amplitude(i) * conj(amplitude(j)). *)
Theorem C33_conjugated_refuted : exists D lab its, 1 <= dL D /\ Forall (wf_state D) (with_label lab its) /\
  exists us vs, valid D us /\ valid D vs /\
    density_matrix D lab its (index_of_values D us) (index_of_values D vs)
    <> Csum (with_label lab its) (fun st => (RtoC (s_cum st) * (amp_of D st us * Cconj (amp_of D st vs)))%C).
Proof.
  set (st := State [120] 1 [([0;1], (RtoC (/ sqrt 2), (/2)%R)); ([1;0], ((Ci * RtoC (/ sqrt 2))%C, (/2)%R))] [] [] []).
  exists (Dims 2 2 true), [120], [([97], st)].
  assert (V : forall a b, a < 2 -> b < 2 -> valid (Dims 2 2 true) [a;b]).
  { intros a b Ha Hb. split; [reflexivity|]. constructor; [exact Ha|]. constructor; [exact Hb|constructor]. }
  assert (Hw : Forall (wf_state (Dims 2 2 true)) (with_label [120] [([97], st)])).
  { apply Forall_cons; [|apply Forall_nil]. split; [repeat constructor; cbn; intuition discriminate|].
    intros nm. cbn. intros [<-|[<-|[]]]; [exists [0;1]|exists [1;0]]; (split; [auto|reflexivity]). }
  split; [cbn; lia|]. split; [exact Hw|]. exists [0;1], [1;0]. split; [auto|]. split; [auto|].
  rewrite density_entry_vectors by (auto; cbn; lia).
  change (with_label [120] [([97], st)]) with [st]. rewrite !Csum_cons, !Csum_nil.
  change (amp_of (Dims 2 2 true) st [0;1]) with (RtoC (/ sqrt 2)). change (amp_of (Dims 2 2 true) st [1;0]) with (Ci * RtoC (/ sqrt 2))%C.
  change (s_cum st) with 1%R. intros E. apply (f_equal snd) in E. cbn in E.
  assert (H : (0 < / sqrt 2)%R) by (apply Rinv_0_lt_compat, sqrt_lt_R0; lra).
  assert (0 < / sqrt 2 * / sqrt 2)%R by (now apply Rmult_lt_0_compat). lra.
Qed.

Example C33_case :
  Forall (fun st => wf_state (Dims 2 2 true) st /\ state_norm2 st = 1%R) (with_label [120] (co_items measure_input)) /\
  length (with_label [120] (co_items measure_input)) = 1.
Proof.
  split; [|reflexivity]. destruct C20_case as (_ & _ & _ & [_ Hw] & _ & Hn & _).
  change (with_label [120] (co_items measure_input)) with [split_photon]. apply Forall_cons; [|apply Forall_nil].
  split; [exact (proj1 (Forall_inv Hw))|exact (proj1 (Forall_inv Hn))].
Qed.

Print Assumptions C38_tensor_inner.
Print Assumptions C33_density_matrix.

(** Evaluating a circuit without a collection gives its first node this collection, with the
    circuit's own dimensions and threshold: a function node sees exactly that. *)
Theorem C30_evaluate_without_collection : forall X rnd c f, c_nodes c = [NFunction f] -> 1 <= dL (c_D c) ->
  exists cs, evaluate_default X rnd c = (match f cs with Some cs' => Ok cs' | None => Raise end) /\
    co_D cs = c_D c /\ co_ncl cs = c_ncl c /\ co_eps cs = c_eps c /\
    length (co_items cs) = dL (c_D c) ^ dN (c_D c) /\
    forall vs, valid (c_D c) vs -> exists id st, In (id, st) (co_items cs) /\ s_comps st = [(name_string (c_D c) vs, (RtoC 1, 1%R))] /\
      s_cum st = 1%R /\ s_classical st = repeat 0%R (c_ncl c).
Proof.
  intros X rnd c f En HL. exists (default_collection (c_D c) (c_ncl c) (c_eps c)). split; [|split; [reflexivity|split; [reflexivity|split; [reflexivity|]]]].
  - unfold evaluate_default, evaluate_circuit. rewrite En. cbn [length seq].
    rewrite evaluate_single; unfold run_node, node_at; rewrite ?En; cbn [nth length is_optical is_bridge]; [|lia|reflexivity|reflexivity].
    destruct (f _); reflexivity.
  - destruct (C30_default_collection (c_D c) (c_ncl c) (c_eps c) HL) as (H1 & _ & H2). split; [exact H1|]. intros vs Hv.
    destruct (H2 _ vs Hv eq_refl) as (id & st & Hn & K1 & K2 & K3 & _). exists id, st. split; [exact (nth_error_In _ _ Hn)|]. now repeat split.
Qed.
