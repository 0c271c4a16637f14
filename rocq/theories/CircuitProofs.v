From Coq Require Import Reals List Arith Lia Lra Bool Permutation Sorted.
From Coquelicot Require Import Complex.
From Verif Require Import Prelude NamesModel NamesSpec NamesProofs FockModel FockSpec FockProofs GateProofs
  OpticalModel OpticalProofs StateModel StateSpec StateProofs ApplyProofs CollectionModel EvalModel EvalSpec EvalProofs MeasureSpec MeasureProofs
  WfProofs PropMeasure PropCustom ColumnProofs InterferenceSpec ArrangementProofs CircuitSpec.
Import ListNotations.

(** ** The basis *)
Lemma basis_in D f : In f (basis D) <-> valid D f.
Proof. unfold basis. rewrite tuples_in. reflexivity. Qed.
Lemma basis_nodup D : NoDup (basis D).
Proof. apply tuples_nodup. Qed.
Lemma basis_perm D : 1 <= dL D -> Permutation (basis D) (map (values_from_index D) (seq 0 (size_of_basis D))).
Proof.
  intro HL. apply NoDup_Permutation; [apply basis_nodup|now apply all_values_NoDup|].
  intro f. rewrite basis_in. symmetry. now apply all_values_in.
Qed.
Lemma basis_Csum D F : 1 <= dL D -> Csum (basis D) F = Csum (seq 0 (size_of_basis D)) (fun i => F (values_from_index D i)).
Proof. intro HL. rewrite (Csum_perm _ _ _ (basis_perm D HL)). apply Csum_map. Qed.
Lemma basis_Rsum D F : 1 <= dL D -> Rsum (basis D) F = Rsum (seq 0 (size_of_basis D)) (fun i => F (values_from_index D i)).
Proof. intro HL. rewrite (Rsum_perm _ _ _ (basis_perm D HL)). apply Rsum_map. Qed.

(** A wave function as a vector. *)
Definition wvec (D : dims) (w : values -> C) : vec := fun i => w (values_from_index D i).

Lemma evolve_matrix D T M w g : 1 <= dL D -> (forall f, valid D f -> T f g = M (index_of_values D g) (index_of_values D f)) ->
  evolve D T w g = mat_vec (size_of_basis D) M (wvec D w) (index_of_values D g).
Proof.
  intros HL HT. unfold evolve, mat_vec, wvec. rewrite basis_Csum by exact HL. apply Csum_ext. intros i Hi. apply in_seq in Hi.
  rewrite HT by now apply values_from_index_valid. now rewrite index_values_roundtrip by (try exact HL; lia).
Qed.
Lemma pair_amp_matrix D A h v rest f g : 1 <= dL D -> 2 <= dN D -> Permutation (h :: v :: rest) (seq 0 (dN D)) -> valid D f -> valid D g ->
  pair_amp D (mat2_tr A) h v f g = full_matrix D A (h :: v :: rest) (index_of_values D g) (index_of_values D f).
Proof.
  intros HL HN HP Vf Vg. rewrite full_matrix_tuples by assumption. unfold pair_amp.
  pose proof (spectators D h v rest g f HP Vg Vf) as HS.
  assert (HE : forallb (fun c => (c =? h) || (c =? v) || (nth c f 0 =? nth c g 0)) (seq 0 (dN D)) = true <-> same_elsewhere h v g f).
  { rewrite forallb_forall. unfold same_elsewhere. split.
    - intros H c Hh Hv. destruct (Nat.lt_ge_cases c (dN D)) as [Hc|Hc].
      + specialize (H c). rewrite in_seq in H. specialize (H ltac:(lia)). apply orb_true_iff in H. destruct H as [H|H]; [apply orb_true_iff in H; destruct H as [H|H]; apply Nat.eqb_eq in H; congruence|]. apply Nat.eqb_eq in H. congruence.
      + rewrite !nth_overflow; [reflexivity| |]; [rewrite (proj1 Vf)|rewrite (proj1 Vg)]; exact Hc.
    - intros H c _. destruct (Nat.eqb_spec c h); [reflexivity|]. destruct (Nat.eqb_spec c v); [reflexivity|]. cbn. apply Nat.eqb_eq. symmetry. now apply H. }
  destruct (forallb _ _), (leqb _ _).
  - apply gate_amp_tr.
  - exfalso. destruct HS as [_ HS]. discriminate HS. now apply HE.
  - exfalso. destruct HE as [_ HE]. discriminate HE. now apply HS.
  - reflexivity.
Qed.

(** ** States and branches *)
Definition rep (D : dims) (ncl : nat) (st : state) (b : branch) : Prop :=
  proper_state D ncl st /\ s_init st = b_label b /\ s_classical st = b_reg b /\
  forall f, valid D f -> b_wave b f = (RtoC (sqrt (s_cum st)) * amp_of D st f)%C.

Lemma rep_branch_of D ncl st : proper_state D ncl st -> rep D ncl st (branch_of D st).
Proof. intro H. split; [exact H|]. split; [reflexivity|]. split; [reflexivity|]. intros f _. reflexivity. Qed.

Lemma Cnorm2_scale p a : (0 <= p)%R -> Cnorm2 (RtoC (sqrt p) * a)%C = (p * Cnorm2 a)%R.
Proof. intro H. rewrite Cnorm2_mult, Cnorm2_RtoC, sqrt_sqrt by exact H. reflexivity. Qed.

Lemma wvec_state D st i : 1 <= dL D -> wf_state D st -> i < size_of_basis D -> wvec D (amp_of D st) i = state_vector D st i.
Proof.
  intros HL Hwf Hi. unfold wvec. rewrite <- (state_vector_amp D st) by (try assumption; now apply values_from_index_valid).
  now rewrite index_values_roundtrip.
Qed.
Lemma norm_amp D st : 1 <= dL D -> wf_state D st -> Rsum (basis D) (fun f => Cnorm2 (amp_of D st f)) = state_norm2 st.
Proof.
  intros HL Hwf. rewrite basis_Rsum by exact HL. rewrite (state_norm2_vector D st HL Hwf). unfold norm2. apply Rsum_ext. intros i Hi. apply in_seq in Hi.
  rewrite <- wvec_state by (try assumption; lia). reflexivity.
Qed.
Lemma rep_weight D ncl st b : 1 <= dL D -> rep D ncl st b -> weight D b = s_cum st.
Proof.
  intros HL ((Hwf & _ & Hn & Hc & _) & _ & _ & Hw). unfold weight. rewrite (Rsum_ext _ _ (fun f => s_cum st * Cnorm2 (amp_of D st f))%R).
  - rewrite Rsum_scal_l, norm_amp, Hn by assumption. ring.
  - intros f Hf. apply basis_in in Hf. rewrite Hw by exact Hf. apply Cnorm2_scale. lra.
Qed.
Lemma rep_nonzero D ncl st b : 1 <= dL D -> rep D ncl st b -> nonzero D b = true.
Proof. intros HL H. unfold nonzero. rewrite (rep_weight D ncl st b HL H). destruct (Req_EM_T _ _); [|reflexivity]. destruct H as ((_ & _ & _ & Hc & _) & _). lra. Qed.

Lemma mat_vec_scale d M c v i : mat_vec d M (fun k => c * v k)%C i = (c * mat_vec d M v i)%C.
Proof. unfold mat_vec. rewrite <- Csum_scal_l. apply Csum_ext. intros k _. ring. Qed.

Lemma norm2_ext d v w : (forall i, i < d -> v i = w i) -> norm2 d v = norm2 d w.
Proof. intro H. apply Rsum_ext. intros i Hi. apply in_seq in Hi. rewrite H by lia. reflexivity. Qed.

(** A unitary operation on the whole state. *)
Lemma rep_matrix D ncl eps st b M w' : 1 <= dL D -> (0 < eps)%R -> rep D ncl st b -> unitary_mat (size_of_basis D) M ->
  (forall g, valid D g -> w' g = mat_vec (size_of_basis D) M (wvec D (b_wave b)) (index_of_values D g)) ->
  (forall g, valid D g -> w' g = RtoC 0 \/ (eps * weight D (Branch (b_label b) (b_reg b) w') <= Cnorm2 (w' g))%R) ->
  rep D ncl (with_comps st (components_from_vector D eps (mat_vec (size_of_basis D) M (state_vector D st)))) (Branch (b_label b) (b_reg b) w').
Proof.
  intros HL He Hrep HM Hw Hcl. destruct Hrep as ((Hwf & Hnz & Hn & Hc & Hlen & Haux) & Hl & Hr & Hb).
  set (v := mat_vec (size_of_basis D) M (state_vector D st)) in *.
  assert (Hw2 : forall g, valid D g -> w' g = (RtoC (sqrt (s_cum st)) * v (index_of_values D g))%C).
  { intros g Vg. rewrite Hw by exact Vg. unfold v. rewrite <- mat_vec_scale. apply mat_vec_ext. intros k Hk. unfold wvec. rewrite Hb by now apply values_from_index_valid.
    f_equal. apply (wvec_state D st k HL Hwf Hk). }
  assert (Hnv : norm2 (size_of_basis D) v = 1%R).
  { unfold v. rewrite unitary_norm2 by exact HM. rewrite <- state_norm2_vector by assumption. exact Hn. }
  assert (Hwt : weight D (Branch (b_label b) (b_reg b) w') = s_cum st).
  { unfold weight. rewrite basis_Rsum by exact HL. cbn [b_wave].
    rewrite (Rsum_ext _ _ (fun i => s_cum st * Cnorm2 (v i))%R).
    - rewrite Rsum_scal_l. change (Rsum _ _) with (norm2 (size_of_basis D) v). rewrite Hnv. ring.
    - intros i Hi. apply in_seq in Hi. rewrite Hw2 by now apply values_from_index_valid. rewrite index_values_roundtrip by (try exact HL; lia). apply Cnorm2_scale. lra. }
  assert (Hv0 : forall i, i < size_of_basis D -> v i = RtoC 0 \/ (eps <= Cnorm2 (v i))%R).
  { intros i Hi. pose proof (values_from_index_valid D i HL) as Vi. specialize (Hcl _ Vi). rewrite Hwt, Hw2, index_values_roundtrip in Hcl by assumption.
    destruct Hcl as [E|E].
    - left. apply Cnorm2_eq0. assert (Z : Cnorm2 (RtoC (sqrt (s_cum st)) * v i)%C = 0%R) by (rewrite E; apply Cnorm2_zero). rewrite Cnorm2_scale in Z by lra. apply Rmult_integral in Z. destruct Z; lra.
    - right. rewrite Cnorm2_scale in E by lra. apply (Rmult_le_reg_l (s_cum st)); lra. }
  assert (Hget : forall i, i < size_of_basis D -> amplitude (with_comps st (components_from_vector D eps v)) (at_index D i) = v i).
  { intros i Hi. rewrite components_amplitude by assumption. destruct (Rlt_dec _ _) as [Hlt|]; [|reflexivity]. destruct (Hv0 i Hi) as [E|E]; [now symmetry|lra]. }
  split; [|split; [|split]].
  - split; [now apply components_wf|]. split; [|split; [|split; [|split]]].
    + intros nm a p Hin. destruct (from_vec_in D eps v _ nm a p Hin) as (i & _ & _ & _ & Ep & Hle). split; [|exact Ep].
      intros ->. rewrite Cnorm2_zero in Hle. lra.
    + rewrite (state_norm2_vector D) by (try exact HL; now apply components_wf). rewrite <- Hnv. apply norm2_ext. intros i Hi.
      rewrite state_vector_spec by (try assumption; now apply components_wf). now apply Hget.
    + exact Hc.
    + exact Hlen.
    + exact Haux.
  - exact Hl.
  - exact Hr.
  - intros f Vf. cbn [b_wave s_cum with_comps]. rewrite Hw2 by exact Vf. f_equal. unfold amp_of.
    rewrite <- (Hget (index_of_values D f)) by now apply index_of_values_bound. now rewrite at_index_of, values_index_roundtrip.
Qed.

(** ** The specification's own algebra *)
Lemma perform_zero D op b : weight D b = 0%R -> forall b', In b' (perform D op b) -> weight D b' = 0%R.
Proof.
  intros H0. assert (Hz : forall f, valid D f -> b_wave b f = RtoC 0).
  { intros f Vf. apply Cnorm2_eq0. apply Rle_antisym; [|apply Cnorm2_nonneg]. rewrite <- H0. unfold weight.
    apply (Rsum_le_term _ (fun f => Cnorm2 (b_wave b f)) f); [intros; apply Cnorm2_nonneg|now apply basis_in]. }
  assert (Hw : forall l r w, (forall f, valid D f -> w f = RtoC 0) -> weight D (Branch l r w) = 0%R).
  { intros l r w Hw. unfold weight. apply Rsum_zero. intros f Hf. cbn [b_wave]. rewrite Hw by now apply basis_in. apply Cnorm2_zero. }
  assert (Hev : forall T f, evolve D T (b_wave b) f = RtoC 0).
  { intros T f. unfold evolve. apply Csum_zero. intros g Hg. rewrite Hz by now apply basis_in. ring. }
  destruct op as [A h v|T|F|opt cl]; cbn [perform]; intros b' Hb'.
  - destruct Hb' as [<-|[]]. apply Hw. intros f _. apply Hev.
  - destruct Hb' as [<-|[]]. apply Hw. intros f _. apply Hev.
  - destruct Hb' as [<-|[]]. apply Hw. exact Hz.
  - apply in_map_iff in Hb'. destruct Hb' as (o & <- & _). apply Hw. intros f Vf. rewrite Hz by exact Vf. now destruct (leqb _ _).
Qed.
Lemma run_app D ops1 ops2 E : run D (ops1 ++ ops2) E = run D ops2 (run D ops1 E).
Proof. unfold run. apply fold_left_app. Qed.
Lemma run_cons D op ops E : run D (op :: ops) E = run D ops (flat_map (perform D op) E).
Proof. reflexivity. Qed.
Lemma run_app_list D ops : forall E1 E2, run D ops (E1 ++ E2) = run D ops E1 ++ run D ops E2.
Proof. induction ops as [|op ops IH]; intros; [reflexivity|]. rewrite !run_cons, flat_map_app. apply IH. Qed.
Lemma run_flat D ops : forall E, run D ops E = flat_map (fun b => run D ops [b]) E.
Proof.
  induction E as [|b E IH]; [induction ops; [reflexivity|assumption]|]. change (b :: E) with ([b] ++ E) at 1. rewrite run_app_list, IH. reflexivity.
Qed.
Lemma Permutation_flat_map {A B} (f : A -> list B) l l' : Permutation l l' -> Permutation (flat_map f l) (flat_map f l').
Proof.
  induction 1 as [|x l l' H IH|x y l|l l' l'' H1 IH1 H2 IH2]; cbn.
  - constructor.
  - now apply Permutation_app_head.
  - rewrite !app_assoc. apply Permutation_app_tail, Permutation_app_comm.
  - now transitivity (flat_map f l').
Qed.
Lemma run_perm D ops E E' : Permutation E E' -> Permutation (run D ops E) (run D ops E').
Proof. intro H. rewrite (run_flat D ops E), (run_flat D ops E'). now apply Permutation_flat_map. Qed.
Lemma run_zero D ops : forall E, (forall b, In b E -> weight D b = 0%R) -> forall b, In b (run D ops E) -> weight D b = 0%R.
Proof.
  induction ops as [|op ops IH]; intros E H b; [apply H|]. rewrite run_cons. apply IH. intros b' Hb'. apply in_flat_map in Hb'. destruct Hb' as (b0 & H0 & H1).
  now apply (perform_zero D op b0 (H b0 H0)).
Qed.
Lemma nonzero_false D b : weight D b = 0%R -> nonzero D b = false.
Proof. intro H. unfold nonzero. destruct (Req_EM_T _ _); congruence. Qed.
Lemma filter_none {A} (p : A -> bool) l : (forall x, In x l -> p x = false) -> filter p l = [].
Proof. induction l as [|x l IH]; intro H; [reflexivity|]. cbn. rewrite (H x (or_introl eq_refl)). apply IH. intros; apply H; now right. Qed.
Lemma run_filter D ops : forall E, filter (nonzero D) (run D ops (filter (nonzero D) E)) = filter (nonzero D) (run D ops E).
Proof.
  intro E. induction E as [|b E IH]; [reflexivity|]. change (b :: E) with ([b] ++ E). rewrite filter_app, !run_app_list, !filter_app, IH. f_equal.
  cbn [filter]. destruct (nonzero D b) eqn:E0; [reflexivity|]. unfold nonzero in E0. destruct (Req_EM_T (weight D b) 0) as [Hb|]; [|discriminate].
  rewrite (filter_none _ (run D ops [b])).
  - now rewrite (run_flat D ops []).
  - intros x Hx. apply nonzero_false. apply (run_zero D ops [b]); [|exact Hx]. intros y [<-|[]]. exact Hb.
Qed.
Lemma filter_perm {A} (p : A -> bool) l l' : Permutation l l' -> Permutation (filter p l) (filter p l').
Proof.
  induction 1 as [|x l l' H IH|x y l|l l' l'' H1 IH1 H2 IH2]; cbn.
  - constructor.
  - destruct (p x); [now constructor|exact IH].
  - destruct (p x), (p y); try reflexivity. constructor.
  - now transitivity (filter p l').
Qed.
Lemma run_incl D ops E E' : incl E E' -> incl (run D ops E) (run D ops E').
Proof.
  intros H b. rewrite (run_flat D ops E), (run_flat D ops E'), !in_flat_map. intros (x & Hx & Hb). exists x. split; [now apply H|exact Hb].
Qed.

(** ** Measuring a branch *)
Lemma noted_at_none cl : forall o c, ~ In c cl -> noted_at cl o c = None.
Proof.
  induction cl as [|x cl IH]; intros o c H; [reflexivity|]. destruct o as [|y o]; [reflexivity|]. cbn. destruct (Nat.eqb_spec x c); [exfalso; apply H; now left|].
  apply IH. intro Hin. apply H. now right.
Qed.
Lemma noted_at_nth cl : forall o i, NoDup cl -> i < length cl -> i < length o -> noted_at cl o (nth i cl 0) = Some (nth i o 0).
Proof.
  induction cl as [|x cl IH]; intros o i ND Hi Ho; [cbn in Hi; lia|]. destruct o as [|y o]; [cbn in Ho; lia|]. inversion ND; subst.
  destruct i as [|i]; cbn [noted_at nth]; [now rewrite Nat.eqb_refl|]. cbn in Hi, Ho. destruct (Nat.eqb_spec x (nth i cl 0)) as [E|_].
  - exfalso. apply H1. rewrite E. apply nth_In. lia.
  - apply IH; [assumption|lia|lia].
Qed.
Lemma noted_length cl o reg : length (noted cl o reg) = length reg.
Proof. unfold noted. now rewrite map_length, seq_length. Qed.
Lemma noted_nth cl o reg c : c < length reg ->
  nth c (noted cl o reg) 0%R = match noted_at cl o c with Some x => INR x | None => nth c reg 0%R end.
Proof.
  intro H. unfold noted. rewrite (nth_indep _ 0%R (match noted_at cl o 0 with Some x => INR x | None => nth 0 reg 0%R end)) by now rewrite map_length, seq_length.
  rewrite (map_nth (fun c => match noted_at cl o c with Some x => INR x | None => nth c reg 0%R end)). now rewrite seq_nth.
Qed.
Lemma write_noted cl o reg : NoDup cl -> (forall c, In c cl -> c < length reg) -> length o = length cl -> write_classical cl o reg = noted cl o reg.
Proof.
  intros ND Hb Hl. pose proof (write_classical_written cl o reg ND Hb) as (W1 & W2 & W3). apply (nth_ext _ _ 0%R 0%R); [now rewrite W1, noted_length|].
  intros c Hc. rewrite W1 in Hc. rewrite noted_nth by exact Hc. destruct (in_dec Nat.eq_dec c cl) as [Hin|Hin].
  - destruct (In_nth _ _ 0 Hin) as (i & Hi & <-). rewrite W2, noted_at_nth by (try assumption; lia). reflexivity.
  - rewrite W3, noted_at_none by exact Hin. reflexivity.
Qed.
Lemma readout_length opt f : length (readout opt f) = length opt.
Proof. apply map_length. Qed.

Lemma proper_comp D ncl st nm : proper_state D ncl st -> In nm (map fst (s_comps st)) -> amplitude st nm <> RtoC 0.
Proof.
  intros ((ND & _) & Hnz & _) Hin. apply in_map_iff in Hin. destruct Hin as ([n [a p]] & E & Hin). cbn in E. subst n. unfold amplitude.
  rewrite (dget_in leqb leqb_spec nm (a, p)) by assumption. exact (proj1 (Hnz _ _ _ Hin)).
Qed.
Lemma comp_prob_le D st opt o vs a p : In (name_string D vs, (a, p)) (s_comps st) -> valid D vs -> readout opt vs = o -> (Cnorm2 a <= outcome_prob D st opt o)%R.
Proof.
  intros Hin Vv Ho. unfold outcome_prob.
  assert (H : (Cnorm2 a <= Rsum (s_comps st) (fun c => if leqb (readout opt (values_of_name D (fst c))) o then Cnorm2 (fst (snd c)) else 0%R))%R); [|exact H].
  assert (Hnn : forall y : name * (C * R), In y (s_comps st) -> (0 <= (fun c => if leqb (readout opt (values_of_name D (fst c))) o then Cnorm2 (fst (snd c)) else 0) y)%R).
  { intros y _. cbv beta. destruct (leqb _ _); [apply Cnorm2_nonneg|lra]. }
  pose proof (Rsum_le_term _ _ _ Hnn Hin) as H. cbv beta in H. cbn [fst snd] in H. rewrite values_of_name_string in H by apply Vv. rewrite (proj2 (leqb_spec _ _) Ho) in H. exact H.
Qed.
Lemma possible_prob D ncl st opt o : 1 <= dL D -> proper_state D ncl st -> (possible D st opt o <-> outcome_prob D st opt o <> 0%R).
Proof.
  intros HL Hp. pose proof Hp as (Hwf & Hnz & _). split.
  - intros (vs & Vv & Hin & Ho) H0. apply in_map_iff in Hin. destruct Hin as ([n [a p]] & E & Hin). cbn in E. subst n.
    destruct (Hnz _ _ _ Hin) as [Ha _]. apply Ha. apply Cnorm2_eq0. apply Rle_antisym; [|apply Cnorm2_nonneg]. rewrite <- H0. exact (comp_prob_le D st opt o vs a p Hin Vv Ho).
  - intro H0. destruct (in_dec (list_eq_dec Nat.eq_dec) o (outcomes D opt st)) as [H|H]; [now apply (outcomes_possible D opt st o HL Hwf)|].
    exfalso. apply H0. unfold outcome_prob. apply Rsum_zero. intros c Hc. destruct (leqb _ o) eqn:E; [|reflexivity]. exfalso. apply H. apply (outcomes_possible D opt st o HL Hwf).
    apply leqb_spec in E. destruct (wf_comp_values D st c HL Hwf Hc) as [Vc Nc]. exists (values_of_name D (fst c)). split; [exact Vc|]. split; [|exact E]. rewrite Nc. now apply in_map.
Qed.
Lemma outcome_prob_basis D st opt o : 1 <= dL D -> wf_state D st ->
  outcome_prob D st opt o = Rsum (basis D) (fun f => if leqb (readout opt f) o then Cnorm2 (amp_of D st f) else 0%R).
Proof.
  intros HL Hwf. pose proof (fun p => norm_amp D (collapse D opt [] o st p) HL (collapse_wf D opt [] o st p Hwf)) as H.
  destruct (Req_EM_T (outcome_prob D st opt o) 0) as [H0|H0].
  - rewrite H0. symmetry. apply Rsum_zero. intros f Hf. apply basis_in in Hf. destruct (leqb (readout opt f) o) eqn:E; [|reflexivity]. apply leqb_spec in E.
    unfold amp_of, amplitude. destruct (dget leqb (name_string D f) (s_comps st)) as [[a p]|] eqn:Eg; [|apply Cnorm2_zero]. cbn [fst].
    apply (dget_some_in leqb leqb_spec) in Eg. apply Rle_antisym; [|apply Cnorm2_nonneg]. rewrite <- H0. exact (comp_prob_le D st opt o f a p Eg Hf E).
  - specialize (H 0%R). rewrite collapse_norm in H by exact H0. pose proof (outcome_prob_nonneg D st opt o) as Hp.
    rewrite <- (Rmult_1_r (outcome_prob D st opt o)). rewrite <- H, <- Rsum_scal_l. apply Rsum_ext. intros f Hf. apply basis_in in Hf. rewrite collapse_amp by assumption.
    destruct (leqb _ _); [|rewrite Cnorm2_zero; ring]. unfold Cdiv. rewrite Cnorm2_mult.
    assert (Hs : (0 < sqrt (outcome_prob D st opt o))%R) by (apply sqrt_lt_R0; lra).
    rewrite <- RtoC_inv by lra. rewrite Cnorm2_RtoC, <- Rinv_mult, sqrt_sqrt by lra. field. exact H0.
Qed.
Lemma rep_reading_weight D ncl st b opt cl o : 1 <= dL D -> rep D ncl st b -> weight D (reading opt cl o b) = (s_cum st * outcome_prob D st opt o)%R.
Proof.
  intros HL ((Hwf & _ & _ & Hc & _) & _ & _ & Hw). rewrite outcome_prob_basis by assumption. unfold weight. rewrite <- Rsum_scal_l. apply Rsum_ext. intros f Hf. apply basis_in in Hf.
  cbn [reading b_wave]. destruct (leqb _ _); [|rewrite Cnorm2_zero; ring]. rewrite Hw by exact Hf. apply Cnorm2_scale. lra.
Qed.
Lemma rep_collapse D ncl st b opt cl o : 1 <= dL D -> rep D ncl st b -> NoDup cl -> (forall c, In c cl -> c < ncl) -> length o = length cl ->
  outcome_prob D st opt o <> 0%R -> rep D ncl (collapse D opt cl o st (s_cum st * outcome_prob D st opt o)) (reading opt cl o b).
Proof.
  intros HL Hrep ND Hcl Hlo H0. pose proof Hrep as (Hp & Hl & Hr & Hb). pose proof Hp as (Hwf & Hnz & Hn & Hc & Hlen & Haux).
  pose proof (outcome_prob_nonneg D st opt o) as Hge. pose proof (outcome_prob_le D st opt o) as Hle. rewrite Hn in Hle.
  assert (Hs : (0 < sqrt (outcome_prob D st opt o))%R) by (apply sqrt_lt_R0; lra).
  split; [|split; [|split]].
  - split; [now apply collapse_wf|]. split; [|split; [now apply collapse_norm|split; [|split; [|exact Haux]]]].
    + intros nm a p Hin. cbn [collapse s_comps] in Hin. unfold collapsed_comps in Hin. apply in_map_iff in Hin. destruct Hin as ([n [a0 p0]] & E & Hin). cbn [fst snd] in E. injection E as <- <- <-.
      split; [|reflexivity]. apply members_in in Hin. destruct Hin as [Hin _]. destruct (Hnz _ _ _ Hin) as [Ha _]. intro E. apply Ha. unfold Cdiv in E.
      replace a0 with (a0 * / RtoC (sqrt (outcome_prob D st opt o)) * RtoC (sqrt (outcome_prob D st opt o)))%C by (field; intro X; apply RtoC_inj in X; lra). rewrite E. ring.
    + cbn [collapse s_cum]. split; [apply Rmult_lt_0_compat; lra|]. rewrite <- (Rmult_1_r 1). apply Rmult_le_compat; lra.
    + cbn [collapse s_classical]. now rewrite write_classical_length.
  - exact Hl.
  - cbn [collapse s_classical reading b_reg]. rewrite <- Hr. apply write_noted; [exact ND| |exact Hlo]. rewrite Hlen. exact Hcl.
  - intros f Vf. cbn [reading b_wave]. rewrite collapse_amp by assumption. cbn [collapse s_cum]. destruct (leqb _ _); [|ring]. rewrite Hb by exact Vf.
    rewrite sqrt_mult by lra. rewrite RtoC_mult. field. intro X. apply RtoC_inj in X. lra.
Qed.
Lemma outcome_reading D opt st o : 1 <= dL D -> wf_state D st -> possible D st opt o -> In o (all_readings D opt).
Proof.
  intros HL Hwf (vs & Vv & _ & <-). unfold all_readings. apply nodup_In. apply in_map. now apply basis_in.
Qed.
Lemma filter_map_comm {A B} (p : B -> bool) (f : A -> B) l : filter p (map f l) = map f (filter (fun x => p (f x)) l).
Proof. induction l as [|x l IH]; [reflexivity|]. cbn. destruct (p (f x)); cbn; now rewrite IH. Qed.
Lemma readings_perm D ncl st b opt cl : 1 <= dL D -> rep D ncl st b ->
  Permutation (map (fun o => reading opt cl o b) (outcomes D opt st)) (filter (nonzero D) (perform D (Detect opt cl) b)).
Proof.
  intros HL Hrep. cbn [perform]. rewrite filter_map_comm. apply Permutation_map. pose proof Hrep as (Hp & _). pose proof Hp as (Hwf & _ & _ & Hc & _).
  apply NoDup_Permutation; [apply outcomes_nodup|apply NoDup_filter, NoDup_nodup|]. intro o. rewrite filter_In, (outcomes_possible D opt st o HL Hwf).
  unfold nonzero. rewrite (rep_reading_weight D ncl st b opt cl o HL Hrep), (possible_prob D ncl st opt o HL Hp). split.
  - intro H. split; [apply (outcome_reading D opt st o HL Hwf); now apply (possible_prob D ncl st opt o HL Hp)|]. destruct (Req_EM_T _ _) as [E|]; [|reflexivity].
    apply Rmult_integral in E. destruct E; [lra|congruence].
  - intros [_ H] H0. rewrite H0, Rmult_0_r in H. destruct (Req_EM_T 0 0); [discriminate|congruence].
Qed.

(** ** Nodes *)
Lemma proper_check D ncl eps st : (0 <= eps)%R -> proper_state D ncl st -> check_state eps ncl st = true.
Proof.
  intros He (_ & Hnz & Hn & Hc & Hlen & _). apply check_state_iff. split; [lra|]. split; [|exact Hlen]. apply Forall_forall. intros [nm [a p]] Hin. cbn [fst snd].
  destruct (Hnz _ _ _ Hin) as [_ ->]. pose proof (Cnorm2_nonneg a). assert (Cnorm2 a <= 1)%R; [|lra]. rewrite <- Hn. unfold state_norm2.
  assert (Hnn : forall y : name * (C * R), In y (s_comps st) -> (0 <= (fun c => Cnorm2 (fst (snd c))) y)%R) by (intros y _; apply Cnorm2_nonneg).
  exact (Rsum_le_term _ _ _ Hnn Hin).
Qed.
Lemma proper_nonempty D ncl st : proper_state D ncl st -> s_comps st <> [].
Proof. intros (_ & _ & Hn & _) E. unfold state_norm2 in Hn. rewrite E in Hn. cbn in Hn. lra. Qed.

Definition tracks (D : dims) (ncl : nat) (its : items) (bs : list branch) : Prop :=
  its <> [] /\ NoDup (dkeys its) /\ Forall2 (rep D ncl) (map snd its) bs.

Lemma Forall2_map_l {A B C} (P : B -> C -> Prop) (f : A -> B) l : forall m, Forall2 P (map f l) m <-> Forall2 (fun a c => P (f a) c) l m.
Proof.
  induction l as [|x l IH]; intro m; cbn; split; intro H; inversion H; subst; constructor; auto; now apply IH.
Qed.
Lemma Forall2_map_both {A B C D'} (P : B -> D' -> Prop) (f : A -> B) (g : C -> D') l m : Forall2 (fun a c => P (f a) (g c)) l m -> Forall2 P (map f l) (map g m).
Proof. induction 1; constructor; auto. Qed.
Lemma tracks_proper D ncl its bs : tracks D ncl its bs -> forall it, In it its -> proper_state D ncl (snd it).
Proof.
  intros (_ & _ & HF) it Hin. apply (proj1 (Forall2_map_l _ _ _ _)) in HF. induction HF as [|x b l m H HF IH]; [destruct Hin|]. destruct Hin as [<-|Hin]; [exact (proj1 H)|auto].
Qed.
Lemma tracks_check D ncl eps its bs : (0 <= eps)%R -> tracks D ncl its bs -> Forall (fun it => check_state eps ncl (snd it) = true) its.
Proof. intros He H. apply Forall_forall. intros it Hin. apply (proper_check D); [exact He|]. now apply (tracks_proper D ncl its bs H). Qed.
Lemma tracks_wf D ncl its bs : tracks D ncl its bs -> wf_items D its.
Proof.
  intro H. split; [apply H|]. apply Forall_forall. intros it Hin. pose proof (tracks_proper D ncl its bs H it Hin) as Hp. split; [apply Hp|exact (proper_nonempty D ncl _ Hp)].
Qed.
Lemma tracks_all_have D ncl its bs k : tracks D ncl its bs -> all_have k its = false.
Proof.
  intro H. apply all_have_false. destruct its as [|it its]; [destruct H as [H _]; congruence|]. exists it. split; [now left|]. intros x.
  destruct (tracks_proper D ncl _ _ H it (or_introl eq_refl)) as (_ & _ & _ & _ & _ & ->). intros [].
Qed.
Lemma tracks_nonzero D ncl its bs : 1 <= dL D -> tracks D ncl its bs -> filter (nonzero D) bs = bs.
Proof.
  intros HL (_ & _ & HF). apply filter_all. intros b Hb. induction HF as [|st b0 l m H HF IH]; [destruct Hb|]. destruct Hb as [<-|Hb]; [exact (rep_nonzero D ncl _ _ HL H)|auto].
Qed.

(** A matrix on every state: one branch each. *)
Lemma rep_step D ncl eps st b op M b' : 1 <= dL D -> (0 < eps)%R -> rep D ncl st b -> unitary_mat (size_of_basis D) M ->
  perform D op b = [b'] -> b_label b' = b_label b -> b_reg b' = b_reg b ->
  (forall g, valid D g -> b_wave b' g = mat_vec (size_of_basis D) M (wvec D (b_wave b)) (index_of_values D g)) ->
  clear D eps (perform D op b) ->
  rep D ncl (with_comps st (components_from_vector D eps (mat_vec (size_of_basis D) M (state_vector D st)))) b'.
Proof.
  intros HL He Hrep HM Ep El Er Hw Hcl. destruct b' as [l r w']. cbn in El, Er. subst l r. apply rep_matrix; try assumption.
  intros g Vg. rewrite Ep in Hcl. exact (Hcl _ g (or_introl eq_refl) Vg).
Qed.
Lemma clear_incl D eps E E' : incl E E' -> clear D eps E' -> clear D eps E.
Proof. intros H HC b f Hb. apply HC. now apply H. Qed.

Lemma Element_wave D A h v rest b g : 1 <= dL D -> 2 <= dN D -> Permutation (h :: v :: rest) (seq 0 (dN D)) -> valid D g ->
  evolve D (pair_amp D (mat2_tr A) h v) (b_wave b) g = mat_vec (size_of_basis D) (full_matrix D A (h :: v :: rest)) (wvec D (b_wave b)) (index_of_values D g).
Proof. intros HL HN HP Vg. apply evolve_matrix; [exact HL|]. intros f Vf. now apply pair_amp_matrix. Qed.

Section Circuit.
Variables (D : dims) (ncl : nat) (eps : R) (full : bool) (nodes : list node) (X : externals) (rnd : nat -> nat).
Hypothesis HL : 1 <= dL D.
Hypothesis HN : 2 <= dN D.
Hypothesis He : (0 < eps)%R.
Let c := Circuit D ncl eps full (fresh_keys D) nodes.

Lemma single_branches (op : operation) (its : items) bs (f : ident * state -> state) :
  Forall2 (rep D ncl) (map snd its) bs ->
  (forall it b, In it its -> In b bs -> rep D ncl (snd it) b -> exists b', perform D op b = [b'] /\ rep D ncl (f it) b') ->
  Forall2 (rep D ncl) (map f its) (flat_map (perform D op) bs).
Proof.
  intros HF Hs. apply (proj1 (Forall2_map_l _ _ _ _)) in HF. induction HF as [|it b l m H HF IH]; [constructor|]. cbn [map flat_map].
  destruct (Hs it b (or_introl eq_refl) (or_introl eq_refl) H) as (b' & E & Hr). rewrite E. constructor; [exact Hr|]. apply IH. intros; apply Hs; auto; now right.
Qed.
Lemma single_result op its bs : tracks D ncl its (flat_map (perform D op) bs) ->
  Permutation (flat_map (perform D op) bs) (filter (nonzero D) (flat_map (perform D op) bs)).
Proof. intro H. rewrite (tracks_nonzero D ncl its _ HL H). apply Permutation_refl. Qed.

Lemma classical_step f nv chs F its bs : tracks D ncl its bs -> (forall reg, length reg = ncl -> f reg nv chs = F reg /\ length (F reg) = ncl) ->
  exists its', classical_items c f nv chs its = Some its' /\ tracks D ncl its' (flat_map (perform D (Compute F)) bs).
Proof.
  intros Ht Hf. pose proof (tracks_proper D ncl its bs Ht) as Hp. destruct Ht as (Hne & ND & HF).
  exists (map (fun it => (fst it, with_classical (snd it) (F (s_classical (snd it))))) its). split.
  - unfold classical_items. apply option_list_some. rewrite map_map. apply map_ext_in. intros it Hin. cbv zeta. destruct (Hp it Hin) as (_ & _ & _ & _ & Hl & _).
    cbn [c c_ncl]. destruct (Hf _ Hl) as [-> ->]. now rewrite Nat.eqb_refl.
  - split; [destruct its; [congruence|discriminate]|]. split.
    + unfold dkeys. rewrite map_map. cbn [fst]. exact ND.
    + rewrite map_map. cbn [snd]. apply single_branches; [exact HF|]. intros it b _ _ (Hps & Hl & Hr & Hb). eexists. split; [reflexivity|].
      destruct Hps as (H1 & H2 & H3 & H4 & H5 & H6). split; [|split; [|split]].
      * split; [exact H1|]. split; [exact H2|]. split; [exact H3|]. split; [exact H4|]. split; [|exact H6]. cbn. now apply (proj2 (Hf _ H5)).
      * exact Hl.
      * cbn. now rewrite Hr.
      * exact Hb.
Qed.
Lemma custom_step M T its bs seed : tracks D ncl its bs -> unitary_mat (size_of_basis D) M ->
  (forall f g, valid D f -> valid D g -> T f g = M (index_of_values D g) (index_of_values D f)) ->
  clear D eps (flat_map (perform D (Transform T)) bs) ->
  exists its' seed', custom_items c rnd M its seed = Some (its', seed') /\ tracks D ncl its' (flat_map (perform D (Transform T)) bs).
Proof.
  intros Ht HM HT Hcl. pose proof (tracks_check D ncl eps its bs (Rlt_le _ _ He) Ht) as Hck. destruct (custom_items_some c rnd M its Hck ([], seed)) as ([its' seed'] & E).
  exists its', seed'. split; [exact E|]. apply custom_items_inv in E. cbn [map app] in E. destruct E as [E1 E2]. destruct Ht as (Hne & ND & HF). split; [|split].
  - intros ->. destruct its; [congruence|discriminate].
  - apply E2. constructor.
  - rewrite E1. apply single_branches; [exact HF|]. intros it b _ Hb Hrep. eexists. split; [reflexivity|]. cbn [c c_D c_eps].
    refine (rep_step D ncl eps (snd it) b (Transform _) M _ HL He Hrep HM eq_refl eq_refl eq_refl _ _).
    + intros g Vg. cbn [b_wave]. apply evolve_matrix; [exact HL|]. intros f Vf. now apply HT.
    + apply (clear_incl _ _ _ _) with (2 := Hcl). intros x Hx. apply in_flat_map. now exists b.
Qed.
Lemma controlled_some t p vars h v rest (angles : list R -> R * R) its bs : tracks D ncl its bs -> Permutation (h :: v :: rest) (seq 0 (dN D)) ->
  (forall reg, length reg = ncl -> controlled_angles t p vars reg = Some (angles reg)) -> wf_circuit c ->
  exists its', controlled_items c t p vars (h :: v :: rest) its = Some its'.
Proof.
  intros Ht HP Ha (_ & _ & HK & _). pose proof (tracks_check D ncl eps its bs (Rlt_le _ _ He) Ht) as Hck. pose proof (tracks_wf D ncl its bs Ht) as [_ HF].
  pose proof (tracks_proper D ncl its bs Ht) as Hp.
  unfold controlled_items. set (stepf := fun _ _ => _). assert (G : forall acc, exists out, fold_left stepf its (Some acc) = Some out); [|apply G]. clear Ht bs.
  induction its as [|[i st] its IH]; intros acc; [eexists; reflexivity|].
  inversion HF as [|? ? [Hw Hne] HF']; subst. inversion Hck as [|? ? H1 H2]; subst. cbn [snd] in *.
  cbn [fold_left]. unfold stepf at 2. cbn [snd]. rewrite Ha by (destruct (Hp (i, st) (or_introl eq_refl)) as (_ & _ & _ & _ & Hl & _); exact Hl).
  destruct (angles (s_classical st)) as [t' p']. rewrite HK, fresh_keys_all, apply_optical_spec; auto; try exact HL.
  - apply IH; auto. intros it Hit. apply Hp. now right.
  - constructor; [exact HP|constructor].
  - discriminate.
  - repeat constructor. intros [].
Qed.
Lemma controlled_step t p vars h v rest (angles : list R -> R * R) A its bs : tracks D ncl its bs -> Permutation (h :: v :: rest) (seq 0 (dN D)) ->
  (forall reg, length reg = ncl -> controlled_angles t p vars reg = Some (angles reg)) -> wf_circuit c ->
  (forall reg, length reg = ncl -> A reg = mat2_tr (generic_matrix (fst (angles reg)) (snd (angles reg)))) ->
  let op := Element A h v in
  clear D eps (flat_map (perform D op) bs) ->
  exists its', controlled_items c t p vars (h :: v :: rest) its = Some its' /\ tracks D ncl its' (flat_map (perform D op) bs).
Proof.
  intros Ht HP Ha Hc HAA op Hcl. destruct (controlled_some t p vars h v rest angles its bs Ht HP Ha Hc) as (its' & E). exists its'. split; [exact E|].
  pose proof (tracks_wf D ncl its bs Ht) as Hwf. pose proof (tracks_proper D ncl its bs Ht) as Hp.
  destruct (controlled_items_inv c t p vars _ Hc HP its Hwf its' E) as (ang & HA & ->). clear E.
  assert (Eang : ang = map (fun it => angles (s_classical (snd it))) its).
  { clear - HA Ha Hp. induction HA as [|it a l m [H _] HA IH]; [reflexivity|]. cbn [map]. f_equal; [|apply IH; intros; apply Hp; now right].
    rewrite Ha in H; [congruence|]. destruct (Hp it (or_introl eq_refl)) as (_ & _ & _ & _ & Hl & _). exact Hl. }
  assert (Eits : map (fun x : (ident * state) * (R * R) => (fst (fst x), optical_step (c_D c) (c_eps c) [ONode (generic_matrix (fst (snd x)) (snd (snd x))) (h :: v :: rest)] (snd (fst x)))) (combine its ang)
    = map (fun it => (fst it, optical_step D eps [ONode (generic_matrix (fst (angles (s_classical (snd it)))) (snd (angles (s_classical (snd it))))) (h :: v :: rest)] (snd it))) its).
  { rewrite Eang. clear. induction its as [|it its IH]; [reflexivity|]. cbn [map combine fst snd]. now rewrite IH. }
  rewrite Eits. destruct Ht as (Hne & ND & HF). split; [destruct its; [congruence|discriminate]|]. split.
  - unfold dkeys. rewrite map_map. exact ND.
  - rewrite map_map. cbn [snd]. apply single_branches; [exact HF|]. intros it b _ Hb Hrep. eexists. split; [reflexivity|]. unfold optical_step.
    refine (rep_step D ncl eps (snd it) b op _ _ HL He Hrep _ eq_refl eq_refl eq_refl _ _).
    + cbn [nodes_matrix product on_matrix on_tl]. apply full_matrix_unitary; try assumption. apply generic_unitary.
    + intros g Vg. cbn [b_wave nodes_matrix product on_matrix on_tl]. destruct Hrep as ((_ & _ & _ & _ & Hl & _) & _ & Er & _). rewrite HAA, Er by (rewrite <- Er; exact Hl). now apply Element_wave.
    + apply (clear_incl _ _ _ _) with (2 := Hcl). intros x Hx. apply in_flat_map. now exists b.
Qed.
Lemma Forall2_concat {A B} (P : A -> B -> Prop) l m : Forall2 (Forall2 P) l m -> Forall2 P (concat l) (concat m).
Proof. induction 1; [constructor|]. cbn. now apply Forall2_app. Qed.
Lemma measure_step k opt cl its bs : tracks D ncl its bs -> length cl = length opt -> (forall ch, In ch cl -> ch < ncl) -> NoDup cl ->
  exists its' bs', measure_items c k opt cl its = Some its' /\ tracks D ncl its' bs' /\ Permutation bs' (filter (nonzero D) (flat_map (perform D (Detect opt cl)) bs)).
Proof.
  intros Ht Hlen Hcl NDc. pose proof (tracks_proper D ncl its bs Ht) as Hp. pose proof (tracks_check D ncl eps its bs (Rlt_le _ _ He) Ht) as Hck. rewrite Forall_forall in Hck.
  set (sts := fun st => map (fun o => collapse D opt cl o st (s_cum st * outcome_prob D st opt o)) (outcomes D opt st)).
  assert (Hpf : forall it, In it its -> perform_measurement D ncl eps opt cl (snd it) = Some (sts (snd it))).
  { intros it Hin. pose proof (Hp it Hin) as Hpi. pose proof Hpi as (Hwf & _ & Hn & Hc & _). apply perform_ok; try assumption; [now apply Hck|lra|lra|].
    intros o Ho. now apply (possible_prob D ncl). }
  destruct (measure_items_ok c k opt cl its) as (out & E); [intros it Hin; eexists; exact (Hpf it Hin)|]. destruct Ht as (Hne & ND & HF).
  destruct (measure_items_inv c k opt cl its out ND E) as (results & HR & Eout). cbn [c c_D c_ncl c_eps c_nodes] in HR, Eout.
  assert (Er : results = map (fun it => sts (snd it)) its).
  { clear - HR Hpf. induction HR as [|it r l m H HR IH]; [reflexivity|]. cbn [map]. rewrite Hpf in H by now left. f_equal; [congruence|]. apply IH. intros; apply Hpf; now right. }
  exists out, (flat_map (fun x => map (fun o => reading opt cl o (snd x)) (outcomes D opt (snd (fst x)))) (combine its bs)).
  assert (Hvals : map snd out = flat_map (fun it => sts (snd it)) its).
  { rewrite Eout, Er. clear. induction its as [|it its IH]; [reflexivity|]. cbn [map combine concat flat_map fst snd]. rewrite map_app, relabel_vals, IH. reflexivity. }
  apply (proj1 (Forall2_map_l _ _ _ _)) in HF.
  split; [exact E|]. split; [split; [|split]|].
  - intros ->. destruct its as [|it its]; [congruence|]. cbn [map flat_map] in Hvals. symmetry in Hvals. apply app_eq_nil in Hvals. destruct Hvals as [Hv _]. unfold sts in Hv. apply map_eq_nil in Hv.
    pose proof (Hp it (or_introl eq_refl)) as (Hwf & _ & Hn & _). pose proof (outcomes_total D opt (snd it)) as Htot. rewrite Hv, Hn in Htot. cbn in Htot. lra.
  - rewrite Eout. destruct (measurement_number_ok nodes k) as [H1 H2]. now apply measured_nodup.
  - rewrite Hvals. clear - HF NDc Hcl Hlen HL Hp. induction HF as [|it b l m H HF IH]; [constructor|]. cbn [flat_map combine fst snd]. apply Forall2_app; [|apply IH; intros; apply Hp; now right].
    unfold sts. pose proof (Hp it (or_introl eq_refl)) as Hpi. pose proof Hpi as (Hwf & _).
    assert (G : forall os, (forall o, In o os -> possible D (snd it) opt o) -> Forall2 (rep D ncl) (map (fun o => collapse D opt cl o (snd it) (s_cum (snd it) * outcome_prob D (snd it) opt o)) os) (map (fun o => reading opt cl o b) os)).
    { induction os as [|o os IHo]; intro Ho; [constructor|]. cbn [map]. constructor; [|apply IHo; intros; apply Ho; now right]. specialize (Ho o (or_introl eq_refl)).
      apply rep_collapse; try assumption; [|now apply (possible_prob D ncl)]. destruct Ho as (vs & _ & _ & <-). now rewrite readout_length. }
    apply G. intros o Ho. now apply (outcomes_possible D opt (snd it) o HL Hwf).
  - clear - HF HL. induction HF as [|it b l m H HF IH]; [constructor|]. cbn [flat_map combine fst snd]. rewrite filter_app. apply Permutation_app; [|exact IH]. now apply (readings_perm D ncl).
Qed.

(** ** A block of optical nodes *)
Definition elements (nds : list onode) (ops : list operation) : Prop :=
  Forall2 (fun nd op => exists h v rest, on_tl nd = h :: v :: rest /\ Permutation (h :: v :: rest) (seq 0 (dN D)) /\ unitary2 (on_matrix nd) /\
    op = Element (fun _ => mat2_tr (on_matrix nd)) h v) nds ops.
Lemma elements_run nds ops : elements nds ops -> forall b, exists w', run D ops [b] = [Branch (b_label b) (b_reg b) w'] /\
  forall g, valid D g -> w' g = act D nds (wvec D (b_wave b)) (index_of_values D g).
Proof.
  induction 1 as [|nd op nds ops (h & v & rest & Et & HP & HU & ->) HE IH]; intro b.
  - exists (b_wave b). split; [now destruct b|]. intros g Vg. unfold act, wvec. cbn. now rewrite values_index_roundtrip.
  - rewrite run_cons. cbn [flat_map perform app]. set (b1 := Branch _ _ _). destruct (IH b1) as (w' & E1 & E2). exists w'. split; [exact E1|].
    intros g Vg. rewrite E2 by exact Vg. unfold act at 2. cbn [fold_left]. fold (act D nds (mat_vec (size_of_basis D) (full_matrix D (on_matrix nd) (on_tl nd)) (wvec D (b_wave b)))).
    apply act_ext; [|now apply index_of_values_bound]. intros i Hi. unfold wvec at 1. cbn [b1 b_wave]. rewrite Et. rewrite (Element_wave D _ h v rest) by (try assumption; now apply values_from_index_valid).
    now rewrite index_values_roundtrip.
Qed.
Lemma elements_unitary nds ops : elements nds ops -> nds <> [] -> unitary_mat (size_of_basis D) (nodes_matrix D nds).
Proof.
  intros HE Hne. destruct HE as [|nd op nds ops (h & v & rest & Et & HP & HU & ->) HE]; [congruence|]. cbn [nodes_matrix]. apply product_unitary; try assumption.
  - clear - HE. induction HE as [|nd op nds ops (h & v & rest & Et & HP & HU & ->) HE IH]; constructor; [rewrite Et; exact HP|exact IH].
  - clear - HE. induction HE as [|nd op nds ops (h & v & rest & Et & HP & HU & ->) HE IH]; constructor; [exact HU|exact IH].
  - rewrite Et. now apply full_matrix_unitary.
Qed.
Lemma block_step nds ops its bs : elements nds ops -> nds <> [] -> tracks D ncl its bs -> clear D eps (run D ops bs) ->
  tracks D ncl (map (fun it => (fst it, optical_step D eps nds (snd it))) its) (run D ops bs).
Proof.
  intros HE Hne Ht Hcl. destruct Ht as (Hni & ND & HF). split; [destruct its; [congruence|discriminate]|]. split; [unfold dkeys; rewrite map_map; exact ND|].
  rewrite map_map. cbn [snd]. rewrite run_flat in Hcl |- *. apply (proj1 (Forall2_map_l _ _ _ _)) in HF. induction HF as [|it b l m H HF IH]; [constructor|]. cbn [map flat_map] in *.
  destruct (elements_run nds ops HE b) as (w' & E & Hw). rewrite E in Hcl |- *. constructor.
  - unfold optical_step. apply rep_matrix; try assumption; [now apply elements_unitary with ops| |].
    + intros g Vg. rewrite nodes_matrix_act by now apply index_of_values_bound. now apply Hw.
    + intros g Vg. exact (Hcl _ g (or_introl eq_refl) Vg).
  - clear IH Hni ND. assert (G : clear D eps (flat_map (fun b => run D ops [b]) m)) by (apply (clear_incl _ _ _ _) with (2 := Hcl); intros x Hx; now right).
    clear Hcl E Hw H. induction HF as [|it' b' l m H HF IH]; [constructor|]. cbn [map flat_map] in *. destruct (elements_run nds ops HE b') as (w2 & E & Hw). rewrite E in G |- *. constructor.
    + unfold optical_step. apply rep_matrix; try assumption; [now apply elements_unitary with ops| |].
      * intros g Vg. rewrite nodes_matrix_act by now apply index_of_values_bound. now apply Hw.
      * intros g Vg. exact (G _ g (or_introl eq_refl) Vg).
    + apply IH. apply (clear_incl _ _ _ _) with (2 := G). intros x Hx. now right.
Qed.

(** ** The whole circuit *)
Variable ops : list operation.
Hypothesis Hmeans : Forall2 (means D ncl) nodes ops.

Lemma means_at k : k < length nodes -> exists op rest, skipn k ops = op :: rest /\ skipn (S k) ops = rest /\ means D ncl (node_at c k) op.
Proof.
  unfold node_at. cbn [c c_nodes]. clear - Hmeans. revert k. induction Hmeans as [|nd op nds ops' H HF IH]; intros k Hk; [cbn in Hk; lia|]. destruct k as [|k].
  - exists op, ops'. repeat split. exact H.
  - cbn in Hk. destruct (IH HF k ltac:(lia)) as (op' & r & E1 & E2 & E3). exists op', r. repeat split; assumption.
Qed.
Lemma circuit_wf : wf_circuit c.
Proof.
  split; [exact HL|]. split; [exact HN|]. split; [reflexivity|]. cbn [c c_nodes]. clear - Hmeans. induction Hmeans as [|nd op nds ops' H HF IH]; [constructor|]. constructor; [|now apply IH].
  destruct H; cbn; auto.
Qed.
Lemma means_not_bridge nd op : means D ncl nd op -> is_bridge nd = false.
Proof. now destruct 1. Qed.
Lemma generic_tr t p : mat2_tr (generic_matrix t p) = generic_matrix t p.
Proof. pose proof (generic_symmetric t p) as H. unfold mat2_symmetric in H. destruct (generic_matrix t p) as [a b c0 d]. cbn in *. unfold mat2_tr. cbn. now rewrite H. Qed.
Lemma nonopt_step k op its bs seed : means D ncl (node_at c k) op -> is_optical (node_at c k) = false -> tracks D ncl its bs -> clear D eps (flat_map (perform D op) bs) ->
  exists its' bs' seed', run_node X rnd c k (coll_of c its) seed = Some (coll_of c its', seed') /\ tracks D ncl its' bs' /\
    Permutation bs' (filter (nonzero D) (flat_map (perform D op) bs)).
Proof.
  intros Hm Ho Ht Hcl. pose proof circuit_wf as Hwf. unfold run_node. remember (node_at c k) as nd eqn:En. clear En. destruct Hm as [A h v rest HP HU|t p vars h v rest A HP Ha|M T HM HT|f nv chs F Hf|opt cl H1 H2 H3]; cbn [co_items coll_of].
  - discriminate.
  - pose (angles := fun reg => match controlled_angles t p vars reg with Some a => a | None => (0, 0)%R end).
    destruct (controlled_step t p vars h v rest angles A its bs Ht HP) as (its' & E1 & E2); [|exact Hwf| |exact Hcl|].
    { intros reg Hr. unfold angles. destruct (Ha reg Hr) as (t' & p' & -> & _). reflexivity. }
    { intros reg Hr. unfold angles. destruct (Ha reg Hr) as (t' & p' & -> & ->). cbn [fst snd]. symmetry. apply generic_tr. }
    eexists its', _, seed. rewrite E1. split; [reflexivity|]. split; [exact E2|]. now apply single_result with its'.
  - destruct (custom_step M T its bs seed Ht HM HT Hcl) as (its' & seed' & E1 & E2). eexists its', _, seed'. rewrite E1. split; [reflexivity|]. split; [exact E2|]. now apply single_result with its'.
  - destruct (classical_step f nv chs F its bs Ht Hf) as (its' & E1 & E2). eexists its', _, seed. rewrite E1. split; [reflexivity|]. split; [exact E2|]. now apply single_result with its'.
  - destruct (measure_step k opt cl its bs Ht H1 H2 H3) as (its' & bs' & E1 & E2 & E3). exists its', bs', seed. rewrite !(tracks_all_have D ncl its bs _ Ht), E1. repeat split; try apply E2. exact E3.
Qed.
Lemma seq_sorted k m : StronglySorted lt (seq k m).
Proof. revert k. induction m as [|m IH]; intro k; cbn; constructor; [apply IH|]. apply Forall_forall. intros x Hx. apply in_seq in Hx. lia. Qed.
Lemma seq_in_range k m : k + m = length nodes -> forallb (fun i => i <? length (c_nodes c)) (seq k m) = true.
Proof. intro H. apply forallb_forall. intros x Hx. apply in_seq in Hx. apply Nat.ltb_lt. cbn [c c_nodes]. lia. Qed.
Lemma prefix_elements m : forall k, k + m = length nodes ->
  exists j, optical_prefix c (seq k m) = seq k j /\ j <= m /\ (m <> 0 -> is_optical (node_at c k) = true -> j <> 0) /\
    elements (flat_map (fun i => onode_of (node_at c i)) (seq k j)) (firstn j (skipn k ops)).
Proof.
  induction m as [|m IH]; intros k Hk.
  - exists 0. split; [reflexivity|]. split; [lia|]. split; [congruence|]. constructor.
  - cbn [seq optical_prefix]. destruct (is_optical (node_at c k)) eqn:Eo.
    + destruct (IH (S k) ltac:(lia)) as (j & E1 & E2 & _ & E3). exists (S j). split; [cbn [seq]; now rewrite E1|]. split; [lia|]. split; [lia|].
      destruct (means_at k ltac:(lia)) as (op & rest & S1 & S2 & S3). rewrite S1. cbn [seq flat_map firstn]. rewrite S2 in E3.
      remember (node_at c k) as nd eqn:En. clear En. destruct S3 as [A h v rest' HP HU|t p vars h v rest' A HP Ha|M T HM HT|f nv chs F Hf|opt cl H1 H2 H3]; try discriminate.
      cbn [onode_of app]. constructor; [|exact E3]. exists h, v, rest'. repeat split; try assumption; cbn; apply HU.
    + exists 0. split; [reflexivity|]. split; [lia|]. split; [discriminate|]. constructor.
Qed.
Lemma skipn_add {A} (a b : nat) (l : list A) : skipn b (skipn a l) = skipn (a + b) l.
Proof. revert l. induction a as [|a IH]; intro l; [reflexivity|]. destruct l; [now rewrite !skipn_nil|]. apply IH. Qed.
Lemma perm_filter_filter E E' : Permutation E (filter (nonzero D) E') -> forall l, Permutation (filter (nonzero D) (run D l E)) (filter (nonzero D) (run D l E')).
Proof. intros H l. transitivity (filter (nonzero D) (run D l (filter (nonzero D) E'))); [now apply filter_perm, run_perm|]. now rewrite run_filter. Qed.
Lemma eval_tracks n : forall m k its bs seed, m <= n -> k + m = length nodes -> tracks D ncl its bs ->
  (forall j, clear D eps (run D (firstn j (skipn k ops)) bs)) ->
  exists its' bs' seed', evalR X rnd c (seq k m) (coll_of c its) seed = Ok (coll_of c its', seed') /\ tracks D ncl its' bs' /\
    Permutation bs' (filter (nonzero D) (run D (skipn k ops) bs)).
Proof.
  assert (Hlen : length ops = length nodes) by (clear - Hmeans; induction Hmeans; cbn; auto).
  induction n as [|n IH]; intros m k its bs seed Hm Hk Ht Hcl.
  - assert (m = 0) by lia. subst m. cbn [seq]. rewrite evalR_nil. exists its, bs, seed. split; [reflexivity|]. split; [exact Ht|].
    rewrite skipn_all2 by lia. cbn. now rewrite (tracks_nonzero D ncl its bs HL Ht).
  - destruct m as [|m].
    { cbn [seq]. rewrite evalR_nil. exists its, bs, seed. split; [reflexivity|]. split; [exact Ht|]. rewrite skipn_all2 by lia. cbn. now rewrite (tracks_nonzero D ncl its bs HL Ht). }
    rewrite evalR_sorted by apply seq_sorted. rewrite seq_in_range by exact Hk. cbn [negb]. destruct (means_at k ltac:(lia)) as (op & rest & S1 & S2 & S3).
    destruct (is_optical (node_at c k)) eqn:Eo.
    + destruct (prefix_elements (S m) k Hk) as (j & E1 & E2 & E3 & E4). specialize (E3 ltac:(discriminate) Eo).
      assert (Hr : run_optical c (optical_prefix c (seq k (S m))) (coll_of c its) = Some (coll_of c (map (opt_step c (seq k j)) its))).
      { rewrite E1. apply run_optical_spec; [apply circuit_wf|exact (tracks_wf D ncl its bs Ht)|destruct j; [congruence|discriminate]| |].
        - intros i Hi. split; [apply in_seq in Hi; cbn [c c_nodes]; lia|]. rewrite <- E1 in Hi. now apply optical_prefix_in with (seq k (S m)).
        - exact (tracks_check D ncl eps its bs (Rlt_le _ _ He) Ht). }
      assert (Hb : tracks D ncl (map (opt_step c (seq k j)) its) (run D (firstn j (skipn k ops)) bs)).
      { refine (block_step (flat_map (fun i => onode_of (node_at c i)) (seq k j)) _ its bs E4 _ Ht (Hcl j)). apply onodes_nonempty; [destruct j; [congruence|discriminate]|].
        intros i Hi. rewrite <- E1 in Hi. now apply optical_prefix_in with (seq k (S m)). }
      assert (Hsk : skipn (length (optical_prefix c (seq k (S m)))) (seq k (S m)) = seq (k + j) (S m - j)).
      { rewrite E1, seq_length. replace (S m) with (j + (S m - j)) at 1 by lia. rewrite seq_app. rewrite <- (seq_length j k) at 1. now rewrite skipn_prefix. }
      destruct (IH (S m - j) (k + j) _ _ seed ltac:(lia) ltac:(lia) Hb) as (its' & bs' & seed' & F1 & F2 & F3).
      { intro i. rewrite <- run_app. specialize (Hcl (j + i)). replace (firstn (j + i) (skipn k ops)) with (firstn j (skipn k ops) ++ firstn i (skipn (k + j) ops)) in Hcl; [exact Hcl|].
        assert (Hlj : length (firstn j (skipn k ops)) = j) by (rewrite firstn_length, skipn_length; lia).
        rewrite <- (firstn_skipn j (skipn k ops)) at 2. rewrite firstn_app, Hlj, skipn_add. rewrite (firstn_all2 (n := j + i)) by lia. now replace (j + i - j) with i by lia. }
      exists its', bs', seed'. split; [|split; [exact F2|]].
      * rewrite Hsk, Hr. change (seq k (S m)) with (k :: seq (S k) m). cbn iota. destruct (node_at c k); try discriminate Eo. exact F1.
      * rewrite <- (firstn_skipn j (skipn k ops)), run_app, skipn_add. exact F3.
    + destruct (nonopt_step k op its bs seed S3 Eo Ht) as (its1 & bs1 & seed1 & G1 & G2 & G3).
      { specialize (Hcl 1). rewrite S1 in Hcl. exact Hcl. }
      destruct (IH m (S k) its1 bs1 seed1 ltac:(lia) ltac:(lia) G2) as (its' & bs' & seed' & F1 & F2 & F3).
      { intro i. rewrite S2. specialize (Hcl (S i)). rewrite S1 in Hcl. cbn [firstn] in Hcl. rewrite run_cons in Hcl. apply (clear_incl _ _ _ _) with (2 := Hcl). apply run_incl.
        intros b Hb. apply (Permutation_in b G3) in Hb. apply filter_In in Hb. apply Hb. }
      exists its', bs', seed'. split; [|split; [exact F2|]].
      * change (seq k (S m)) with (k :: seq (S k) m). cbn iota. pose proof (means_not_bridge _ _ S3) as Enb. destruct (node_at c k) eqn:En; try discriminate; rewrite G1; exact F1.
      * rewrite F3, S1, run_cons, S2. now apply perm_filter_filter.
Qed.
End Circuit.
