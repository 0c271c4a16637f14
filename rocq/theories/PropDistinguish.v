(** * C76: how well a circuit can tell two states apart *)
From Coq Require Import Reals List Arith Lia Lra Bool Permutation.
From Coquelicot Require Import Complex.
From Verif Require Import Prelude NamesModel NamesSpec NamesProofs FockModel FockSpec FockProofs GateProofs
  OpticalModel OpticalProofs StateModel StateSpec StateProofs CollectionModel EvalModel MeasureSpec MeasureProofs
  InterferenceSpec ArrangementProofs ExponentialProofs PermanentProofs CircuitSpec CircuitProofs EnsembleProofs PropCircuit ProtocolSpec ProtocolProofs PropProtocol
  TsirelsonSpec TsirelsonProofs PropTsirelson ProgramModel ProgramSpec PropProgram
  ApplicationSpec SparseProofs DistinguishSpec.
Import ListNotations.

(** ** Observables that are their own adjoint *)
Definition herm (D : dims) (ncl : nat) (o : observable) : Prop :=
  forall l r f g, length r = ncl -> valid D f -> valid D g -> o l r g f = Cconj (o l r f g).
Lemma Cconj_sum {A} (l : list A) f : Cconj (Csum l f) = Csum l (fun x => Cconj (f x)).
Proof. apply Csum_conj. Qed.
Lemma herm_sandwich D (T : values -> values -> C) (o : values -> values -> C) f g : (forall f g, valid D f -> valid D g -> o g f = Cconj (o f g)) ->
  Csum (basis D) (fun f' => Csum (basis D) (fun g' => o f' g' * (T g f' * Cconj (T f g'))))%C =
  Cconj (Csum (basis D) (fun f' => Csum (basis D) (fun g' => o f' g' * (T f f' * Cconj (T g g'))))%C).
Proof.
  intro H. rewrite Cconj_sum, Csum_swap. apply Csum_ext. intros f' Hf. rewrite Cconj_sum. apply Csum_ext. intros g' Hg. apply basis_in in Hf, Hg.
  rewrite !Cconj_mult, Cconj_invol, <- H by assumption. ring.
Qed.
Lemma herm_before D ncl op o : isometric D ncl op -> herm D ncl o -> herm D ncl (before D op o).
Proof.
  intros HI H l r f g Hr Vf Vg. destruct op as [A h v|T|F|opt cl]; cbn [before isometric] in *.
  - apply (herm_sandwich D (pair_amp D (A r) h v)). intros. now apply H.
  - apply (herm_sandwich D T). intros. now apply H.
  - apply H; try assumption. now apply HI.
  - rewrite leqb_sym. destruct (leqb (readout opt f) (readout opt g)) eqn:E; [|apply C_eq; cbn; ring]. apply leqb_spec in E. rewrite <- E. apply H; try assumption. now rewrite noted_length.
Qed.
Lemma herm_before_all D ncl ops o : Forall (isometric D ncl) ops -> herm D ncl o -> herm D ncl (before_all D ops o).
Proof. intros HF Ho. induction HF as [|op ops H HF IH]; [exact Ho|]. now apply herm_before. Qed.
Lemma herm_diag D ncl a : herm D ncl (diag a).
Proof. intros l r f g _ _ _. unfold diag. rewrite leqb_sym. destruct (leqb f g); apply C_eq; cbn; ring. Qed.

(** ** The inequality of Cauchy and Schwarz *)
Lemma all_scales F A B : (0 <= A)%R -> (0 <= B)%R -> (forall t, 0 < t -> F <= (t * A + B / t) / 2)%R -> (F <= sqrt (A * B))%R.
Proof.
  intros HA HB H. destruct (Rle_lt_dec F 0) as [|HF]; [pose proof (sqrt_pos (A * B)); lra|].
  destruct HA as [HA|<-].
  - destruct HB as [HB|<-].
    + assert (0 < sqrt A)%R by now apply sqrt_lt_R0. assert (0 < sqrt B)%R by now apply sqrt_lt_R0.
      specialize (H (sqrt B / sqrt A)%R ltac:(now apply Rdiv_lt_0_compat)). rewrite sqrt_mult by lra. 
      pose proof (sqrt_sqrt A ltac:(lra)) as EA. pose proof (sqrt_sqrt B ltac:(lra)) as EB.
      assert (E : ((sqrt B / sqrt A * (sqrt A * sqrt A) + sqrt B * sqrt B / (sqrt B / sqrt A)) / 2 = sqrt A * sqrt B)%R) by (field; split; lra). rewrite EA, EB in E. lra.
    + exfalso. specialize (H (F / (A + 1))%R ltac:(apply Rdiv_lt_0_compat; lra)). replace (0 / (F / (A + 1)))%R with 0%R in H by (field; lra).
      assert (F / (A + 1) * A < F)%R; [|lra]. apply (Rmult_lt_reg_r (A + 1)); [lra|]. replace (F / (A + 1) * A * (A + 1))%R with (F * A)%R by (field; lra). lra.
  - exfalso. specialize (H ((B + 1) / F)%R ltac:(apply Rdiv_lt_0_compat; lra)). rewrite Rmult_0_r in H. replace (B / ((B + 1) / F))%R with (B * F / (B + 1))%R in H by (field; lra).
    assert (B * F / (B + 1) < F)%R; [|lra]. apply (Rmult_lt_reg_r (B + 1)); [lra|]. replace (B * F / (B + 1) * (B + 1))%R with (B * F)%R by (field; lra). lra.
Qed.
Lemma nrm_scale D (k : R) u : nrm D (fun f => RtoC k * u f)%C = (k * k * nrm D u)%R.
Proof. unfold nrm. rewrite <- Rsum_scal_l. apply Rsum_ext. intros f _. unfold Cnorm2. cbn. ring. Qed.
Lemma nrm_nonneg D u : (0 <= nrm D u)%R.
Proof. apply Rsum_nonneg. intros. apply Cnorm2_nonneg. Qed.
Lemma contr_schwarz D ncl o l r u v : contr D ncl o -> length r = ncl -> (fst (form D (o l r) u v) <= sqrt (nrm D u * nrm D v))%R.
Proof.
  intros Hc Hr. apply all_scales; try apply nrm_nonneg. intros t Ht. pose proof (sqrt_lt_R0 t Ht) as Hs. pose proof (sqrt_sqrt t ltac:(lra)) as Es.
  pose proof (Hc l r (fun f => RtoC (sqrt t) * u f)%C (fun f => RtoC (/ sqrt t) * v f)%C Hr) as H. rewrite !nrm_scale in H.
  replace (form D (o l r) (fun f => RtoC (sqrt t) * u f)%C (fun f => RtoC (/ sqrt t) * v f)%C) with (form D (o l r) u v) in H.
  - rewrite Es in H. replace (/ sqrt t * / sqrt t)%R with (/ t)%R in H; [unfold Rdiv at 2; lra|]. rewrite <- Es at 1. field. lra.
  - unfold form. apply Csum_ext. intros f _. apply Csum_ext. intros g _. apply C_eq; cbn; field; lra.
Qed.

(** ** Two states *)
Definition inner (D : dims) (u v : values -> C) : C := Csum (basis D) (fun f => u f * Cconj (v f))%C.
Lemma form_two D (o : values -> values -> C) u v (c : C) : (forall f g, valid D f -> valid D g -> o g f = Cconj (o f g)) -> Cnorm2 c = 1%R ->
  (fst (form D o u u) - fst (form D o v v) = fst (form D o (fun f => u f + c * v f) (fun f => u f - c * v f))%C)%R.
Proof.
  intros Ho Hc. set (w := fun f => (c * v f)%C).
  assert (E1 : form D o w w = form D o v v).
  { unfold form. apply Csum_ext. intros f _. apply Csum_ext. intros g _. unfold w. rewrite Cconj_mult. replace (c * v f * (Cconj c * Cconj (v g)))%C with ((Cconj c * c) * (v f * Cconj (v g)))%C by ring. rewrite Cconj_mult_norm2, Hc. ring. }
  assert (E2 : form D o w u = Cconj (form D o u w)).
  { unfold form. rewrite Cconj_sum, Csum_swap. apply Csum_ext. intros f Hf. rewrite Cconj_sum. apply Csum_ext. intros g Hg. apply basis_in in Hf, Hg. rewrite (Ho f g) by assumption. rewrite !Cconj_mult, Cconj_invol. ring. }
  assert (E3 : form D o (fun f => u f + w f)%C (fun f => u f - w f)%C = (form D o u u + (RtoC (-1) * form D o u w + (form D o w u + RtoC (-1) * form D o w w)))%C).
  { unfold form. rewrite <- !Csum_scal_l, <- !Csum_plus. apply Csum_ext. intros f _. rewrite <- !Csum_scal_l, <- !Csum_plus. apply Csum_ext. intros g _. apply C_eq; cbn; ring. }
  unfold w in E3 at 1 2. rewrite E3, E2, E1. cbn. ring.
Qed.
Lemma nrm_plus D u w : nrm D (fun f => u f + w f)%C = (nrm D u + nrm D w + 2 * fst (inner D u w))%R.
Proof. unfold nrm, inner. rewrite re_sum, <- Rsum_scal_l, <- !Rsum_plus. apply Rsum_ext. intros f _. unfold Cnorm2. cbn. ring. Qed.
Lemma nrm_minus D u w : nrm D (fun f => u f - w f)%C = (nrm D u + nrm D w - 2 * fst (inner D u w))%R.
Proof. unfold nrm, inner. replace (- (2 * fst (Csum (basis D) (fun f => u f * Cconj (w f))%C)))%R with (-2 * fst (Csum (basis D) (fun f => u f * Cconj (w f))%C))%R by ring. unfold Rminus. replace (- (2 * fst (Csum (basis D) (fun f => (u f * Cconj (w f))%C))))%R with (-2 * fst (Csum (basis D) (fun f => (u f * Cconj (w f))%C)))%R by ring. rewrite re_sum, <- Rsum_scal_l, <- !Rsum_plus. apply Rsum_ext. intros f _. unfold Cnorm2. cbn. ring. Qed.
Lemma nrm_phase D (c : C) v : Cnorm2 c = 1%R -> nrm D (fun f => c * v f)%C = nrm D v.
Proof. intro H. unfold nrm. apply Rsum_ext. intros f _. rewrite Cnorm2_mult, H. ring. Qed.
Lemma phase_exists (s : C) : exists c, Cnorm2 c = 1%R /\ (Cconj c * s)%C = RtoC (sqrt (Cnorm2 s)).
Proof.
  destruct (Req_EM_T (Cnorm2 s) 0) as [E|E].
  - exists (RtoC 1). split; [unfold Cnorm2; cbn; ring|]. rewrite E, sqrt_0. apply Cnorm2_eq0 in E. rewrite E. apply C_eq; cbn; ring.
  - assert (0 < Cnorm2 s)%R by (pose proof (Cnorm2_nonneg s); lra). pose proof (sqrt_lt_R0 _ H) as Hs. pose proof (sqrt_sqrt (Cnorm2 s) ltac:(lra)) as Es.
    exists (s * RtoC (/ sqrt (Cnorm2 s)))%C. split.
    + rewrite Cnorm2_mult. unfold Cnorm2 at 2. cbn. rewrite <- Es at 1. field. lra.
    + rewrite Cconj_mult, Cconj_RtoC. replace (Cconj s * RtoC (/ sqrt (Cnorm2 s)) * s)%C with ((Cconj s * s) * RtoC (/ sqrt (Cnorm2 s)))%C by ring. rewrite Cconj_mult_norm2, <- RtoC_mult. f_equal. rewrite <- Es at 1. field. lra.
Qed.
(** The expectation values of two vectors differ at most by this. *)
Lemma two_states D ncl o l l' r u v : contr D ncl o -> herm D ncl o -> unlabelled o -> length r = ncl ->
  (fst (form D (o l r) u u) - fst (form D (o l' r) v v) <= sqrt ((nrm D u + nrm D v) * (nrm D u + nrm D v) - 4 * Cnorm2 (inner D u v)))%R.
Proof.
  intros Hc Hh Hu Hr. destruct (phase_exists (inner D u v)) as (c & Hc1 & Ec).
  assert (E0 : form D (o l' r) v v = form D (o l r) v v) by (unfold form; apply Csum_ext; intros; apply Csum_ext; intros; now rewrite (Hu l' l)). rewrite E0.
  rewrite (form_two D (o l r) u v c) by (try assumption; intros; now apply Hh). eapply Rle_trans; [now apply (contr_schwarz D ncl)|]. apply Req_le. f_equal.
  rewrite (nrm_plus D u (fun f => c * v f)%C), (nrm_minus D u (fun f => c * v f)%C), nrm_phase by exact Hc1.
  assert (Ei : inner D u (fun f => c * v f)%C = RtoC (sqrt (Cnorm2 (inner D u v)))).
  { rewrite <- Ec. unfold inner at 1. unfold inner at 1. rewrite <- Csum_scal_l. apply Csum_ext. intros f _. rewrite Cconj_mult. ring. }
  rewrite Ei. cbn [fst RtoC]. pose proof (sqrt_sqrt (Cnorm2 (inner D u v)) (Cnorm2_nonneg _)) as Es. set (q := sqrt (Cnorm2 (inner D u v))) in *. rewrite <- Es. ring.
Qed.
Lemma inner_branch D st st2 : (0 <= s_cum st)%R -> (0 <= s_cum st2)%R -> Cnorm2 (inner D (b_wave (branch_of D st)) (b_wave (branch_of D st2))) = (s_cum st * s_cum st2 * Cnorm2 (overlap D st st2))%R.
Proof.
  intros H1 H2. replace (inner D (b_wave (branch_of D st)) (b_wave (branch_of D st2))) with (RtoC (sqrt (s_cum st)) * (RtoC (sqrt (s_cum st2)) * overlap D st st2))%C.
  - rewrite !Cnorm2_mult, !Cnorm2_RtoC, !sqrt_sqrt by assumption. ring.
  - unfold overlap, inner. rewrite <- !Csum_scal_l. apply Csum_ext. intros f _. cbn [b_wave branch_of]. rewrite Cconj_mult, Cconj_RtoC. ring.
Qed.
(** The mean of a verdict over the outcomes that come from [l], in terms of the input. *)
Lemma mean_input D ncl full nodes ops its X rnd : 1 <= dL D -> 2 <= dN D -> Forall2 (means D ncl) nodes ops -> proper_items D ncl its ->
  exists eps0, (0 < eps0)%R /\ forall eps, (0 < eps <= eps0)%R ->
    let c := Circuit D ncl eps full (fresh_keys D) nodes in
    exists out, evaluate_circuit X rnd c (coll_of c its) = Ok (coll_of c out) /\ forall l,
      (forall a, Rsum (from l out) (fun it => s_cum (snd it) * a (s_classical (snd it)))%R = fst (expect D (branches_of D (from l its)) (before_all D ops (diag a)))) /\
      weight_of_label out l = weight_of_label its l.
Proof.
  intros HL HN HM Hp. destruct (C62_exact D ncl full nodes ops its X rnd HL HN HM Hp) as (e & He & H). exists e. split; [exact He|]. intros eps Heps c. destruct (H eps Heps) as (out & E & Hpo & Hb). exists out. split; [exact E|]. intro l.
  pose proof (means_all D ncl _ _ HL HN HM) as HI. pose proof (proper_registers D ncl its Hp) as Hreg. split.
  - intro a. transitivity (fst (expect D (branches_of D (from l out)) (diag a))); [rewrite (expect_from D ncl a l out HL Hpo); reflexivity|]. f_equal. rewrite <- branches_from, <- expect_labelled. rewrite (ensemble_result D ncl its ops out Hpo Hb), expect_run.
    rewrite (expect_agree D ncl _ (labelled l (before_all D ops (diag a)))) by (try exact Hreg; now apply (labelled_before_all D ncl)). now rewrite expect_labelled, branches_from.
  - apply RtoC_eq_inv. pose proof (ensemble_result D ncl its ops out Hpo Hb (trace_of (fun l' _ => leqb l' l))) as Ht.
    rewrite (run_label D ncl) in Ht by assumption. rewrite !(expect_branches D ncl) in Ht by assumption. exact Ht.
Qed.

Lemma only_proper D ncl its l st : proper_items D ncl its -> only its l st -> proper_state D ncl st.
Proof. intros (_ & _ & HF) (i & F). rewrite Forall_forall in HF. apply (HF (i, st)). eapply incl_filter. unfold from in F. rewrite F. now left. Qed.

(** ** C76 *)
(** Whatever circuit is built, with measurements and feed-forward: nobody who only sees the classical values
    of the results can guess which of two states was the input with a higher probability than this. *)
Theorem C76_helstrom : forall D ncl full nodes ops its X rnd l1 l2 st1 st2, 1 <= dL D -> 2 <= dN D ->
  Forall2 (means D ncl) nodes ops -> proper_items D ncl its -> only its l1 st1 -> only its l2 st2 -> s_classical st1 = s_classical st2 ->
  exists eps0, (0 < eps0)%R /\ forall eps, (0 < eps <= eps0)%R ->
    let c := Circuit D ncl eps full (fresh_keys D) nodes in
    exists out, evaluate_circuit X rnd c (coll_of c its) = Ok (coll_of c out) /\
      let p := s_cum st1 in let q := s_cum st2 in
      forall guess, guessing ncl guess ->
      (success out l1 l2 guess <= (p + q + sqrt ((p + q) * (p + q) - 4 * (p * q * Cnorm2 (overlap D st1 st2)))) / 2)%R.
Proof.
  intros D ncl full nodes ops its X rnd l1 l2 st1 st2 HL HN HM Hp O1 O2 Hcl. pose proof (only_proper D ncl its l1 st1 Hp O1) as P1. pose proof (only_proper D ncl its l2 st2 Hp O2) as P2. destruct O1 as (i1 & F1), O2 as (i2 & F2).
  destruct (mean_input D ncl full nodes ops its X rnd HL HN HM Hp) as (e & He & H). exists e. split; [exact He|]. intros eps Heps c. destruct (H eps Heps) as (out & E & Hm). exists out. split; [exact E|]. cbv zeta. intros guess Hg.
  pose proof (means_all D ncl _ _ HL HN HM) as HI. set (a := fun r => (2 * guess r - 1)%R).
  destruct (Hm l1) as [M1 W1]. destruct (Hm l2) as [M2 W2].
  assert (S : success out l1 l2 guess = ((s_cum st1 + s_cum st2 + (Rsum (from l1 out) (fun it => s_cum (snd it) * a (s_classical (snd it))) - Rsum (from l2 out) (fun it => s_cum (snd it) * a (s_classical (snd it))))) / 2)%R).
  { assert (WF : forall l its0, weight_of_label its0 l = Rsum (from l its0) (fun it => s_cum (snd it))) by (intros; unfold weight_of_label, from; now rewrite Rsum_filter).
    rewrite !WF, F1, F2, !Rsum_one in *. cbn [snd] in *.
    assert (A : forall l its0, Rsum (from l its0) (fun it => s_cum (snd it) * a (s_classical (snd it)))%R = (2 * says its0 l guess - Rsum (from l its0) (fun it => s_cum (snd it)))%R).
    { intros l its0. unfold says, Rminus. replace (- Rsum (from l its0) (fun it => s_cum (snd it)))%R with (-1 * Rsum (from l its0) (fun it => s_cum (snd it)))%R by ring. rewrite <- !Rsum_scal_l, <- Rsum_plus. apply Rsum_ext. intros it _. unfold a. ring. }
    assert (B : says out l2 (fun r => 1 - guess r)%R = (Rsum (from l2 out) (fun it => s_cum (snd it)) - says out l2 guess)%R).
    { unfold says, Rminus. replace (- Rsum (from l2 out) (fun it => s_cum (snd it) * guess (s_classical (snd it))))%R with (-1 * Rsum (from l2 out) (fun it => s_cum (snd it) * guess (s_classical (snd it))))%R by ring. rewrite <- Rsum_scal_l, <- Rsum_plus. apply Rsum_ext. intros it _. ring. }
    unfold success. rewrite B, !A, W1, W2. field. }
  rewrite S. apply Rmult_le_compat_r; [lra|]. apply Rplus_le_compat_l. rewrite M1, M2, F1, F2.
  set (o := before_all D ops (diag a)).
  assert (Ef : forall (i : ident) st, expect D (branches_of D [(i, st)]) o = form D (o (s_init st) (s_classical st)) (b_wave (branch_of D st)) (b_wave (branch_of D st))).
  { intros i st. unfold expect, branches_of. cbn [map snd Csum fold_right]. unfold form. rewrite Cplus_0_r. reflexivity. }
  rewrite !Ef, <- Hcl. pose proof P1 as (_ & _ & _ & C1 & R1 & _). pose proof P2 as (_ & _ & _ & C2 & _ & _).
  eapply Rle_trans; [apply (two_states D ncl)|].
  - apply contr_before_all; [exact HI|]. apply contr_diag. intros r Hr. specialize (Hg r Hr). unfold a. lra.
  - apply herm_before_all; [exact HI|]. apply herm_diag.
  - apply unlabelled_before_all. apply diag_unlabelled.
  - exact R1.
  - rewrite !(nrm_branch D ncl) by assumption. rewrite inner_branch by lra. apply Req_le. reflexivity.
Qed.

(** The overlap of normalised states is at most one. *)
Lemma overlap_le D ncl st1 st2 : 1 <= dL D -> proper_state D ncl st1 -> proper_state D ncl st2 -> s_cum st1 = s_cum st2 -> (Cnorm2 (overlap D st1 st2) <= 1)%R.
Proof.
  intros HL P1 P2 Hw. destruct (phase_exists (inner D (b_wave (branch_of D st1)) (b_wave (branch_of D st2)))) as (c & Hc & Ec).
  pose proof (nrm_nonneg D (fun f => b_wave (branch_of D st1) f - c * b_wave (branch_of D st2) f)%C) as H. rewrite (nrm_minus D _ (fun f => c * b_wave (branch_of D st2) f)%C), nrm_phase, !(nrm_branch D ncl) in H by assumption.
  assert (Ei : inner D (b_wave (branch_of D st1)) (fun f => c * b_wave (branch_of D st2) f)%C = RtoC (sqrt (Cnorm2 (inner D (b_wave (branch_of D st1)) (b_wave (branch_of D st2)))))).
  { rewrite <- Ec. unfold inner at 1. unfold inner at 1. rewrite <- Csum_scal_l. apply Csum_ext. intros f _. rewrite Cconj_mult. ring. }
  rewrite Ei in H. cbn [fst RtoC] in H. pose proof P1 as (_ & _ & _ & C1 & _). pose proof P2 as (_ & _ & _ & C2 & _). rewrite inner_branch in H by lra. rewrite <- Hw in H.
  pose proof (Cnorm2_nonneg (overlap D st1 st2)) as Hn. rewrite sqrt_mult, sqrt_square in H by nra. assert (Hs : (sqrt (Cnorm2 (overlap D st1 st2)) <= 1)%R) by nra.
  rewrite <- (sqrt_sqrt _ Hn). pose proof (sqrt_pos (Cnorm2 (overlap D st1 st2))). nra.
Qed.

(** Similar states look alike to every circuit: the probabilities of any event in the classical values differ
    at most by the square root of 1 - |overlap|^2. *)
Theorem C76_similar : forall D ncl full nodes ops its X rnd l1 l2 st1 st2, 1 <= dL D -> 2 <= dN D ->
  Forall2 (means D ncl) nodes ops -> proper_items D ncl its -> only its l1 st1 -> only its l2 st2 -> s_classical st1 = s_classical st2 -> s_cum st1 = s_cum st2 ->
  exists eps0, (0 < eps0)%R /\ forall eps, (0 < eps <= eps0)%R ->
    let c := Circuit D ncl eps full (fresh_keys D) nodes in
    exists out, evaluate_circuit X rnd c (coll_of c its) = Ok (coll_of c out) /\
      forall guess, guessing ncl guess ->
      (Rabs (says out l1 guess - says out l2 guess) <= s_cum st1 * sqrt (1 - Cnorm2 (overlap D st1 st2)))%R.
Proof.
  intros D ncl full nodes ops its X rnd l1 l2 st1 st2 HL HN HM Hp O1 O2 Hcl Hw. pose proof (only_proper D ncl its l1 st1 Hp O1) as P1. pose proof (only_proper D ncl its l2 st2 Hp O2) as P2.
  destruct (C76_helstrom D ncl full nodes ops its X rnd l1 l2 st1 st2 HL HN HM Hp O1 O2 Hcl) as (e & He & H).
  destruct (mean_input D ncl full nodes ops its X rnd HL HN HM Hp) as (e2 & He2 & H2). exists (Rmin e e2). split; [now apply Rmin_glb_lt|]. intros eps [Hp0 Hle] c.
  destruct (H eps) as (out & E & B); [split; [exact Hp0|eapply Rle_trans; [exact Hle|apply Rmin_l]]|]. destruct (H2 eps) as (out2 & E2 & Hm); [split; [exact Hp0|eapply Rle_trans; [exact Hle|apply Rmin_r]]|].
  cbv zeta in E, E2. rewrite E in E2. injection E2 as <-. exists out. split; [exact E|]. intros guess Hg. cbv zeta in B. rewrite <- Hw in B.
  assert (T : forall g, guessing ncl g -> (says out l1 g + (s_cum st1 - says out l2 g) <= s_cum st1 + s_cum st1 * sqrt (1 - Cnorm2 (overlap D st1 st2)))%R).
  { intros g Hgg. specialize (B g Hgg). unfold success in B.
    assert (Es : says out l2 (fun r => 1 - g r)%R = (s_cum st1 - says out l2 g)%R).
    { rewrite Hw. replace (s_cum st2) with (weight_of_label its l2).
      - rewrite <- (proj2 (Hm l2)). unfold says, weight_of_label, from, Rminus. rewrite <- (Rsum_filter (fun it => leqb (s_init (snd it)) l2)). replace (- Rsum (filter (fun it => leqb (s_init (snd it)) l2) out) (fun it => s_cum (snd it) * g (s_classical (snd it))))%R with (-1 * Rsum (filter (fun it => leqb (s_init (snd it)) l2) out) (fun it => s_cum (snd it) * g (s_classical (snd it))))%R by ring. rewrite <- Rsum_scal_l, <- Rsum_plus. apply Rsum_ext. intros it _. ring.
      - destruct O2 as (i2 & F2). unfold weight_of_label. rewrite <- (Rsum_filter (fun it => leqb (s_init (snd it)) l2)). fold (from l2 its). rewrite F2, Rsum_one. reflexivity. }
    rewrite Es in B. eapply Rle_trans; [exact B|]. pose proof P1 as (_ & _ & _ & C1 & _). pose proof (overlap_le D ncl st1 st2 HL P1 P2 Hw) as Ho. apply Req_le.
    replace ((s_cum st1 + s_cum st1) * (s_cum st1 + s_cum st1) - 4 * (s_cum st1 * s_cum st1 * Cnorm2 (overlap D st1 st2)))%R with ((2 * s_cum st1) * (2 * s_cum st1) * (1 - Cnorm2 (overlap D st1 st2)))%R by ring.
    rewrite sqrt_mult, sqrt_square by (try apply Rmult_le_pos; lra). field. }
  pose proof (T guess Hg) as T1. pose proof (T (fun r => 1 - guess r)%R ltac:(intros r Hr; specialize (Hg r Hr); lra)) as T2.
  assert (C : forall l, weight_of_label out l = (says out l guess + says out l (fun r => 1 - guess r))%R).
  { intro l. unfold says, weight_of_label, from. rewrite <- (Rsum_filter (fun it => leqb (s_init (snd it)) l)). rewrite <- Rsum_plus. apply Rsum_ext. intros. ring. }
  assert (Wl : forall l st, only its l st -> weight_of_label out l = s_cum st).
  { intros l st (i & F). rewrite (proj2 (Hm l)). unfold weight_of_label. rewrite <- (Rsum_filter (fun it => leqb (s_init (snd it)) l)). fold (from l its). rewrite F, Rsum_one. reflexivity. }
  pose proof (C l1) as C1. pose proof (C l2) as C2. rewrite (Wl l1 st1 O1) in C1. rewrite (Wl l2 st2 O2) in C2. apply Rabs_le. lra.
Qed.

(** Probabilities depend continuously on the state: they differ at most by the distance of the states. *)
Theorem C76_continuous : forall D ncl full nodes ops its X rnd l1 l2 st1 st2, 1 <= dL D -> 2 <= dN D ->
  Forall2 (means D ncl) nodes ops -> proper_items D ncl its -> only its l1 st1 -> only its l2 st2 -> s_classical st1 = s_classical st2 -> s_cum st1 = s_cum st2 ->
  exists eps0, (0 < eps0)%R /\ forall eps, (0 < eps <= eps0)%R ->
    let c := Circuit D ncl eps full (fresh_keys D) nodes in
    exists out, evaluate_circuit X rnd c (coll_of c its) = Ok (coll_of c out) /\
      forall guess, guessing ncl guess ->
      (Rabs (says out l1 guess - says out l2 guess) <= s_cum st1 * sqrt (distance2 D st1 st2))%R.
Proof.
  intros D ncl full nodes ops its X rnd l1 l2 st1 st2 HL HN HM Hp O1 O2 Hcl Hw. pose proof (only_proper D ncl its l1 st1 Hp O1) as P1. pose proof (only_proper D ncl its l2 st2 Hp O2) as P2.
  destruct (C76_similar D ncl full nodes ops its X rnd l1 l2 st1 st2 HL HN HM Hp O1 O2 Hcl Hw) as (e & He & H). exists e. split; [exact He|]. intros eps Heps c. destruct (H eps Heps) as (out & E & B). exists out. split; [exact E|].
  intros guess Hg. eapply Rle_trans; [now apply B|]. pose proof P1 as (_ & _ & _ & C1 & _). apply Rmult_le_compat_l; [lra|]. apply sqrt_le_1_alt.
  assert (N : forall st, proper_state D ncl st -> nrm D (amp_of D st) = 1%R).
  { intros st P. pose proof (nrm_branch D ncl st HL P) as Hb. cbn [b_wave branch_of] in Hb. rewrite nrm_scale in Hb. pose proof P as (_ & _ & _ & C & _). rewrite sqrt_sqrt in Hb by lra. apply (Rmult_eq_reg_l (s_cum st)); lra. }
  change (distance2 D st1 st2) with (nrm D (fun f => amp_of D st1 f - amp_of D st2 f)%C). rewrite nrm_minus, !N by assumption. fold (inner D (amp_of D st1) (amp_of D st2)). change (inner D (amp_of D st1) (amp_of D st2)) with (overlap D st1 st2).
  destruct (overlap D st1 st2) as [x y]. unfold Cnorm2. cbn [fst snd]. pose proof (Rle_0_sqr (1 - x)) as H1. pose proof (Rle_0_sqr y) as H2. unfold Rsqr in H1, H2. lra.
Qed.

(** Only orthogonal states can be told apart with certainty. *)
Theorem C76_certain : forall D ncl full nodes ops its X rnd l1 l2 st1 st2, 1 <= dL D -> 2 <= dN D ->
  Forall2 (means D ncl) nodes ops -> proper_items D ncl its -> only its l1 st1 -> only its l2 st2 -> s_classical st1 = s_classical st2 ->
  overlap D st1 st2 <> RtoC 0 ->
  exists eps0, (0 < eps0)%R /\ forall eps, (0 < eps <= eps0)%R ->
    let c := Circuit D ncl eps full (fresh_keys D) nodes in
    exists out, evaluate_circuit X rnd c (coll_of c its) = Ok (coll_of c out) /\
      forall guess, guessing ncl guess -> (success out l1 l2 guess < s_cum st1 + s_cum st2)%R.
Proof.
  intros D ncl full nodes ops its X rnd l1 l2 st1 st2 HL HN HM Hp O1 O2 Hcl Hne. pose proof (only_proper D ncl its l1 st1 Hp O1) as P1. pose proof (only_proper D ncl its l2 st2 Hp O2) as P2.
  destruct (C76_helstrom D ncl full nodes ops its X rnd l1 l2 st1 st2 HL HN HM Hp O1 O2 Hcl) as (e & He & H). exists e. split; [exact He|]. intros eps Heps c. destruct (H eps Heps) as (out & E & B). exists out. split; [exact E|].
  intros guess Hg. eapply Rle_lt_trans; [now apply B|]. pose proof P1 as (_ & _ & _ & C1 & _). pose proof P2 as (_ & _ & _ & C2 & _).
  assert (0 < Cnorm2 (overlap D st1 st2))%R as Hpos by (destruct (Cnorm2_nonneg (overlap D st1 st2)) as [Hl|Hz]; [exact Hl|exfalso; apply Hne, Cnorm2_eq0; now symmetry]).
  set (x := (s_cum st1 * s_cum st2 * Cnorm2 (overlap D st1 st2))%R). assert (0 < x)%R by (apply Rmult_lt_0_compat; [nra|exact Hpos]). set (w := (s_cum st1 + s_cum st2)%R) in *. assert (0 < w)%R by (unfold w; lra).
  assert (sqrt (w * w - 4 * x) < w)%R; [|lra]. rewrite <- (sqrt_square w) at 3 by lra.
  destruct (Rle_lt_dec 0 (w * w - 4 * x)) as [Hp0|Hn0]; [apply sqrt_lt_1_alt; lra|rewrite (sqrt_neg_0 (w * w - 4 * x)) by lra; apply sqrt_lt_R0; nra].
Qed.


(** ** The bound is reached *)
(** A photon with one of the polarisations [t] and [- t]: a half wave plate and two detectors reach the bound. *)
Lemma rotated g t : wave_of (step (generic_matrix (PI / 8) PI) 0 1 (photon_at t)) g
  = wave_of [([1;0], RtoC ((cos t + sin t) / sqrt 2)); ([0;1], RtoC ((cos t - sin t) / sqrt 2))] g.
Proof.
  rewrite generic_pi. replace (2 * (PI / 8))%R with (PI / 4)%R by lra. rewrite cos_PI4, sin_PI4.
  unfold photon_at, step. cbn [flat_map map app nth put2 set_nth split_pair fst snd m00 m01 m10 m11]. unfold wave_of. rewrite ?Csum_cons, ?Csum_nil. cbn [fst snd].
  destruct (leqb g [1;0]), (leqb g [0;1]); apply C_eq; cbn; field; apply sqrt2_neq_0.
Qed.

Lemma diagonal_readings D u v P lab : 2 <= dL D -> dN D = 2 ->
  chance D [Detect [0] [0]] lab [0%R] (wave_of [([1;0], u); ([0;1], v)]) P
  = ((if P lab [1%R] then RtoC (Cnorm2 u) else RtoC 0) + (if P lab [0%R] then RtoC (Cnorm2 v) else RtoC 0))%C.
Proof.
  intros HL HN. assert (V : forall a b, a < 2 -> b < 2 -> valid D [a; b]) by (intros a b Ha Hb; split; [cbn; congruence|repeat constructor; lia]).
  rewrite (chance_detect D _ _ _ _ _ _ _ [[1]; [0]]).
  - rewrite !Csum_cons, !Csum_nil. unfold part. cbn [filter readout map fst leqb Nat.eqb andb nth].
    rewrite !chance_end; try (repeat (apply Forall_cons; [apply V; lia|]); apply Forall_nil); try (repeat constructor; cbn; tauto). rewrite !Rsum_cons, !Rsum_nil. cbn [snd noted noted_at length seq map nth Nat.eqb]. rewrite !Rplus_0_r, Cplus_0_r. reflexivity.
  - repeat (apply Forall_cons; [apply V; lia|]); apply Forall_nil.
  - repeat constructor; cbn; intuition discriminate.
  - intros p Hp. repeat (destruct Hp as [<-|Hp]; [cbn; tauto|]). destruct Hp.
  - intros o Ho. repeat (destruct Ho as [<-|Ho]; [eexists [_; 0]; split; [|reflexivity]; apply V; lia|]). destruct Ho.
Qed.
Lemma overlap_photons D st1 st2 s t : 2 <= dL D -> dN D = 2 -> (forall f, valid D f -> amp_of D st1 f = wave_of (photon_at s) f) -> (forall f, valid D f -> amp_of D st2 f = wave_of (photon_at t) f) ->
  overlap D st1 st2 = RtoC (cos (s - t)).
Proof.
  intros HL HN H1 H2. assert (V : forall a b, a < 2 -> b < 2 -> valid D [a; b]) by (intros a b Ha Hb; split; [cbn; congruence|repeat constructor; lia]).
  unfold overlap. transitivity (Csum (basis D) (fun f => Cconj (wave_of (photon_at t) f) * wave_of (photon_at s) f)%C).
  - apply Csum_ext. intros f Hf. apply basis_in in Hf. rewrite H1, H2 by exact Hf. ring.
  - rewrite (wave_sum D (photon_at s) (fun f => Cconj (wave_of (photon_at t) f))) by (repeat (apply Forall_cons; [apply V; lia|]); apply Forall_nil).
    unfold photon_at. rewrite !Csum_cons, !Csum_nil. cbn [fst snd]. unfold wave_of. rewrite !Csum_cons, !Csum_nil. cbn [fst snd leqb Nat.eqb andb]. rewrite cos_minus. apply C_eq; cbn; ring.
Qed.
Theorem C76_reached : forall L ord full its X rnd, 2 <= L -> let D := Dims L 2 ord in proper_items D 1 its ->
  exists nodes, program_nodes D 1 diagonal_test = Some nodes /\
  exists eps0, (0 < eps0)%R /\ forall eps, (0 < eps <= eps0)%R ->
    let circuit := Circuit D 1 eps full (fresh_keys D) nodes in
    exists out, evaluate_circuit X rnd circuit (coll_of circuit its) = Ok (coll_of circuit out) /\
      forall l1 l2 st1 st2 t, (0 <= t <= PI / 2)%R -> prepared D its l1 st1 [0%R] (photon_at t) -> prepared D its l2 st2 [0%R] (photon_at (- t)) -> s_cum st1 = s_cum st2 ->
        let p := s_cum st1 in let q := s_cum st2 in let guess := fun r => if shows 0 1 r then 1%R else 0%R in
        guessing 1 guess /\
        success out l1 l2 guess = ((p + q + sqrt ((p + q) * (p + q) - 4 * (p * q * Cnorm2 (overlap D st1 st2)))) / 2)%R.
Proof.
  intros L ord full its X rnd HL D Hp.
  assert (B : exists nodes, program_nodes D 1 diagonal_test = Some nodes) by (eexists; reflexivity). destruct B as (nodes & B). exists nodes. split; [exact B|].
  assert (HC : Forall (careful D 1) diagonal_test) by (unfold diagonal_test; repeat (apply Forall_cons || apply Forall_nil); cbn; unfold in_order; repeat split; try lia; repeat (constructor; cbn; try (intuition discriminate))).
  destruct (program_chance D 1 full diagonal_test nodes its X rnd) as (eps0 & H0 & H); try assumption; [cbn; lia|cbn; lia|]. exists eps0. split; [exact H0|]. intros eps He circuit.
  destruct (H eps He) as (out & Eo & Hpo & HW). exists out. split; [exact Eo|]. intros l1 l2 st1 st2 t Ht Hp1 Hp2 Hcum. cbv zeta. split; [intros r _; destruct (shows 0 1 r); lra|].
  assert (Sy : forall l (P : list R -> bool), says out l (fun r => if P r then 1 else 0)%R = weight_where out l P).
  { intros l P. unfold says, weight_where, from. rewrite Rsum_filter. apply Rsum_ext. intros it _. destruct (leqb _ _), (P _); cbn; ring. }
  assert (W : forall l st s (P : list R -> bool), prepared D its l st [0%R] (photon_at s) -> weight_where out l P = (s_cum st * ((if P [1%R] then (1 + sin (2 * s)) / 2 else 0) + (if P [0%R] then (1 - sin (2 * s)) / 2 else 0)))%R).
  { intros l st s P Hpr. apply RtoC_inj. rewrite (HW l st _ _ _ Hpr), RtoC_mult. f_equal. unfold diagonal_test. cbn [flat_map meaning app].
    etransitivity; [apply chance_element; try (cbn; lia); unfold photon_at; smalls|]. rewrite (chance_ext D _ _ _ _ _ _ (fun g _ => rotated g s)). rewrite diagonal_readings by (cbn; lia). rewrite leqb_refl. cbn [andb].
    assert (E1 : Cnorm2 (RtoC ((cos s + sin s) / sqrt 2)) = ((1 + sin (2 * s)) / 2)%R).
    { rewrite Cnorm2_RtoC. pose proof (sin2_cos2 s) as Hs. unfold Rsqr in Hs. rewrite sin_2a. pose proof sqrt2_neq_0. transitivity ((cos s + sin s) * (cos s + sin s) / (sqrt 2 * sqrt 2))%R; [field; assumption|]. rewrite sqrt_sqrt by lra. nra. }
    assert (E2 : Cnorm2 (RtoC ((cos s - sin s) / sqrt 2)) = ((1 - sin (2 * s)) / 2)%R).
    { rewrite Cnorm2_RtoC. pose proof (sin2_cos2 s) as Hs. unfold Rsqr in Hs. rewrite sin_2a. pose proof sqrt2_neq_0. transitivity ((cos s - sin s) * (cos s - sin s) / (sqrt 2 * sqrt 2))%R; [field; assumption|]. rewrite sqrt_sqrt by lra. nra. }
    rewrite E1, E2, RtoC_plus. f_equal; now destruct (P _). }
  assert (Sh : shows 0 1 [1%R] = true /\ shows 0 1 [0%R] = false) by (unfold shows; cbn [nth]; split; [destruct (Req_EM_T 1 1); [reflexivity|lra]|destruct (Req_EM_T 0 1); [lra|reflexivity]]).
  unfold success. rewrite Sy. replace (says out l2 (fun r => 1 - (if shows 0 1 r then 1 else 0))%R) with (weight_where out l2 (fun r => negb (shows 0 1 r))).
  2:{ rewrite <- Sy. unfold says. apply Rsum_ext. intros it _. cbv beta. destruct (shows 0 1 (s_classical (snd it))); cbn [negb]; ring. }
  rewrite (W _ _ _ _ Hp1), (W _ _ _ _ Hp2). destruct Sh as [-> ->]. cbn [negb].
  pose proof Hp1 as (_ & _ & _ & _ & A1). pose proof Hp2 as (_ & _ & _ & _ & A2). rewrite (overlap_photons D st1 st2 t (- t)) by (try assumption; reflexivity). rewrite <- Hcum.
  replace (t - - t)%R with (2 * t)%R by ring. replace (2 * - t)%R with (- (2 * t))%R by ring. rewrite sin_neg, Cnorm2_RtoC.
  replace ((s_cum st1 + s_cum st1) * (s_cum st1 + s_cum st1) - 4 * (s_cum st1 * s_cum st1 * (cos (2 * t) * cos (2 * t))))%R with ((2 * s_cum st1 * sin (2 * t)) * (2 * s_cum st1 * sin (2 * t)))%R.
  - assert (0 <= sin (2 * t))%R by (apply sin_ge_0; lra). assert (Hcp : (0 <= s_cum st1)%R).
    { destruct Hp1 as ((k & Hk) & _), Hp as (_ & _ & HF). rewrite Forall_forall in HF. destruct (HF _ Hk) as (_ & _ & _ & [Hc _] & _). cbn [snd] in Hc. lra. }
    rewrite sqrt_square by (apply Rmult_le_pos; lra). field.
  - pose proof (sin2_cos2 (2 * t)) as Hs. unfold Rsqr in Hs. nra.
Qed.

(** Two states with these polarisations. *)
Definition polarised (lab : nat) (t : R) : ident * state := ([lab], State [lab] 1 [([1;0], (RtoC (cos t), cos t * cos t)%R); ([0;1], (RtoC (sin t), sin t * sin t)%R)] [0%R] [] []).
Example C76_case : let D := Dims 2 2 true in let its := [polarised 1 (PI / 6); polarised 2 (- (PI / 6))] in
  proper_items D 1 its /\ only its [1] (snd (polarised 1 (PI / 6))) /\ only its [2] (snd (polarised 2 (- (PI / 6)))) /\
  prepared D its [1] (snd (polarised 1 (PI / 6))) [0%R] (photon_at (PI / 6)) /\ prepared D its [2] (snd (polarised 2 (- (PI / 6)))) [0%R] (photon_at (- (PI / 6))) /\
  overlap D (snd (polarised 1 (PI / 6))) (snd (polarised 2 (- (PI / 6)))) = RtoC (1 / 2).
Proof.
  assert (HP : forall n t, cos t <> 0%R -> sin t <> 0%R -> proper_state (Dims 2 2 true) 1 (snd (polarised n t))).
  { intros n t H1 H2. pose proof (sin2_cos2 t) as Hs. unfold Rsqr in Hs. cbn [snd polarised]. split; [|split; [|split; [|split; [|split; reflexivity]]]].
    - split; [repeat constructor; cbn; intuition discriminate|]. intros nm. cbn. intros [<-|[<-|[]]]; [exists [1;0]|exists [0;1]]; (split; [|reflexivity]); repeat constructor.
    - intros nm x p [E|[E|[]]]; injection E as <- <- <-; (split; [intro H; now apply RtoC_inj in H|now rewrite Cnorm2_RtoC]).
    - unfold state_norm2. cbn. rewrite !Cnorm2_RtoC. lra.
    - cbn. lra. }
  assert (HA : forall n t f, valid (Dims 2 2 true) f -> amp_of (Dims 2 2 true) (snd (polarised n t)) f = wave_of (photon_at t) f).
  { intros n t f Vf. apply basis_in in Vf. vm_compute in Vf. repeat (destruct Vf as [<-|Vf]; [cbn; ring|]). destruct Vf. }
  assert (HD : forall n m s t, n <> m -> let its := [polarised n s; polarised m t] in prepared (Dims 2 2 true) its [n] (snd (polarised n s)) [0%R] (photon_at s) /\ prepared (Dims 2 2 true) its [m] (snd (polarised m t)) [0%R] (photon_at t)).
  { intros n m s t Hn its. split.
    - split; [exists [n]; now left|]. split; [reflexivity|]. split; [|split; [reflexivity|apply HA]].
      intros k k' s1 s2 [H1|[H1|[]]] [H2|[H2|[]]] E1 E2; injection H1 as <- <-; injection H2 as <- <-; cbn in E1, E2; congruence.
    - split; [exists [m]; right; now left|]. split; [reflexivity|]. split; [|split; [reflexivity|apply HA]].
      intros k k' s1 s2 [H1|[H1|[]]] [H2|[H2|[]]] E1 E2; injection H1 as <- <-; injection H2 as <- <-; cbn in E1, E2; congruence. }
  assert (Hs : sin (PI / 6) <> 0%R) by (rewrite sin_PI6; lra). assert (Hc : cos (PI / 6) <> 0%R) by (pose proof PI_RGT_0; apply Rgt_not_eq, cos_gt_0; lra).
  cbv zeta. split; [|split; [|split; [|split; [|split]]]].
  - split; [discriminate|]. split; [repeat constructor; cbn; intuition discriminate|]. apply Forall_cons; [now apply HP|]. apply Forall_cons; [|apply Forall_nil]. apply HP; rewrite ?cos_neg, ?sin_neg; lra.
  - now exists [1].
  - now exists [2].
  - apply (HD 1 2); discriminate.
  - apply (HD 1 2); discriminate.
  - rewrite (overlap_photons _ _ _ (PI / 6) (- (PI / 6))) by (try (cbn; lia); apply HA). f_equal. replace (PI / 6 - - (PI / 6))%R with (PI / 3)%R by field. apply cos_PI3.
Qed.
Print Assumptions C76_helstrom.
Print Assumptions C76_similar.
Print Assumptions C76_continuous.
Print Assumptions C76_certain.
Print Assumptions C76_reached.
