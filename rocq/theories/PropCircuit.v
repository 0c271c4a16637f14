(** C62: what a whole circuit computes. *)
From Coq Require Import Reals List Arith Lia Lra Bool Permutation.
From Coquelicot Require Import Complex.
From Verif Require Import Prelude NamesModel NamesSpec NamesProofs FockModel FockSpec FockProofs GateProofs
  OpticalModel OpticalProofs StateModel StateSpec StateProofs CollectionModel EvalModel EvalSpec EvalProofs MeasureSpec MeasureProofs
  InterferenceSpec ArrangementProofs PropCleanup CircuitSpec CircuitProofs EnsembleProofs.
Import ListNotations.

Lemma proper_tracks D ncl its : proper_items D ncl its -> tracks D ncl its (branches_of D its).
Proof.
  intros (Hne & ND & HF). split; [exact Hne|]. split; [exact ND|]. unfold branches_of. induction HF as [|it l H HF IH]; [constructor|]. cbn [map].
  constructor; [now apply rep_branch_of|]. destruct l as [|it' l']; [constructor|]. apply IH; [discriminate|now inversion ND].
Qed.
Lemma tracks_items D ncl its bs : tracks D ncl its bs -> proper_items D ncl its.
Proof. intro H. pose proof (tracks_proper D ncl its bs H) as Hp. destruct H as (H1 & H2 & _). split; [exact H1|]. split; [exact H2|]. now apply Forall_forall. Qed.

(** Every circuit of optical elements, custom Fock matrices, classical nodes, classically controlled
    nodes and measurements, in any order and number, evaluates without exception, and the states of the
    result are exactly the branches of non-zero weight the operations produce one after the other:
    same label, same classical values, and the square root of cumulative_probability times the
    amplitudes is the wave function of the branch. *)
Theorem C62_branches : forall D ncl eps full nodes ops its X rnd, 1 <= dL D -> 2 <= dN D -> (0 < eps)%R ->
  Forall2 (means D ncl) nodes ops -> proper_items D ncl its -> clear_throughout D eps ops (branches_of D its) ->
  let c := Circuit D ncl eps full (fresh_keys D) nodes in
  exists its', evaluate_circuit X rnd c (coll_of c its) = Ok (coll_of c its') /\ proper_items D ncl its' /\
    same_branches D (branches_of D its') (filter (nonzero D) (run D ops (branches_of D its))).
Proof.
  intros D ncl eps full nodes ops its X rnd HL HN He HM Hp Hcl c.
  destruct (eval_tracks D ncl eps full nodes X rnd HL HN He ops HM (length nodes) (length nodes) 0 its (branches_of D its) 0 (le_n _) eq_refl (proper_tracks D ncl its Hp) Hcl)
    as (its' & bs' & seed' & E & Ht & HPm).
  exists its'. split; [|split; [exact (tracks_items D ncl its' bs' Ht)|]].
  - unfold evaluate_circuit, evaluate_nodes. rewrite evaluate_from_evalR. cbn [c c_nodes]. fold c in E. rewrite E. reflexivity.
  - exists bs'. split; [exact HPm|]. destruct Ht as (_ & _ & HF). unfold branches_of. apply (proj1 (Forall2_map_l _ _ _ _)) in HF. clear - HF. induction HF as [|it b l m (H1 & H2 & H3 & H4) HF IH]; [constructor|]. cbn [map].
    constructor; [|exact IH]. split; [exact H2|]. split; [exact H3|]. intros f Vf. cbn. symmetry. now apply H4.
Qed.

(** The threshold below which components are dropped can always be chosen so small that the result is exact. *)
Theorem C62_exact : forall D ncl full nodes ops its X rnd, 1 <= dL D -> 2 <= dN D ->
  Forall2 (means D ncl) nodes ops -> proper_items D ncl its ->
  exists eps0, (0 < eps0)%R /\ forall eps, (0 < eps <= eps0)%R ->
  let c := Circuit D ncl eps full (fresh_keys D) nodes in
  exists its', evaluate_circuit X rnd c (coll_of c its) = Ok (coll_of c its') /\ proper_items D ncl its' /\
    same_branches D (branches_of D its') (filter (nonzero D) (run D ops (branches_of D its))).
Proof.
  intros D ncl full nodes ops its X rnd HL HN HM Hp. destruct (clear_throughout_exists D ops (branches_of D its)) as (e & He & H). exists e. split; [exact He|].
  intros eps [H1 H2] c. apply C62_branches; try assumption. now apply H.
Qed.

Lemma proper_cum D ncl its : proper_items D ncl its -> Forall (fun it : ident * state => (0 <= s_cum (snd it))%R) its.
Proof. intros (_ & _ & H). eapply Forall_impl; [|exact H]. cbv beta. intros it (_ & _ & _ & Hc & _). lra. Qed.
Lemma density_result D ncl its ops its' l r f g : proper_items D ncl its' ->
  same_branches D (branches_of D its') (filter (nonzero D) (run D ops (branches_of D its))) -> valid D f -> valid D g ->
  density_matrix D its' l r f g = density (run D ops (branches_of D its)) l r f g.
Proof.
  intros Hp H Vf Vg. rewrite <- density_branches by exact (proper_cum D ncl its' Hp). now apply (same_branches_ensemble D _ _ H).
Qed.
(** The density matrices of the result. *)
Theorem C62_density : forall D ncl eps full nodes ops its X rnd, 1 <= dL D -> 2 <= dN D -> (0 < eps)%R ->
  Forall2 (means D ncl) nodes ops -> proper_items D ncl its -> clear_throughout D eps ops (branches_of D its) ->
  let c := Circuit D ncl eps full (fresh_keys D) nodes in
  exists its', evaluate_circuit X rnd c (coll_of c its) = Ok (coll_of c its') /\ proper_items D ncl its' /\
    forall l r f g, valid D f -> valid D g -> density_matrix D its' l r f g = density (run D ops (branches_of D its)) l r f g.
Proof.
  intros D ncl eps full nodes ops its X rnd HL HN He HM Hp Hcl c. destruct (C62_branches D ncl eps full nodes ops its X rnd HL HN He HM Hp Hcl) as (its' & E & Hp' & HB).
  exists its'. split; [exact E|]. split; [exact Hp'|]. intros l r f g Vf Vg. now apply (density_result D ncl).
Qed.

(** Only the density matrices of the input matter: collections that describe the same mixture by
    different states give results that describe the same mixture. *)
Theorem C62_only_the_mixture_matters : forall D ncl eps full nodes ops its its2 X rnd rnd', 1 <= dL D -> 2 <= dN D -> (0 < eps)%R ->
  Forall2 (means D ncl) nodes ops -> proper_items D ncl its -> proper_items D ncl its2 ->
  clear_throughout D eps ops (branches_of D its) -> clear_throughout D eps ops (branches_of D its2) ->
  indistinguishable D its its2 ->
  let c := Circuit D ncl eps full (fresh_keys D) nodes in
  exists out out2, evaluate_circuit X rnd c (coll_of c its) = Ok (coll_of c out) /\ evaluate_circuit X rnd' c (coll_of c its2) = Ok (coll_of c out2) /\
    indistinguishable D out out2.
Proof.
  intros D ncl eps full nodes ops its its2 X rnd rnd' HL HN He HM Hp Hp2 Hcl Hcl2 Hi c.
  destruct (C62_density D ncl eps full nodes ops its X rnd HL HN He HM Hp Hcl) as (out & E & _ & Hd). destruct (C62_density D ncl eps full nodes ops its2 X rnd' HL HN He HM Hp2 Hcl2) as (out2 & E2 & _ & Hd2).
  exists out, out2. split; [exact E|]. split; [exact E2|]. intros l r f g Vf Vg. rewrite Hd, Hd2 by assumption.
  apply (run_same D ops _ _); try assumption. intros l' r' f' g' Vf' Vg'. rewrite !density_branches by (eapply proper_cum; eassumption). now apply Hi.
Qed.

(** A collection is treated as a mixture: the density matrices of the result of a collection are the
    sums of those of the results of its parts. *)
Theorem C62_mixture : forall D ncl eps full nodes ops its1 its2 X rnd rnd1 rnd2, 1 <= dL D -> 2 <= dN D -> (0 < eps)%R ->
  Forall2 (means D ncl) nodes ops -> its1 <> [] -> its2 <> [] -> proper_items D ncl (its1 ++ its2) ->
  clear_throughout D eps ops (branches_of D (its1 ++ its2)) ->
  let c := Circuit D ncl eps full (fresh_keys D) nodes in
  exists out out1 out2, evaluate_circuit X rnd c (coll_of c (its1 ++ its2)) = Ok (coll_of c out) /\
    evaluate_circuit X rnd1 c (coll_of c its1) = Ok (coll_of c out1) /\ evaluate_circuit X rnd2 c (coll_of c its2) = Ok (coll_of c out2) /\
    forall l r f g, valid D f -> valid D g ->
      density_matrix D out l r f g = (density_matrix D out1 l r f g + density_matrix D out2 l r f g)%C.
Proof.
  intros D ncl eps full nodes ops its1 its2 X rnd rnd1 rnd2 HL HN He HM N1 N2 Hp Hcl c.
  assert (Hb : branches_of D (its1 ++ its2) = branches_of D its1 ++ branches_of D its2) by apply map_app.
  assert (Hp1 : proper_items D ncl its1 /\ proper_items D ncl its2).
  { destruct Hp as (_ & ND & HF). unfold dkeys in ND. rewrite map_app in ND. apply Forall_app in HF. split; (split; [assumption|split; [|apply HF]]).
    - now apply PropCleanup.NoDup_app_l in ND.
    - now apply PropCleanup.NoDup_app_r in ND. }
  destruct Hp1 as [Hp1 Hp2].
  assert (Hcl1 : clear_throughout D eps ops (branches_of D its1) /\ clear_throughout D eps ops (branches_of D its2)).
  { split; intro n; apply (clear_incl _ _ _ _) with (2 := Hcl n); apply run_incl; rewrite Hb; [apply incl_appl|apply incl_appr]; apply incl_refl. }
  destruct (C62_density D ncl eps full nodes ops _ X rnd HL HN He HM Hp Hcl) as (out & E & _ & Hd). destruct (C62_density D ncl eps full nodes ops its1 X rnd1 HL HN He HM Hp1 (proj1 Hcl1)) as (out1 & E1 & _ & Hd1).
  destruct (C62_density D ncl eps full nodes ops its2 X rnd2 HL HN He HM Hp2 (proj2 Hcl1)) as (out2 & E2 & _ & Hd2).
  exists out, out1, out2. repeat (split; [assumption|]). intros l r f g Vf Vg. rewrite Hd, Hd1, Hd2 by assumption. rewrite Hb, run_app_list. unfold density. apply Csum_app.
Qed.

(** ** Weights *)
Definition trace_of (P : ident -> list R -> bool) : observable := fun l r f g => if P l r then if leqb f g then RtoC 1 else RtoC 0 else RtoC 0.
Lemma expect1_trace D P b : expect1 D (trace_of P) b = if P (b_label b) (b_reg b) then RtoC (weight D b) else RtoC 0.
Proof.
  unfold expect1, trace_of. destruct (P _ _).
  - unfold weight. rewrite <- Csum_RtoC. apply Csum_ext. intros f Hf. rewrite (Csum_single (basis D) f); [|apply basis_nodup|exact Hf|].
    + rewrite leqb_refl. rewrite <- Cconj_mult_norm2. ring.
    + intros g _ Hn. destruct (leqb f g) eqn:E; [apply leqb_spec in E; congruence|ring].
  - apply Csum_zero. intros f _. apply Csum_zero. intros g _. ring.
Qed.
Lemma branch_weight D ncl st : 1 <= dL D -> proper_state D ncl st -> weight D (branch_of D st) = s_cum st.
Proof. intros HL H. apply (rep_weight D ncl); [exact HL|now apply rep_branch_of]. Qed.
Lemma expect_branches D ncl its P : 1 <= dL D -> proper_items D ncl its ->
  expect D (branches_of D its) (trace_of P) = RtoC (Rsum its (fun it => if P (s_init (snd it)) (s_classical (snd it)) then s_cum (snd it) else 0%R)).
Proof.
  intros HL (_ & _ & HF). unfold expect, branches_of. rewrite Csum_map, <- Csum_RtoC. apply Csum_ext. intros it Hin. rewrite Forall_forall in HF. rewrite expect1_trace, (branch_weight D ncl) by (try exact HL; now apply HF).
  cbn. now destruct (P _ _).
Qed.
(** Unitary operations conserve weight. *)
Definition isometric (D : dims) (ncl : nat) (op : operation) : Prop :=
  match op with
  | Element A h v => forall r, length r = ncl -> forall f g, valid D f -> valid D g -> Csum (basis D) (fun k => pair_amp D (A r) h v f k * Cconj (pair_amp D (A r) h v g k))%C = if leqb f g then RtoC 1 else RtoC 0
  | Transform T => forall f g, valid D f -> valid D g -> Csum (basis D) (fun k => T f k * Cconj (T g k))%C = if leqb f g then RtoC 1 else RtoC 0
  | Compute F => forall r, length r = ncl -> length (F r) = ncl
  | Detect _ _ => True
  end.
Lemma index_eqb D f g : 1 <= dL D -> valid D f -> valid D g -> (index_of_values D f =? index_of_values D g) = leqb f g.
Proof.
  intros HL Vf Vg. destruct (leqb f g) eqn:E; [apply leqb_spec in E; subst; apply Nat.eqb_refl|]. apply Nat.eqb_neq. intro H. apply index_of_values_inj in H; try assumption. subst. rewrite leqb_refl in E. discriminate.
Qed.
Lemma unitary_isometric D M (T : values -> values -> C) f g : 1 <= dL D -> unitary_mat (size_of_basis D) M ->
  (forall f g, valid D f -> valid D g -> T f g = M (index_of_values D g) (index_of_values D f)) -> valid D f -> valid D g ->
  Csum (basis D) (fun k => T f k * Cconj (T g k))%C = if leqb f g then RtoC 1 else RtoC 0.
Proof.
  intros HL HM HT Vf Vg. rewrite basis_Csum by exact HL. rewrite leqb_sym, <- (index_eqb D) by assumption.
  destruct (HM (index_of_values D g) (index_of_values D f) ltac:(now apply index_of_values_bound) ltac:(now apply index_of_values_bound)) as [_ <-]. apply Csum_ext. intros k Hk. apply in_seq in Hk.
  rewrite !HT by (try assumption; now apply values_from_index_valid). rewrite index_values_roundtrip by (try exact HL; lia). ring.
Qed.
Lemma means_isometric D ncl nd op : 1 <= dL D -> 2 <= dN D -> means D ncl nd op -> isometric D ncl op.
Proof.
  intros HL HN H. destruct H as [A h v rest HP HU|t p vars h v rest A HP Ha|M T HM HT|f nv chs F Hf|opt cl H1 H2 H3]; cbn [isometric]; auto.
  - intros r Hr f g Vf Vg. apply (unitary_isometric D (full_matrix D A (h :: v :: rest))); try assumption; [now apply full_matrix_unitary|]. intros f' g' Vf' Vg'. now apply pair_amp_matrix.
  - intros r Hr f g Vf Vg. destruct (Ha r Hr) as (t' & p' & _ & ->). rewrite <- generic_tr. apply (unitary_isometric D (full_matrix D (generic_matrix t' p') (h :: v :: rest))); try assumption; [apply full_matrix_unitary; try assumption; apply generic_unitary|].
    intros f' g' Vf' Vg'. now apply pair_amp_matrix.
  - intros f g Vf Vg. now apply (unitary_isometric D M T f g).
  - intros r Hr. now apply Hf.
Qed.
Lemma before_label D ncl op (P : ident -> bool) : isometric D ncl op -> agree D ncl (before D op (trace_of (fun l _ => P l))) (trace_of (fun l _ => P l)).
Proof.
  intros HI l r f g Hr Vf Vg. unfold trace_of. destruct op as [A h v|T|F|opt cl]; cbn [before isometric] in *.
  - destruct (P l); [|apply Csum_zero; intros f' _; apply Csum_zero; intros g' _; ring]. rewrite <- (HI r Hr f g Vf Vg). apply Csum_ext. intros f' Hf'. rewrite (Csum_single _ f'); [rewrite leqb_refl; ring|apply basis_nodup|exact Hf'|].
    intros g' _ Hn. destruct (leqb f' g') eqn:E; [apply leqb_spec in E; congruence|ring].
  - destruct (P l); [|apply Csum_zero; intros f' _; apply Csum_zero; intros g' _; ring]. rewrite <- (HI f g Vf Vg). apply Csum_ext. intros f' Hf'. rewrite (Csum_single _ f'); [rewrite leqb_refl; ring|apply basis_nodup|exact Hf'|].
    intros g' _ Hn. destruct (leqb f' g') eqn:E; [apply leqb_spec in E; congruence|ring].
  - reflexivity.
  - destruct (leqb (readout opt f) (readout opt g)) eqn:E; [reflexivity|]. destruct (P l); [|reflexivity]. destruct (leqb f g) eqn:E1; [|reflexivity]. apply leqb_spec in E1. subst. rewrite leqb_refl in E. discriminate.
Qed.
Lemma registers_run D ncl ops : forall E, Forall (isometric D ncl) ops -> registers ncl E -> registers ncl (run D ops E).
Proof.
  induction ops as [|op ops IH]; intros E HI HE; [exact HE|]. inversion HI as [|? ? H1 H2]; subst. rewrite run_cons. apply IH; [exact H2|]. intros b Hb. apply in_flat_map in Hb. destruct Hb as (b0 & Hb0 & Hb).
  specialize (HE b0 Hb0). destruct op as [A h v|T|F|opt cl]; cbn [perform] in Hb.
  - destruct Hb as [<-|[]]. exact HE.
  - destruct Hb as [<-|[]]. exact HE.
  - destruct Hb as [<-|[]]. now apply H1.
  - apply in_map_iff in Hb. destruct Hb as (o & <- & _). cbn. now rewrite noted_length.
Qed.
Lemma run_label D ncl ops (P : ident -> bool) : forall E, Forall (isometric D ncl) ops -> registers ncl E ->
  expect D (run D ops E) (trace_of (fun l _ => P l)) = expect D E (trace_of (fun l _ => P l)).
Proof.
  induction ops as [|op ops IH]; intros E HI HE; [reflexivity|]. rewrite run_cons. pose proof (registers_run D ncl [op] E) as Hreg. inversion HI as [|? ? H1 H2]; subst.
  rewrite IH; [|exact H2|apply Hreg; [now constructor|exact HE]]. rewrite expect_flat. now apply (expect_agree D ncl); [apply before_label|].
Qed.
Lemma means_all D ncl nodes ops : 1 <= dL D -> 2 <= dN D -> Forall2 (means D ncl) nodes ops -> Forall (isometric D ncl) ops.
Proof. intros HL HN. induction 1 as [|nd op nds ops H HF IH]; constructor; [now apply (means_isometric D ncl nd)|exact IH]. Qed.
Lemma proper_registers D ncl its : proper_items D ncl its -> registers ncl (branches_of D its).
Proof.
  intros (_ & _ & HF) b Hb. unfold branches_of in Hb. apply in_map_iff in Hb. destruct Hb as (it & <- & Hin). rewrite Forall_forall in HF. destruct (HF it Hin) as (_ & _ & _ & _ & Hl & _). exact Hl.
Qed.
Lemma ensemble_result D ncl its ops its' : proper_items D ncl its' ->
  same_branches D (branches_of D its') (filter (nonzero D) (run D ops (branches_of D its))) ->
  forall o, expect D (branches_of D its') o = expect D (run D ops (branches_of D its)) o.
Proof. intros Hp H. apply same_ensemble_expect. now apply same_branches_ensemble. Qed.

(** The total weight of the states that come from an input state is conserved. *)
Theorem C62_weights : forall D ncl eps full nodes ops its X rnd l, 1 <= dL D -> 2 <= dN D -> (0 < eps)%R ->
  Forall2 (means D ncl) nodes ops -> proper_items D ncl its -> clear_throughout D eps ops (branches_of D its) ->
  let c := Circuit D ncl eps full (fresh_keys D) nodes in
  exists its', evaluate_circuit X rnd c (coll_of c its) = Ok (coll_of c its') /\ weight_of_label its' l = weight_of_label its l.
Proof.
  intros D ncl eps full nodes ops its X rnd l HL HN He HM Hp Hcl c. destruct (C62_branches D ncl eps full nodes ops its X rnd HL HN He HM Hp Hcl) as (its' & E & Hp' & HB).
  exists its'. split; [exact E|]. apply RtoC_eq_inv. pose proof (ensemble_result D ncl its ops its' Hp' HB (trace_of (fun l' _ => leqb l' l))) as H.
  rewrite (run_label D ncl) in H by (try exact (means_all D ncl nodes ops HL HN HM); exact (proper_registers D ncl its Hp)). rewrite !(expect_branches D ncl) in H by assumption. exact H.
Qed.

(** The probability with which classical values occur is the trace of the density matrix. *)
Theorem C62_probability : forall D ncl its l r, 1 <= dL D -> proper_items D ncl its ->
  RtoC (prob_of_values its l r) = Csum (basis D) (fun f => density_matrix D its l r f f).
Proof.
  intros D ncl its l r HL (_ & _ & HF). unfold density_matrix. rewrite Csum_swap. unfold prob_of_values. rewrite <- Csum_RtoC. apply Csum_ext. intros it Hin. rewrite Forall_forall in HF. destruct (HF it Hin) as (Hwf & _ & Hn & _).
  destruct (leqb _ _); [|symmetry; apply Csum_zero; reflexivity]. destruct (list_eq_dec _ _ _); [|symmetry; apply Csum_zero; reflexivity].
  rewrite (Csum_ext _ _ (fun f => RtoC (s_cum (snd it) * Cnorm2 (amp_of D (snd it) f)))).
  - rewrite Csum_RtoC, Rsum_scal_l, norm_amp, Hn by assumption. f_equal. ring.
  - intros f _. rewrite RtoC_mult, <- Cconj_mult_norm2. ring.
Qed.
Print Assumptions C62_branches.
Print Assumptions C62_exact.
Print Assumptions C62_density.
Print Assumptions C62_only_the_mixture_matters.
Print Assumptions C62_mixture.
Print Assumptions C62_weights.
Print Assumptions C62_probability.
