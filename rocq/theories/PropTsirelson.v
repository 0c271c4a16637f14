(** * C72: no experiment violates a Bell inequality by more than quantum mechanics allows *)
From Coq Require Import Reals List Arith Lia Lra Bool Permutation.
From Coquelicot Require Import Complex.
From Verif Require Import Prelude NamesModel NamesSpec NamesProofs FockModel FockSpec FockProofs GateProofs
  OpticalModel OpticalProofs StateModel StateSpec CollectionModel EvalModel MeasureSpec MeasureProofs
  InterferenceSpec ArrangementProofs PermanentProofs CircuitSpec CircuitProofs EnsembleProofs PropCircuit ProtocolSpec ProtocolProofs PropProtocol
  TsirelsonSpec TsirelsonProofs SeparableProofs ProgramModel ProgramSpec PropProgram ApplicationSpec PropBell.
From Verif Require PropOptical.
Import ListNotations.

Definition labelled (l : ident) (o : observable) : observable := fun l' r f g => if leqb l' l then o l' r f g else RtoC 0.
Lemma labelled_before D op l o l' r f g : before D op (labelled l o) l' r f g = labelled l (before D op o) l' r f g.
Proof.
  unfold labelled. destruct op as [A h v|T|F|opt cl]; cbn [before]; destruct (leqb l' l); try reflexivity.
  - apply Csum_zero. intros. apply Csum_zero. intros. ring.
  - apply Csum_zero. intros. apply Csum_zero. intros. ring.
  - now destruct (leqb _ _).
Qed.
Lemma labelled_before_all D ncl ops l o : Forall (isometric D ncl) ops -> agree D ncl (before_all D ops (labelled l o)) (labelled l (before_all D ops o)).
Proof.
  induction 1 as [|op ops H HF IH]; intros l' r f g Hr Vf Vg; [reflexivity|]. cbn [before_all fold_right].
  etransitivity; [apply (before_agree D ncl op _ _ ltac:(intros r' Hr'; destruct op; cbn [isometric] in H; auto) IH l' r f g Hr Vf Vg)|]. apply labelled_before.
Qed.
Lemma expect_labelled D l o E : expect D E (labelled l o) = expect D (filter (fun b => leqb (b_label b) l) E) o.
Proof.
  unfold expect. rewrite Csum_filter. apply Csum_ext. intros b _. unfold expect1, labelled. destruct (leqb (b_label b) l); [reflexivity|].
  apply Csum_zero. intros. apply Csum_zero. intros. ring.
Qed.
Lemma branches_from D l its : filter (fun b => leqb (b_label b) l) (branches_of D its) = branches_of D (from l its).
Proof. unfold branches_of, from. induction its as [|it its IH]; [reflexivity|]. cbn [map filter branch_of b_label]. destruct (leqb (s_init (snd it)) l); cbn [map]; now rewrite IH. Qed.
Lemma nrm_branch D ncl st : 1 <= dL D -> proper_state D ncl st -> nrm D (b_wave (branch_of D st)) = s_cum st.
Proof.
  intros HL (Hwf & _ & Hn & Hc & _). unfold nrm. cbn [branch_of b_wave]. rewrite (Rsum_ext _ _ (fun f => s_cum st * Cnorm2 (amp_of D st f))%R).
  - rewrite Rsum_scal_l, norm_amp, Hn by assumption. ring.
  - intros f _. rewrite Cnorm2_mult, Cnorm2_RtoC, sqrt_sqrt by lra. reflexivity.
Qed.
Lemma expect_diag D c b : expect1 D (diag c) b = RtoC (c (b_reg b) * nrm D (b_wave b)).
Proof.
  unfold expect1, diag. rewrite RtoC_mult. unfold nrm. rewrite <- Csum_RtoC, <- Csum_scal_l. apply Csum_ext. intros f Hf. rewrite (Csum_single _ f); [|apply basis_nodup|exact Hf|].
  - rewrite leqb_refl, <- Cconj_mult_norm2. ring.
  - intros g _ Hn. destruct (leqb f g) eqn:E; [apply leqb_spec in E; congruence|ring].
Qed.
Lemma expect_from D ncl c l its : 1 <= dL D -> proper_items D ncl its ->
  expect D (branches_of D (from l its)) (diag c) = RtoC (Rsum (from l its) (fun it => s_cum (snd it) * c (s_classical (snd it)))%R).
Proof.
  intros HL (_ & _ & HF). unfold expect, branches_of. rewrite Csum_map, <- Csum_RtoC. apply Csum_ext. intros it Hin. rewrite expect_diag. unfold from in Hin. apply filter_In in Hin. rewrite Forall_forall in HF.
  rewrite (nrm_branch D ncl) by (try assumption; now apply HF). cbn [branch_of b_reg]. f_equal. ring.
Qed.
Lemma registers_from D ncl l its : proper_items D ncl its -> registers ncl (branches_of D (from l its)).
Proof. intros Hp b Hb. rewrite <- branches_from in Hb. apply filter_In in Hb. now apply (proper_registers D ncl its Hp). Qed.
Lemma alike_from D ncl Q l l' its its' : proper_items D ncl its -> proper_items D ncl its' -> Forall2 (prepared_alike D Q) (from l its) (from l' its') ->
  Forall2 (alike D (fun c => negb (Q c))) (branches_of D (from l its)) (branches_of D (from l' its')).
Proof.
  intros (_ & _ & HF) (_ & _ & HF'). assert (G : Forall (fun it => proper_state D ncl (snd it)) (from l its)) by (apply Forall_forall; intros it Hin; unfold from in Hin; apply filter_In in Hin; rewrite Forall_forall in HF; now apply HF).
  assert (G' : Forall (fun it => proper_state D ncl (snd it)) (from l' its')) by (apply Forall_forall; intros it Hin; unfold from in Hin; apply filter_In in Hin; rewrite Forall_forall in HF'; now apply HF').
  revert G G'. unfold branches_of. generalize (from l its) (from l' its'). intros a b G G' H. revert G G'. induction H as [|it it' a b (H1 & H2 & H3) HF2 IH]; intros G G'; [constructor|]. inversion G as [|? ? P1 P2]; subst. inversion G' as [|? ? P1' P2']; subst. cbn [map]. constructor; [|now apply IH].
  destruct P1 as (_ & _ & _ & _ & Hl & _). destruct P1' as (_ & _ & _ & _ & Hl' & _). split; cbn [branch_of b_reg b_wave].
  - apply inside_outside; [congruence|exact H3].
  - intros f Vf. now rewrite H1, H2.
Qed.

Lemma four_runs : forall D ncl full SA KA QA SB KB QB (alice bob : bool -> list operation) (ops : bool -> bool -> list operation)
    (nodes : bool -> bool -> list node) (its : bool -> bool -> items) (l : bool -> bool -> ident) (a b : bool -> list R -> R) X rnd,
  1 <= dL D -> 2 <= dN D -> separate SA KA QA SB KB QB ->
  (forall x, Forall (local_to D ncl SA KA QA) (alice x)) -> (forall y, Forall (local_to D ncl SB KB QB) (bob y)) ->
  (forall x y, shuffle (alice x) (bob y) (ops x y)) -> (forall x y, Forall2 (means D ncl) (nodes x y) (ops x y)) ->
  (forall x y, proper_items D ncl (its x y)) ->
  (forall x, Forall2 (prepared_alike D QA) (from (l x false) (its x false)) (from (l x true) (its x true))) ->
  (forall y, Forall2 (prepared_alike D QB) (from (l false y) (its false y)) (from (l true y) (its true y))) ->
  (forall x, verdict ncl QA (a x)) -> (forall y, verdict ncl QB (b y)) ->
  exists eps0, (0 < eps0)%R /\ forall eps, (0 < eps <= eps0)%R ->
    let circuit x y := Circuit D ncl eps full (fresh_keys D) (nodes x y) in
    exists out : bool -> bool -> items,
      (forall x y, evaluate_circuit X rnd (circuit x y) (coll_of (circuit x y) (its x y)) = Ok (coll_of (circuit x y) (out x y))) /\
      forall x y, mean_product (out x y) (l x y) (a x) (b y) = fst (expect D (branches_of D (from (l x y) (its x y))) (comp D (before_all D (alice x) (diag (a x))) (before_all D (bob y) (diag (b y))))).
Proof.
  intros D ncl full SA KA QA SB KB QB alice bob ops nodes its l a b X rnd HL HN HSep HA HB Hsh HM Hp HQA HQB Va Vb.
  assert (HR : exists e : bool -> bool -> R, forall x y, (0 < e x y)%R /\ forall eps, (0 < eps <= e x y)%R ->
    let c := Circuit D ncl eps full (fresh_keys D) (nodes x y) in exists out, evaluate_circuit X rnd c (coll_of c (its x y)) = Ok (coll_of c out) /\
      mean_product out (l x y) (a x) (b y) = fst (expect D (branches_of D (from (l x y) (its x y))) (comp D (before_all D (alice x) (diag (a x))) (before_all D (bob y) (diag (b y)))))).
  { assert (HR : forall x y, exists e, (0 < e)%R /\ forall eps, (0 < eps <= e)%R ->
      let c := Circuit D ncl eps full (fresh_keys D) (nodes x y) in exists out, evaluate_circuit X rnd c (coll_of c (its x y)) = Ok (coll_of c out) /\
        mean_product out (l x y) (a x) (b y) = fst (expect D (branches_of D (from (l x y) (its x y))) (comp D (before_all D (alice x) (diag (a x))) (before_all D (bob y) (diag (b y)))))).
    { intros x y. destruct (C62_exact D ncl full (nodes x y) (ops x y) (its x y) X rnd HL HN (HM x y) (Hp x y)) as (e & He & H). exists e. split; [exact He|]. intros eps Heps c. destruct (H eps Heps) as (out & E & Hpo & Hb). exists out. split; [exact E|].
      pose proof (means_all D ncl _ _ HL HN (HM x y)) as HI.
      assert (G : RtoC (mean_product out (l x y) (a x) (b y)) = expect D (branches_of D (from (l x y) (its x y))) (comp D (before_all D (alice x) (diag (a x))) (before_all D (bob y) (diag (b y))))).
      { unfold mean_product. rewrite <- (expect_from D ncl (fun r => a x r * b y r)%R) by assumption. rewrite <- branches_from, <- expect_labelled. rewrite (ensemble_result D ncl (its x y) (ops x y) out Hpo Hb), expect_run.
        pose proof (proper_registers D ncl (its x y) (Hp x y)) as Hreg.
        rewrite (expect_agree D ncl _ (labelled (l x y) (before_all D (ops x y) (diag (fun r => a x r * b y r)%R)))) by (try exact Hreg; now apply labelled_before_all).
        rewrite expect_labelled, branches_from. apply (expect_agree D ncl); [|apply registers_from; apply Hp].
        intros l0 r f g Hr Vf Vg. etransitivity; [|apply (parties D ncl SA KA QA SB KB QB HSep (alice x) (bob y) (ops x y) (diag (a x)) (diag (b y))); auto; now apply diag_blind].
        apply (before_all_agree D ncl); try assumption. intros l1 r1 f1 g1 Hr1 Vf1 Vg1. symmetry. now apply (comp_diag D ncl). }
      rewrite <- G. reflexivity. }
    destruct (HR false false) as (e00 & H00). destruct (HR false true) as (e01 & H01). destruct (HR true false) as (e10 & H10). destruct (HR true true) as (e11 & H11).
    exists (fun x y : bool => if x then if y then e11 else e10 else if y then e01 else e00). intros [|] [|]; assumption. }
  destruct HR as (e & HR). exists (Rmin (Rmin (e false false) (e false true)) (Rmin (e true false) (e true true))). split.
  { repeat apply Rmin_glb_lt; apply HR. }
  intros eps [H0 H1] circuit.
  assert (Hle : forall x y, (eps <= e x y)%R).
  { pose proof (Rmin_l (Rmin (e false false) (e false true)) (Rmin (e true false) (e true true))). pose proof (Rmin_r (Rmin (e false false) (e false true)) (Rmin (e true false) (e true true))).
    pose proof (Rmin_l (e false false) (e false true)). pose proof (Rmin_r (e false false) (e false true)). pose proof (Rmin_l (e true false) (e true true)). pose proof (Rmin_r (e true false) (e true true)). intros [|] [|]; lra. }
  destruct (proj2 (HR false false) eps (conj H0 (Hle false false))) as (o00 & E00 & M00). destruct (proj2 (HR false true) eps (conj H0 (Hle false true))) as (o01 & E01 & M01).
  destruct (proj2 (HR true false) eps (conj H0 (Hle true false))) as (o10 & E10 & M10). destruct (proj2 (HR true true) eps (conj H0 (Hle true true))) as (o11 & E11 & M11).
  exists (fun x y : bool => if x then if y then o11 else o10 else if y then o01 else o00). split; [intros [|] [|]; assumption|]. intros [|] [|]; assumption.
Qed.
Lemma weight_from D ncl l its : 1 <= dL D -> proper_items D ncl its -> Rsum (branches_of D (from l its)) (fun b => nrm D (b_wave b)) = weight_of_label its l.
Proof.
  intros HL Hp. unfold branches_of. rewrite Rsum_map. unfold weight_of_label, from. rewrite Rsum_filter. apply Rsum_ext. intros it Hin. destruct (leqb _ _); [|reflexivity]. apply (nrm_branch D ncl); [exact HL|].
  destruct Hp as (_ & _ & HF). rewrite Forall_forall in HF. now apply HF.
Qed.
(** Alice chooses between two settings [x], Bob between two settings [y]. Each of them then does something in
    their own channels, in any order, and reads a verdict between -1 and 1 off the channels they look at. The
    settings may be different nodes or different values in the classical channels. *)
Theorem C72_tsirelson : forall D ncl full SA KA QA SB KB QB (alice bob : bool -> list operation) (ops : bool -> bool -> list operation)
    (nodes : bool -> bool -> list node) (its : bool -> bool -> items) (l : bool -> bool -> ident) (a b : bool -> list R -> R) X rnd,
  1 <= dL D -> 2 <= dN D -> separate SA KA QA SB KB QB ->
  (forall x, Forall (local_to D ncl SA KA QA) (alice x)) -> (forall y, Forall (local_to D ncl SB KB QB) (bob y)) ->
  (forall x y, shuffle (alice x) (bob y) (ops x y)) -> (forall x y, Forall2 (means D ncl) (nodes x y) (ops x y)) ->
  (forall x y, proper_items D ncl (its x y)) ->
  (forall x, Forall2 (prepared_alike D QA) (from (l x false) (its x false)) (from (l x true) (its x true))) ->
  (forall y, Forall2 (prepared_alike D QB) (from (l false y) (its false y)) (from (l true y) (its true y))) ->
  (forall x, verdict ncl QA (a x)) -> (forall y, verdict ncl QB (b y)) ->
  exists eps0, (0 < eps0)%R /\ forall eps, (0 < eps <= eps0)%R ->
    let circuit x y := Circuit D ncl eps full (fresh_keys D) (nodes x y) in
    exists out : bool -> bool -> items,
      (forall x y, evaluate_circuit X rnd (circuit x y) (coll_of (circuit x y) (its x y)) = Ok (coll_of (circuit x y) (out x y))) /\
      let E x y := mean_product (out x y) (l x y) (a x) (b y) in
      (Rabs (E false false + E false true + E true false - E true true) <= 2 * sqrt 2 * weight_of_label (its false false) (l false false))%R.
Proof.
  intros D ncl full SA KA QA SB KB QB alice bob ops nodes its l a b X rnd HL HN HSep HA HB Hsh HM Hp HQA HQB Va Vb.
  destruct (four_runs D ncl full SA KA QA SB KB QB alice bob ops nodes its l a b X rnd HL HN HSep HA HB Hsh HM Hp HQA HQB Va Vb) as (eps0 & H0 & H). exists eps0. split; [exact H0|].
  intros eps He circuit. destruct (H eps He) as (out & Eo & HE). exists out. split; [exact Eo|]. cbv zeta beta. rewrite !HE.
  assert (HIA : forall x, Forall (isometric D ncl) (alice x)) by (intro x; apply (shuffle_forall D ncl (alice x) (bob true) (ops x true) (Hsh x true) (means_all D ncl _ _ HL HN (HM x true)))).
  assert (HIB : forall y, Forall (isometric D ncl) (bob y)) by (intro y; apply (shuffle_forall D ncl (alice true) (bob y) (ops true y) (Hsh true y) (means_all D ncl _ _ HL HN (HM true y)))).
  rewrite <- (weight_from D ncl) by auto. apply (many_branches D ncl SA (fun c => negb (QB c)) SB (fun c => negb (QA c))).
  all: try (apply (alice_blind D ncl SA KA QA SB KB QB HSep); [apply HA|now apply diag_blind]).
  all: try (apply (bobs_blind D ncl SA KA QA SB KB QB HSep); [apply HB|now apply diag_blind]).
  all: try (apply unlabelled_before_all; apply diag_unlabelled).
  all: try (apply contr_before_all; [auto|]; apply contr_diag; now (apply Va || apply Vb)).
  all: try (apply registers_from; apply Hp).
  all: apply (alike_from D ncl); auto.
Qed.

(** If the channels of Alice and the other channels are not entangled in the input, the bound is 2: what the
    parties do, measure and compute on their own cannot make up for entanglement. *)
Theorem C72_product : forall D ncl full SA KA QA SB KB QB (alice bob : bool -> list operation) (ops : bool -> bool -> list operation)
    (nodes : bool -> bool -> list node) (its : bool -> bool -> items) (l : bool -> bool -> ident) (a b : bool -> list R -> R) X rnd,
  1 <= dL D -> 2 <= dN D -> separate SA KA QA SB KB QB ->
  (forall x, Forall (local_to D ncl SA KA QA) (alice x)) -> (forall y, Forall (local_to D ncl SB KB QB) (bob y)) ->
  (forall x y, shuffle (alice x) (bob y) (ops x y)) -> (forall x y, Forall2 (means D ncl) (nodes x y) (ops x y)) ->
  (forall x y, proper_items D ncl (its x y)) ->
  (forall x, Forall2 (prepared_alike D QA) (from (l x false) (its x false)) (from (l x true) (its x true))) ->
  (forall y, Forall2 (prepared_alike D QB) (from (l false y) (its false y)) (from (l true y) (its true y))) ->
  (forall x, verdict ncl QA (a x)) -> (forall y, verdict ncl QB (b y)) ->
  (forall it, In it (from (l false false) (its false false)) -> product_state D SA (snd it)) ->
  exists eps0, (0 < eps0)%R /\ forall eps, (0 < eps <= eps0)%R ->
    let circuit x y := Circuit D ncl eps full (fresh_keys D) (nodes x y) in
    exists out : bool -> bool -> items,
      (forall x y, evaluate_circuit X rnd (circuit x y) (coll_of (circuit x y) (its x y)) = Ok (coll_of (circuit x y) (out x y))) /\
      let E x y := mean_product (out x y) (l x y) (a x) (b y) in
      (Rabs (E false false + E false true + E true false - E true true) <= 2 * weight_of_label (its false false) (l false false))%R.
Proof.
  intros D ncl full SA KA QA SB KB QB alice bob ops nodes its l a b X rnd HL HN HSep HA HB Hsh HM Hp HQA HQB Va Vb HPr.
  destruct (four_runs D ncl full SA KA QA SB KB QB alice bob ops nodes its l a b X rnd HL HN HSep HA HB Hsh HM Hp HQA HQB Va Vb) as (eps0 & H0 & H). exists eps0. split; [exact H0|].
  intros eps He circuit. destruct (H eps He) as (out & Eo & HE). exists out. split; [exact Eo|]. cbv zeta beta. rewrite !HE.
  assert (HIA : forall x, Forall (isometric D ncl) (alice x)) by (intro x; apply (shuffle_forall D ncl (alice x) (bob true) (ops x true) (Hsh x true) (means_all D ncl _ _ HL HN (HM x true)))).
  assert (HIB : forall y, Forall (isometric D ncl) (bob y)) by (intro y; apply (shuffle_forall D ncl (alice true) (bob y) (ops true y) (Hsh true y) (means_all D ncl _ _ HL HN (HM true y)))).
  pose (SB' := fun c => negb (SA c)).
  assert (HSep' : separate SA KA QA SB' KB QB) by (destruct HSep as (_ & H2); split; [|exact H2]; intros c Hc; unfold SB'; now rewrite Hc).
  assert (HB' : forall y, Forall (local_to D ncl SB' KB QB) (bob y)).
  { assert (Hs : forall c, SB c = true -> SB' c = true) by (intros c Hc; unfold SB'; destruct HSep as (H1 & _); now rewrite (apart_off SA SB c H1 Hc)).
    intro y. eapply Forall_impl; [|apply (HB y)]. intros op. destruct op as [A h v|T|F|opt cl]; cbn [local_to]; auto.
    - intros (H1 & H2 & H3). split; [now apply Hs|]. split; [now apply Hs|exact H3].
    - apply acts_wider. intros c _ Hc. now apply Hs.
    - intros (H1 & H2). split; [|exact H2]. intros c Hc. now apply Hs, H1. }
  unfold expect. rewrite !re_sum. rewrite <- (weight_from D ncl) by auto.
  pose (e := fun x y (b0 : branch) => fst (expect1 D (comp D (before_all D (alice x) (diag (a x))) (before_all D (bob y) (diag (b y)))) b0)).
  refine (four_lists D (fun c => negb (QB c)) (fun c => negb (QA c)) (e false false) (e false true) (e true false) (e true true) ncl 2%R (fun b => product_wave D SA (b_wave b)) _ (branches_of D (from (l false false) (its false false)))
    (branches_of D (from (l false true) (its false true))) (branches_of D (from (l true false) (its true false))) (branches_of D (from (l true true) (its true true))) _ _ _ _ _ _ _ _).
  - intros b00 b01 b10 b11 R1 R2 R3 A1 A2 A3 A4 HP. unfold e. apply (one_product D ncl SA (fun c => negb (QB c)) (fun c => negb (QA c))); try assumption.
    all: try (apply (alice_blind D ncl SA KA QA SB' KB QB HSep'); [apply HA|now apply diag_blind]).
    all: try (apply (bobs_blind D ncl SA KA QA SB' KB QB HSep'); [apply HB'|now apply diag_blind]).
    all: try (apply unlabelled_before_all; apply diag_unlabelled).
    all: try (apply contr_before_all; [auto|]; apply contr_diag; now (apply Va || apply Vb)).
    all: try (apply herm_before_all; apply herm_diag).
  - apply registers_from; apply Hp.
  - apply registers_from; apply Hp.
  - apply registers_from; apply Hp.
  - unfold branches_of. apply Forall_forall. intros b' Hb. apply in_map_iff in Hb. destruct Hb as (it & <- & Hin). destruct (HPr it Hin) as (u & v & Hw & Hu & Hv).
    exists (fun f => RtoC (sqrt (s_cum (snd it))) * u f)%C, v. split; [|split].
    + intros f g Vf Vg Hc. f_equal. apply Hu; try assumption. intros c Hs. destruct (Nat.lt_ge_cases c (dN D)); [now apply Hc|]. rewrite !nth_overflow; [reflexivity|rewrite (proj1 Vg); assumption|rewrite (proj1 Vf); assumption].
    + intros f g Vf Vg Hc. apply Hv; try assumption. intros c Hs. destruct (Nat.lt_ge_cases c (dN D)); [now apply Hc|]. rewrite !nth_overflow; [reflexivity|rewrite (proj1 Vg); assumption|rewrite (proj1 Vf); assumption].
    + intros f Vf. cbn [branch_of b_wave]. rewrite (Hw f Vf). ring.
  - apply (alike_from D ncl); auto.
  - apply (alike_from D ncl); auto.
  - apply (alike_from D ncl); auto.
  - apply (alike_from D ncl); auto.
Qed.

(** ** The Bell test of C68 reaches the bound *)
Definition sign_of (c : nat) (r : list R) : R := if shows c 1 r then 1%R else if shows c 0 r then (-1)%R else 0%R.
Lemma sign_verdict ncl Q c : Q c = true -> verdict ncl Q (sign_of c).
Proof.
  intro Hc. split.
  - intros r _. unfold sign_of. destruct (shows c 1 r); [lra|]. destruct (shows c 0 r); lra.
  - intros r r' _ _ H. unfold sign_of, shows. now rewrite (H c Hc).
Qed.
Lemma mean_weights out lab : mean_product out lab (sign_of 4) (sign_of 5) =
  (weight_where out lab (fun r => shows 4 1 r && shows 5 1 r) + weight_where out lab (fun r => shows 4 0 r && shows 5 0 r)
   - weight_where out lab (fun r => shows 4 1 r && shows 5 0 r) - weight_where out lab (fun r => shows 4 0 r && shows 5 1 r))%R.
Proof.
  unfold mean_product, from, weight_where. rewrite Rsum_filter. induction out as [|it out IH]; [cbn; ring|]. rewrite !Rsum_cons, IH. clear IH.
  destruct (leqb (s_init (snd it)) lab); cbn [andb]; [|ring]. unfold sign_of.
  assert (X : forall c r, shows c 1 r = true -> shows c 0 r = false) by (intros c r; unfold shows; destruct (Req_EM_T (nth c r 0%R) 1), (Req_EM_T (nth c r 0%R) 0); try congruence; lra).
  pose proof (X 4 (s_classical (snd it))) as X4. pose proof (X 5 (s_classical (snd it))) as X5.
  destruct (shows 4 1 (s_classical (snd it))); [rewrite X4 by reflexivity|destruct (shows 4 0 (s_classical (snd it)))]; (destruct (shows 5 1 (s_classical (snd it))); [rewrite X5 by reflexivity|destruct (shows 5 0 (s_classical (snd it)))]); cbn [andb]; ring.
Qed.
Lemma entangled_other a b (m : bool) : Cnorm2 (Csum both (fun i => Csum both (fun j => entry (generic_matrix a PI) m i * entry (generic_matrix b PI) (negb m) j * entangled i j)%C)) = (/ 2 * (sin (2 * (a - b)) * sin (2 * (a - b))))%R.
Proof.
  assert (E : exists s, (s * s = 1)%R /\ Csum both (fun i => Csum both (fun j => entry (generic_matrix a PI) m i * entry (generic_matrix b PI) (negb m) j * entangled i j)%C) = RtoC (s * / sqrt 2 * sin (2 * (a - b)))).
  { replace (2 * (a - b))%R with (2 * a - 2 * b)%R by ring. rewrite !generic_pi. unfold both, entangled. rewrite !Csum_cons, !Csum_nil. cbn [Bool.eqb]. rewrite sin_minus.
    destruct m; [exists (-1)%R|exists 1%R]; (split; [ring|]); cbn [entry negb m00 m01 m10 m11]; apply C_eq; cbn; ring. }
  destruct E as (s & Hs & ->). rewrite Cnorm2_RtoC. transitivity ((s * s) * (/ sqrt 2 * / sqrt 2) * (sin (2 * (a - b)) * sin (2 * (a - b))))%R; [ring|]. rewrite Hs, PropOptical.sqrt2_inv_sq. ring.
Qed.
Theorem C72_reached : forall full X rnd, let D := Dims 2 4 true in
  exists nodes, program_nodes D 6 bell_test = Some nodes /\
  exists eps0, (0 < eps0)%R /\ forall eps, (0 < eps <= eps0)%R ->
  let circuit := Circuit D 6 eps full (fresh_keys D) nodes in
  exists out, evaluate_circuit X rnd circuit (coll_of circuit test_items) = Ok (coll_of circuit out) /\
    let E lab := mean_product out lab (sign_of 4) (sign_of 5) in
    (E [3%nat] + E [4%nat] + E [1%nat] - E [2%nat] = 2 * sqrt 2)%R.
Proof.
  intros full X rnd D. destruct C68_case as [Hp HT]. fold D in Hp, HT. destruct (C68_bell_test 2 true full test_items X rnd (le_n 2) Hp) as (nodes & B & eps0 & H0 & H). exists nodes. split; [exact B|]. exists eps0. split; [exact H0|]. intros eps He circuit.
  destruct (H eps He) as (out & Eo & HW). exists out. split; [exact Eo|]. cbv zeta beta.
  assert (G : forall n a b, In (test_state n a b) test_items -> mean_product out [n] (sign_of 4) (sign_of 5) = cos (4 * (a - b))).
  { intros n a b Hin. pose proof (HW _ _ _ _ _ _ _ _ _ (HT n a b Hin)) as W. rewrite mean_weights.
    pose proof (W true true) as W1. pose proof (W false false) as W2. pose proof (W true false) as W3. pose proof (W false true) as W4. cbn [count] in W1, W2, W3, W4. rewrite W1, W2, W3, W4. cbn [snd test_state s_cum].
    pose proof (entangled_other a b true) as O1. pose proof (entangled_other a b false) as O2. cbn [negb] in O1, O2. rewrite O1, O2. rewrite !entangled_same, !Cnorm2_RtoC.
    replace (4 * (a - b))%R with (2 * (2 * (a - b)))%R by ring. rewrite (cos_2a (2 * (a - b))). set (x := cos (2 * (a - b))). set (y := sin (2 * (a - b))).
    transitivity (2 * (/ sqrt 2 * / sqrt 2) * (x * x) - y * y)%R; [field; apply Rgt_not_eq, sqrt_lt_R0; lra|]. rewrite PropOptical.sqrt2_inv_sq. field. }
  rewrite (G 1 0%R (PI / 16)%R), (G 2 0%R (3 * PI / 16)%R), (G 3 (PI / 8)%R (PI / 16)%R), (G 4 (PI / 8)%R (3 * PI / 16)%R) by (unfold test_items; cbn [In]; tauto).
  replace (4 * (0 - PI / 16))%R with (- (PI / 4))%R by field. replace (4 * (0 - 3 * PI / 16))%R with (- (3 * (PI / 4)))%R by field. replace (4 * (PI / 8 - PI / 16))%R with (PI / 4)%R by field. replace (4 * (PI / 8 - 3 * PI / 16))%R with (- (PI / 4))%R by field.
  rewrite !cos_neg, cos_3PI4, cos_PI4. assert (H1 : (0 < sqrt 2)%R) by (apply sqrt_lt_R0; lra). apply (Rmult_eq_reg_r (sqrt 2)); [|lra]. rewrite Rmult_assoc, sqrt_sqrt by lra. field. lra.
Qed.
(** The hypotheses of C72_tsirelson hold for this experiment. *)
Definition among (l : list nat) (c : nat) : bool := existsb (Nat.eqb c) l.
Definition case_party (opt cl ang : nat) : list operation := [Element (fun reg => generic_matrix (nth ang reg 0%R) (nth 3 reg 0%R)) opt (Datatypes.S opt); Detect [opt] [cl]].
Definition case_label (x y : bool) : ident := [if x then if y then 2 else 1 else if y then 4 else 3].
Lemma among_in l c : In c l -> among l c = true.
Proof. intro H. unfold among. apply existsb_exists. exists c. split; [exact H|apply Nat.eqb_refl]. Qed.
Example C72_case : let D := Dims 2 4 true in
  let SA := among [0; 1] in let KA := among [4] in let QA := among [0; 3; 4] in let SB := among [2; 3] in let KB := among [5] in let QB := among [1; 3; 5] in
  separate SA KA QA SB KB QB /\ Forall (local_to D 6 SA KA QA) (case_party 0 4 0) /\ Forall (local_to D 6 SB KB QB) (case_party 2 5 1) /\
  shuffle (case_party 0 4 0) (case_party 2 5 1) (flat_map (meaning D) bell_test) /\
  (exists nodes, program_nodes D 6 bell_test = Some nodes /\ Forall2 (means D 6) nodes (flat_map (meaning D) bell_test)) /\ proper_items D 6 test_items /\
  (forall x, Forall2 (prepared_alike D QA) (from (case_label x false) test_items) (from (case_label x true) test_items)) /\
  (forall y, Forall2 (prepared_alike D QB) (from (case_label false y) test_items) (from (case_label true y) test_items)) /\
  verdict 6 QA (sign_of 4) /\ verdict 6 QB (sign_of 5).
Proof.
  cbv zeta. assert (Hlt : forall l c, among l c = true -> In c l) by (intros l c H; unfold among in H; apply existsb_exists in H; destruct H as (k & Hk & E); apply Nat.eqb_eq in E; now subst).
  split; [|split; [|split; [|split; [|split; [|split; [|split; [|split; [|split]]]]]]]].
  - repeat split; intros c Hc; apply Hlt in Hc; cbn [In] in Hc; repeat (destruct Hc as [<-|Hc]; [reflexivity|]); destruct Hc.
  - repeat (apply Forall_cons || apply Forall_nil); cbn [local_to].
    + repeat split; try (cbn; lia). intros r r' _ _ H. now rewrite (H 0 eq_refl), (H 3 eq_refl).
    + split; intros c [<-|[]]; reflexivity.
  - repeat (apply Forall_cons || apply Forall_nil); cbn [local_to].
    + repeat split; try (cbn; lia). intros r r' _ _ H. now rewrite (H 1 eq_refl), (H 3 eq_refl).
    + split; intros c [<-|[]]; reflexivity.
  - unfold case_party, bell_test. cbn [flat_map meaning app]. apply shuffle_left, shuffle_right, (shuffle_joint [0] [4] [2] [5]); try reflexivity; [|constructor]. intros k [<-|[]] [E|[]]. discriminate.
  - assert (B : exists nodes, program_nodes (Dims 2 4 true) 6 bell_test = Some nodes) by (eexists; reflexivity). destruct B as (nodes & B). exists nodes. split; [exact B|].
    apply program_means; try exact B; cbn; try lia.
    unfold bell_test; repeat (apply Forall_cons || apply Forall_nil); cbn; unfold in_order; repeat split; try lia; repeat (constructor; cbn; try (intuition discriminate)).
  - apply C68_case.
  - intros [|]; cbn; (constructor; [|constructor]); (split; [reflexivity|split; [reflexivity|]]); intros c Hc; apply Hlt in Hc; cbn [In] in Hc; repeat (destruct Hc as [<-|Hc]; [reflexivity|]); destruct Hc.
  - intros [|]; cbn; (constructor; [|constructor]); (split; [reflexivity|split; [reflexivity|]]); intros c Hc; apply Hlt in Hc; cbn [In] in Hc; repeat (destruct Hc as [<-|Hc]; [reflexivity|]); destruct Hc.
  - now apply sign_verdict.
  - now apply sign_verdict.
Qed.
(** A product state: one photon with Alice, one with Bob, both polarised at any angle. *)
Example C72_product_case : forall a b c d (p : R), product_state (Dims 2 4 true) (among [0; 1])
  (State [1] p [([1;0;1;0], ((a * c)%C, 0%R)); ([1;0;0;1], ((a * d)%C, 0%R)); ([0;1;1;0], ((b * c)%C, 0%R)); ([0;1;0;1], ((b * d)%C, 0%R))] [] [] []).
Proof.
  intros a b c d p.
  exists (fun f => if leqb (firstn 2 f) [1;0] then a else if leqb (firstn 2 f) [0;1] then b else RtoC 0), (fun f => if leqb (skipn 2 f) [1;0] then c else if leqb (skipn 2 f) [0;1] then d else RtoC 0).
  split; [|split].
  - intros f Vf. apply basis_in in Vf. vm_compute in Vf. repeat (destruct Vf as [<-|Vf]; [cbn; ring|]). destruct Vf.
  - intros f g [Lf _] [Lg _] H. cbn in Lf, Lg. do 5 (destruct f as [|? f]; try discriminate). do 5 (destruct g as [|? g]; try discriminate). pose proof (H 0 eq_refl) as H0. pose proof (H 1 eq_refl) as H1. cbn in H0, H1. subst. reflexivity.
  - intros f g [Lf _] [Lg _] H. cbn in Lf, Lg. do 5 (destruct f as [|? f]; try discriminate). do 5 (destruct g as [|? g]; try discriminate). pose proof (H 2 eq_refl) as H0. pose proof (H 3 eq_refl) as H1. cbn in H0, H1. subst. reflexivity.
Qed.
Print Assumptions C72_tsirelson.
Print Assumptions C72_product.
Print Assumptions C72_reached.
