(** * C77: no cloning, and no information without disturbance *)
From Coq Require Import Reals List Arith Lia Lra Bool Permutation ZArith.
From Coquelicot Require Import Complex.
From Verif Require Import Prelude NamesModel NamesSpec NamesProofs FockModel FockSpec FockProofs GateProofs
  OpticalModel OpticalProofs StateModel StateSpec StateProofs CollectionModel EvalModel MeasureSpec MeasureProofs
  InterferenceSpec ArrangementProofs ExponentialProofs PermanentProofs CircuitSpec CircuitProofs EnsembleProofs PropCircuit ProtocolSpec ProtocolProofs PropProtocol
  TsirelsonSpec TsirelsonProofs PropTsirelson ProgramModel ProgramSpec PropProgram PropPhotons
  ApplicationSpec SparseProofs CustomSpec BuildSpec PropUndo DistinguishSpec PropDistinguish CloneSpec.
Import ListNotations.

(** ** Two branches side by side *)
Definition perform2 (D : dims) (op : operation) (p : branch * branch) : list (branch * branch) :=
  combine (perform D op (fst p)) (perform D op (snd p)).
Definition run2 (D : dims) (ops : list operation) (P : list (branch * branch)) : list (branch * branch) :=
  fold_left (fun P op => flat_map (perform2 D op) P) ops P.
Lemma combine_map {A B C} (f : A -> B) (g : A -> C) l : combine (map f l) (map g l) = map (fun x => (f x, g x)) l.
Proof. induction l as [|x l IH]; [reflexivity|]. cbn. now rewrite IH. Qed.
Lemma fst_combine {A B} : forall (l : list A) (l' : list B), length l = length l' -> map fst (combine l l') = l.
Proof. induction l as [|x l IH]; intros [|y l'] H; try discriminate; [reflexivity|]. cbn. f_equal. apply IH. now injection H. Qed.
Lemma snd_combine {A B} : forall (l : list A) (l' : list B), length l = length l' -> map snd (combine l l') = l'.
Proof. induction l as [|x l IH]; intros [|y l'] H; try discriminate; [reflexivity|]. cbn. f_equal. apply IH. now injection H. Qed.
Lemma perform_length D op b b' : length (perform D op b) = length (perform D op b').
Proof. destruct op; cbn [perform]; try reflexivity. now rewrite !map_length. Qed.
Lemma perform2_fst D op p : map fst (perform2 D op p) = perform D op (fst p).
Proof. apply fst_combine, perform_length. Qed.
Lemma perform2_snd D op p : map snd (perform2 D op p) = perform D op (snd p).
Proof. apply snd_combine, perform_length. Qed.
Lemma flat_fst D op P : map fst (flat_map (perform2 D op) P) = flat_map (perform D op) (map fst P).
Proof. induction P as [|p P IH]; [reflexivity|]. cbn [flat_map map]. now rewrite map_app, perform2_fst, IH. Qed.
Lemma flat_snd D op P : map snd (flat_map (perform2 D op) P) = flat_map (perform D op) (map snd P).
Proof. induction P as [|p P IH]; [reflexivity|]. cbn [flat_map map]. now rewrite map_app, perform2_snd, IH. Qed.
Lemma run2_fst D ops : forall P, map fst (run2 D ops P) = run D ops (map fst P).
Proof. induction ops as [|op ops IH]; intro P; [reflexivity|]. change (run2 D (op :: ops) P) with (run2 D ops (flat_map (perform2 D op) P)). now rewrite IH, flat_fst. Qed.
Lemma run2_snd D ops : forall P, map snd (run2 D ops P) = run D ops (map snd P).
Proof. induction ops as [|op ops IH]; intro P; [reflexivity|]. change (run2 D (op :: ops) P) with (run2 D ops (flat_map (perform2 D op) P)). now rewrite IH, flat_snd. Qed.

Definition paired (ncl : nat) (p : branch * branch) : Prop := b_reg (fst p) = b_reg (snd p) /\ length (b_reg (fst p)) = ncl.
Lemma perform2_paired D ncl op p q : isometric D ncl op -> paired ncl p -> In q (perform2 D op p) -> paired ncl q.
Proof.
  intros HI [Hr Hl] Hq. destruct p as [b1 b2]. cbn [fst snd] in *. unfold perform2 in Hq. destruct op as [A h v|T|F|opt cl]; cbn [perform fst snd combine isometric] in *.
  - destruct Hq as [<-|[]]. now split.
  - destruct Hq as [<-|[]]. now split.
  - destruct Hq as [<-|[]]. split; cbn; [now rewrite Hr|now apply HI].
  - rewrite combine_map in Hq. apply in_map_iff in Hq. destruct Hq as (o & <- & _). split; cbn; [now rewrite Hr|now rewrite noted_length].
Qed.
Lemma run2_paired D ncl ops : forall P, Forall (isometric D ncl) ops -> Forall (paired ncl) P -> Forall (paired ncl) (run2 D ops P).
Proof.
  induction ops as [|op ops IH]; intros P HF HP; [exact HP|]. inversion HF; subst. apply IH; [assumption|]. rewrite Forall_forall in *. intros q Hq. apply in_flat_map in Hq. destruct Hq as (p & Hp & Hq). now apply (perform2_paired D ncl op p q); auto.
Qed.
Lemma evolve_inner D T u v : (forall f g, valid D f -> valid D g -> Csum (basis D) (fun k => T f k * Cconj (T g k))%C = if leqb f g then RtoC 1 else RtoC 0) ->
  inner D (evolve D T u) (evolve D T v) = inner D u v.
Proof.
  intro H. unfold inner, evolve.
  transitivity (Csum (basis D) (fun f => Csum (basis D) (fun g => (u f * Cconj (v g)) * Csum (basis D) (fun k => T f k * Cconj (T g k))))%C).
  - transitivity (Csum (basis D) (fun k => Csum (basis D) (fun f => Csum (basis D) (fun g => (u f * Cconj (v g)) * (T f k * Cconj (T g k)))))%C).
    + apply Csum_ext. intros k _. rewrite Cmult_comm, <- Csum_scal_l. apply Csum_ext. intros f _. rewrite Cconj_sum. rewrite Cmult_comm, <- Csum_scal_l. apply Csum_ext. intros g _. rewrite Cconj_mult. ring.
    + rewrite Csum_swap. apply Csum_ext. intros f _. rewrite Csum_swap. apply Csum_ext. intros g _. now rewrite Csum_scal_l.
  - apply Csum_ext. intros f Hf. rewrite (Csum_single _ f); [|apply basis_nodup|exact Hf|].
    + apply basis_in in Hf. rewrite H by exact Hf. rewrite leqb_refl. ring.
    + intros g Hg Hn. apply basis_in in Hf, Hg. rewrite H by assumption. destruct (leqb f g) eqn:E; [apply leqb_spec in E; congruence|ring].
Qed.
Definition inner2 (D : dims) (p : branch * branch) : C := inner D (b_wave (fst p)) (b_wave (snd p)).
Lemma perform2_inner D ncl op p : isometric D ncl op -> paired ncl p -> Csum (perform2 D op p) (inner2 D) = inner2 D p.
Proof.
  intros HI [Hr Hl]. destruct p as [b1 b2]. cbn [fst snd] in *. unfold perform2, inner2. destruct op as [A h v|T|F|opt cl]; cbn [perform fst snd combine isometric] in *.
  - rewrite Csum_cons, Csum_nil, Cplus_0_r. cbn [fst snd b_wave]. rewrite <- Hr. apply evolve_inner. intros. now apply HI.
  - rewrite Csum_cons, Csum_nil, Cplus_0_r. cbn [fst snd b_wave]. apply evolve_inner. intros. now apply HI.
  - rewrite Csum_cons, Csum_nil, Cplus_0_r. reflexivity.
  - rewrite combine_map, Csum_map. cbn [fst snd reading b_wave]. unfold inner at 1. rewrite Csum_swap. apply Csum_ext. intros f Hf. rewrite (Csum_single _ (readout opt f)).
    + now rewrite leqb_refl.
    + apply NoDup_nodup.
    + unfold all_readings. apply nodup_In. now apply in_map.
    + intros o _ Hn. destruct (leqb (readout opt f) o) eqn:E; [apply leqb_spec in E; congruence|]. apply C_eq; cbn; ring.
Qed.
Lemma Csum_flat {A B} (g : A -> list B) (F : B -> C) l : Csum (flat_map g l) F = Csum l (fun x => Csum (g x) F).
Proof. induction l as [|x l IH]; [reflexivity|]. cbn [flat_map]. now rewrite Csum_app, Csum_cons, IH. Qed.
Lemma run2_inner D ncl ops : forall P, Forall (isometric D ncl) ops -> Forall (paired ncl) P -> Csum (run2 D ops P) (inner2 D) = Csum P (inner2 D).
Proof.
  induction ops as [|op ops IH]; intros P HF HP; [reflexivity|]. inversion HF as [|x y H1 H2]; subst. change (run2 D (op :: ops) P) with (run2 D ops (flat_map (perform2 D op) P)).
  rewrite IH; [|assumption|].
  - rewrite Csum_flat. apply Csum_ext. intros p Hp. apply (perform2_inner D ncl); [assumption|]. rewrite Forall_forall in HP. now apply HP.
  - rewrite Forall_forall in *. intros q Hq. apply in_flat_map in Hq. destruct Hq as (p & Hp & Hq). now apply (perform2_paired D ncl op p q); auto.
Qed.

(** ** The inequality of Cauchy and Schwarz for one pair *)
Lemma Cmod_norm2 z : (Cmod z * Cmod z = Cnorm2 z)%R.
Proof. unfold Cmod, Cnorm2. rewrite sqrt_sqrt; [ring|]. apply Rplus_le_le_0_compat; apply pow2_ge_0. Qed.
Lemma inner_schwarz D u v : (Cmod (inner D u v) <= sqrt (nrm D u * nrm D v))%R.
Proof.
  destruct (phase_exists (inner D u v)) as (c & Hc & Ec). pose proof (Cmod_norm2 (inner D u v)) as Hm. pose proof (Cmod_ge_0 (inner D u v)) as Hp.
  assert (Es : sqrt (Cnorm2 (inner D u v)) = Cmod (inner D u v)) by (rewrite <- Hm; now apply sqrt_square). rewrite Es in Ec.
  apply all_scales; try apply nrm_nonneg. intros t Ht. pose proof (sqrt_lt_R0 t Ht) as Hs. pose proof (sqrt_sqrt t ltac:(lra)) as E.
  pose proof (nrm_nonneg D (fun f => RtoC (sqrt t) * u f - RtoC (/ sqrt t) * (c * v f))%C) as H.
  rewrite (nrm_minus D (fun f => RtoC (sqrt t) * u f)%C (fun f => RtoC (/ sqrt t) * (c * v f))%C), !nrm_scale, nrm_phase in H by exact Hc.
  assert (Ei : inner D (fun f => RtoC (sqrt t) * u f)%C (fun f => RtoC (/ sqrt t) * (c * v f))%C = RtoC (Cmod (inner D u v))).
  { rewrite <- Ec. unfold inner. rewrite <- Csum_scal_l. apply Csum_ext. intros f _. rewrite !Cconj_mult, Cconj_RtoC. apply C_eq; cbn; field; lra. }
  rewrite Ei in H. cbn [fst RtoC] in H. rewrite E in H. replace (/ sqrt t * / sqrt t)%R with (/ t)%R in H; [unfold Rdiv at 2; lra|]. rewrite <- E at 1. field. lra.
Qed.
Lemma inner_self D u : inner D u u = RtoC (nrm D u).
Proof. unfold inner, nrm. rewrite <- Csum_RtoC. apply Csum_ext. intros f _. rewrite Cmult_comm. apply Cconj_mult_norm2. Qed.

(** ** The two runs of a circuit *)
(** A branch that has not vanished is a state of the result. *)
Lemma branch_result D (its' : items) E b : same_branches D (branches_of D its') (filter (nonzero D) E) -> In b E -> nonzero D b = true ->
  exists it', In it' its' /\ s_init (snd it') = b_label b /\ s_classical (snd it') = b_reg b /\ forall f, valid D f -> b_wave (branch_of D (snd it')) f = b_wave b f.
Proof.
  intros (E1 & HP & HF) Hb Hn. assert (Hb1 : In b E1) by (apply (Permutation_in _ (Permutation_sym HP)); apply filter_In; now split). clear HP. unfold branches_of in HF.
  revert its' HF. induction E1 as [|b1 E1 IH]; intros its' HF; [destruct Hb1|]. destruct its' as [|it its']; [inversion HF|]. cbn [map] in HF. inversion HF as [|x y l l' H1 H2]; subst. destruct Hb1 as [->|Hb1].
  - exists it. destruct H1 as (A & B & C). repeat split; try assumption. now left.
  - destruct (IH Hb1 its' H2) as (it' & Hi & Hr). exists it'. split; [now right|exact Hr].
Qed.
Definition found (D : dims) (out : items) (l : ident) (b : branch) : Prop :=
  nrm D (b_wave b) = 0%R \/ exists it, In it (from l out) /\ s_classical (snd it) = b_reg b /\ forall f, valid D f -> b_wave (branch_of D (snd it)) f = b_wave b f.
Lemma run_same_label D ops l : forall E, (forall b, In b E -> b_label b = l) -> forall b, In b (run D ops E) -> b_label b = l.
Proof. intros E H b Hb. destruct (run_labels D ops E b Hb) as (b0 & H0 & ->). now apply H. Qed.
Lemma run_incl D ops E E' : incl E E' -> incl (run D ops E) (run D ops E').
Proof. intros H b Hb. rewrite run_flat in *. apply in_flat_map in Hb. destruct Hb as (b0 & H0 & Hb). apply in_flat_map. exists b0. split; [now apply H|exact Hb]. Qed.
Lemma two_runs D ncl full nodes ops its X rnd l1 l2 st1 st2 : 1 <= dL D -> 2 <= dN D -> Forall2 (means D ncl) nodes ops -> proper_items D ncl its ->
  only its l1 st1 -> only its l2 st2 -> s_classical st1 = s_classical st2 ->
  exists eps0, (0 < eps0)%R /\ forall eps, (0 < eps <= eps0)%R ->
    let c := Circuit D ncl eps full (fresh_keys D) nodes in
    exists out, evaluate_circuit X rnd c (coll_of c its) = Ok (coll_of c out) /\ proper_items D ncl out /\
    exists Q, Forall (paired ncl) Q /\ Csum Q (inner2 D) = inner D (b_wave (branch_of D st1)) (b_wave (branch_of D st2)) /\
      (forall a, Rsum (from l1 out) (fun it => s_cum (snd it) * a (s_classical (snd it)))%R = Rsum Q (fun q => nrm D (b_wave (fst q)) * a (b_reg (fst q)))%R) /\
      (forall a, Rsum (from l2 out) (fun it => s_cum (snd it) * a (s_classical (snd it)))%R = Rsum Q (fun q => nrm D (b_wave (snd q)) * a (b_reg (snd q)))%R) /\
      Rsum Q (fun q => nrm D (b_wave (fst q))) = s_cum st1 /\ Rsum Q (fun q => nrm D (b_wave (snd q))) = s_cum st2 /\
      forall q, In q Q -> found D out l1 (fst q) /\ found D out l2 (snd q).
Proof.
  intros HL HN HM Hp O1 O2 Hcl. pose proof (only_proper D ncl its l1 st1 Hp O1) as P1. pose proof (only_proper D ncl its l2 st2 Hp O2) as P2.
  destruct (mean_input D ncl full nodes ops its X rnd HL HN HM Hp) as (e & He & H). destruct (C62_exact D ncl full nodes ops its X rnd HL HN HM Hp) as (e2 & He2 & H2).
  exists (Rmin e e2). split; [now apply Rmin_glb_lt|]. intros eps [Hp0 Hle] c.
  destruct (H eps) as (out & E & Hm); [split; [exact Hp0|eapply Rle_trans; [exact Hle|apply Rmin_l]]|]. destruct (H2 eps) as (out2 & E2 & Po & Hs); [split; [exact Hp0|eapply Rle_trans; [exact Hle|apply Rmin_r]]|].
  cbv zeta in E, E2. rewrite E in E2. injection E2 as <-. exists out. split; [exact E|]. split; [exact Po|].
  set (b1 := branch_of D st1). set (b2 := branch_of D st2). exists (run2 D ops [(b1, b2)]).
  pose proof (means_all D ncl _ _ HL HN HM) as HI. pose proof P1 as (_ & _ & _ & C1 & R1 & _). pose proof P2 as (_ & _ & _ & C2 & R2 & _).
  assert (HQ : Forall (paired ncl) [(b1, b2)]) by (constructor; [|constructor]; split; [exact Hcl|exact R1]).
  assert (M : forall l st, only its l st -> forall a, Rsum (from l out) (fun it => s_cum (snd it) * a (s_classical (snd it)))%R = Rsum (run D ops [branch_of D st]) (fun b => nrm D (b_wave b) * a (b_reg b))%R).
  { intros l st (i & F) a. rewrite (proj1 (Hm l)), F. unfold branches_of. cbn [map snd]. rewrite <- expect_run. unfold expect. rewrite re_sum. apply Rsum_ext. intros b _. rewrite expect_diag. cbn [fst RtoC]. ring. }
  assert (W : forall l st, only its l st -> Rsum (run D ops [branch_of D st]) (fun b => nrm D (b_wave b)) = s_cum st).
  { intros l st Ho. pose proof (M l st Ho (fun _ => 1%R)) as E1. destruct Ho as (i & F). pose proof (proj2 (Hm l)) as E3. unfold weight_of_label in E3. rewrite <- !(Rsum_filter (fun it => leqb (s_init (snd it)) l)) in E3. fold (from l its) in E3. fold (from l out) in E3. rewrite F, Rsum_one in E3. cbn [snd] in E3. rewrite <- E3.
    transitivity (Rsum (run D ops [branch_of D st]) (fun b => nrm D (b_wave b) * 1)%R); [apply Rsum_ext; intros; ring|]. rewrite <- E1. apply Rsum_ext. intros. ring. }
  assert (S1 : forall F : branch -> R, Rsum (run2 D ops [(b1, b2)]) (fun q => F (fst q)) = Rsum (run D ops [b1]) F) by (intro F; rewrite <- Rsum_map, run2_fst; reflexivity).
  assert (S2 : forall F : branch -> R, Rsum (run2 D ops [(b1, b2)]) (fun q => F (snd q)) = Rsum (run D ops [b2]) F) by (intro F; rewrite <- Rsum_map, run2_snd; reflexivity).
  assert (Fd : forall l st b, only its l st -> In b (run D ops [branch_of D st]) -> found D out l b).
  { intros l st b (i & F) Hb. destruct (Req_EM_T (nrm D (b_wave b)) 0) as [Ez|En]; [now left|]. right.
    assert (Hi : In (i, st) its /\ s_init st = l). { assert (In (i, st) (from l its)) by (rewrite F; now left). unfold from in H0. apply filter_In in H0. destruct H0 as [A B]. split; [exact A|now apply leqb_spec in B]. } destruct Hi as [Hi Hl].
    destruct (branch_result D out _ b Hs) as (it & Hit & L & Rg & Wv).
    - eapply run_incl; [|exact Hb]. intros x [<-|[]]. unfold branches_of. apply in_map_iff. now exists (i, st).
    - unfold nonzero. change (weight D b) with (nrm D (b_wave b)). now destruct (Req_EM_T _ _).
    - exists it. split; [|now split]. unfold from. apply filter_In. split; [exact Hit|]. rewrite L, (run_same_label D ops l [branch_of D st]); [apply leqb_refl| |exact Hb]. intros x [<-|[]]. exact Hl. }
  split; [now apply run2_paired|]. split; [rewrite (run2_inner D ncl) by assumption; rewrite Csum_cons, Csum_nil, Cplus_0_r; reflexivity|].
  split; [intro a; rewrite (M l1 st1 O1 a), <- S1; reflexivity|]. split; [intro a; rewrite (M l2 st2 O2 a), <- S2; reflexivity|].
  split; [rewrite (S1 (fun b => nrm D (b_wave b))); now apply (W l1)|]. split; [rewrite (S2 (fun b => nrm D (b_wave b))); now apply (W l2)|].
  intros q Hq. split.
  - apply (Fd l1 st1); [exact O1|]. fold b1. replace [b1] with (map fst [(b1, b2)]) by reflexivity. rewrite <- run2_fst. now apply in_map.
  - apply (Fd l2 st2); [exact O2|]. fold b2. replace [b2] with (map snd [(b1, b2)]) by reflexivity. rewrite <- run2_snd. now apply in_map.
Qed.

(** ** No circuit makes states more different than they are *)
Lemma largest {X} (P : X -> Prop) (dec : forall x, {P x} + {~ P x}) (g : X -> R) (t : R) (l : list X) : (0 < t)%R ->
  (exists x, In x l /\ P x /\ (t <= g x)%R) \/ (exists k, (0 <= k < t)%R /\ forall x, In x l -> P x -> (g x <= k)%R).
Proof.
  intro Ht. induction l as [|x l IH]; [right; exists 0%R; split; [lra|intros _ []]|].
  destruct IH as [(y & Hy & Py & Gy)|(k & Hk & Hl)]; [left; exists y; split; [now right|now split]|].
  destruct (dec x) as [Px|Nx].
  - destruct (Rle_lt_dec t (g x)) as [Hx|Hx]; [left; exists x; split; [now left|now split]|].
    right. exists (Rmax k (g x)). split.
    + split; [eapply Rle_trans; [apply (proj1 Hk)|apply Rmax_l]|]. apply Rmax_lub_lt; [apply Hk|exact Hx].
    + intros y [<-|Hy] Py; [apply Rmax_r|]. eapply Rle_trans; [now apply Hl|apply Rmax_l].
  - right. exists k. split; [exact Hk|]. intros y [<-|Hy] Py; [contradiction|now apply Hl].
Qed.
Lemma sum_schwarz {X} (l : list X) (f g : X -> R) : (forall x, In x l -> 0 <= f x)%R -> (forall x, In x l -> 0 <= g x)%R ->
  (Rsum l (fun x => sqrt (f x * g x)) <= sqrt (Rsum l f * Rsum l g))%R.
Proof.
  intros Hf Hg. apply all_scales; try (apply Rsum_nonneg; assumption). intros t Ht.
  replace ((t * Rsum l f + Rsum l g / t) / 2)%R with (Rsum l (fun x => (t * f x + g x / t) / 2))%R.
  - apply Rsum_le. intros x Hx. specialize (Hf x Hx). specialize (Hg x Hx). pose proof (sqrt_lt_R0 t Ht) as Hs. pose proof (sqrt_sqrt t ltac:(lra)) as E.
    pose proof (sqrt_sqrt (f x) Hf) as Ef. pose proof (sqrt_sqrt (g x) Hg) as Eg. rewrite sqrt_mult by assumption.
    pose proof (Rle_0_sqr (sqrt t * sqrt (f x) - sqrt (g x) / sqrt t)) as Hq. unfold Rsqr in Hq.
    assert (E2 : ((sqrt t * sqrt (f x) - sqrt (g x) / sqrt t) * (sqrt t * sqrt (f x) - sqrt (g x) / sqrt t) = (sqrt t * sqrt t) * (sqrt (f x) * sqrt (f x)) + (sqrt (g x) * sqrt (g x)) / (sqrt t * sqrt t) - 2 * (sqrt (f x) * sqrt (g x)))%R) by (field; lra).
    rewrite E2, E, Ef, Eg in Hq. lra.
  - unfold Rdiv. rewrite (Rmult_comm _ (/ 2)), (Rmult_comm (Rsum l g)), <- !Rsum_scal_l, <- Rsum_plus, <- Rsum_scal_l. apply Rsum_ext. intros. ring.
Qed.
Lemma inner_ext D u v u' v' : (forall f, valid D f -> u f = u' f) -> (forall f, valid D f -> v f = v' f) -> inner D u v = inner D u' v'.
Proof. intros H1 H2. unfold inner. apply Csum_ext. intros f Hf. apply basis_in in Hf. now rewrite H1, H2. Qed.
Lemma nrm_ext' D u u' : (forall f, valid D f -> u f = u' f) -> nrm D u = nrm D u'.
Proof. intro H. unfold nrm. apply Rsum_ext. intros f Hf. apply basis_in in Hf. now rewrite H. Qed.
Lemma inner_branches D st st2 : inner D (b_wave (branch_of D st)) (b_wave (branch_of D st2)) = (RtoC (sqrt (s_cum st) * sqrt (s_cum st2)) * overlap D st st2)%C.
Proof. unfold overlap, inner. rewrite <- Csum_scal_l. apply Csum_ext. intros f _. cbn [b_wave branch_of]. rewrite Cconj_mult, Cconj_RtoC, RtoC_mult. ring. Qed.
Lemma Cmod_branches D st st2 : (0 <= s_cum st)%R -> (0 <= s_cum st2)%R ->
  Cmod (inner D (b_wave (branch_of D st)) (b_wave (branch_of D st2))) = (sqrt (s_cum st * s_cum st2) * Cmod (overlap D st st2))%R.
Proof. intros H1 H2. rewrite inner_branches, Cmod_mult, Cmod_R, Rabs_right, sqrt_mult by (try assumption; apply Rle_ge, Rmult_le_pos; apply sqrt_pos). reflexivity. Qed.
Lemma from_proper D ncl out l it : proper_items D ncl out -> In it (from l out) -> proper_state D ncl (snd it).
Proof. intros (_ & _ & HF) H. rewrite Forall_forall in HF. apply HF. eapply incl_filter. exact H. Qed.
Lemma Cmod_le_norm2 a b : (Cmod a <= Cmod b -> Cnorm2 a <= Cnorm2 b)%R.
Proof. intro H. rewrite <- !Cmod_norm2. pose proof (Cmod_ge_0 a). apply Rmult_le_compat; assumption. Qed.
(** The overlap of two branches that are found in the result. *)
Lemma found_overlap D ncl out l1 l2 q k : 1 <= dL D -> proper_items D ncl out -> paired ncl q -> found D out l1 (fst q) -> found D out l2 (snd q) ->
  (forall it1 it2, In it1 (from l1 out) -> In it2 (from l2 out) -> s_classical (snd it1) = s_classical (snd it2) -> (Cmod (overlap D (snd it1) (snd it2)) <= k)%R) -> (0 <= k)%R ->
  (Cmod (inner2 D q) <= k * sqrt (nrm D (b_wave (fst q)) * nrm D (b_wave (snd q))))%R.
Proof.
  intros HL Po [Hr _] F1 F2 Hk Hk0.
  assert (Hz : (nrm D (b_wave (fst q)) * nrm D (b_wave (snd q)) = 0)%R -> (Cmod (inner2 D q) <= k * sqrt (nrm D (b_wave (fst q)) * nrm D (b_wave (snd q))))%R).
  { intro E. pose proof (inner_schwarz D (b_wave (fst q)) (b_wave (snd q))) as H. fold (inner2 D q) in H. rewrite E, sqrt_0 in *. lra. }
  destruct F1 as [F1|(it1 & I1 & R1 & W1)]; [apply Hz; rewrite F1; ring|]. destruct F2 as [F2|(it2 & I2 & R2 & W2)]; [apply Hz; rewrite F2; ring|]. clear Hz.
  pose proof (from_proper D ncl out l1 it1 Po I1) as P1. pose proof (from_proper D ncl out l2 it2 Po I2) as P2.
  unfold inner2. rewrite <- (inner_ext D _ _ _ _ W1 W2), <- (nrm_ext' D _ _ W1), <- (nrm_ext' D _ _ W2), !(nrm_branch D ncl) by assumption.
  pose proof P1 as (_ & _ & _ & C1 & _). pose proof P2 as (_ & _ & _ & C2 & _). rewrite Cmod_branches by lra. rewrite Rmult_comm. apply Rmult_le_compat_r; [apply sqrt_pos|]. apply Hk; try assumption. congruence.
Qed.

(** ** C77 *)
(** Whatever is done to two states: some result of the one and some result of the other, with the same
    classical values, are at least as similar as the two states were. *)
Theorem C77_overlap : forall D ncl full nodes ops its X rnd l1 l2 st1 st2, 1 <= dL D -> 2 <= dN D ->
  Forall2 (means D ncl) nodes ops -> proper_items D ncl its -> only its l1 st1 -> only its l2 st2 -> s_classical st1 = s_classical st2 ->
  overlap D st1 st2 <> RtoC 0 ->
  exists eps0, (0 < eps0)%R /\ forall eps, (0 < eps <= eps0)%R ->
    let c := Circuit D ncl eps full (fresh_keys D) nodes in
    exists out, evaluate_circuit X rnd c (coll_of c its) = Ok (coll_of c out) /\
      exists it1 it2, In it1 (from l1 out) /\ In it2 (from l2 out) /\ s_classical (snd it1) = s_classical (snd it2) /\
        (Cnorm2 (overlap D st1 st2) <= Cnorm2 (overlap D (snd it1) (snd it2)))%R.
Proof.
  intros D ncl full nodes ops its X rnd l1 l2 st1 st2 HL HN HM Hp O1 O2 Hcl Hne. pose proof (only_proper D ncl its l1 st1 Hp O1) as P1. pose proof (only_proper D ncl its l2 st2 Hp O2) as P2.
  destruct (two_runs D ncl full nodes ops its X rnd l1 l2 st1 st2 HL HN HM Hp O1 O2 Hcl) as (e & He & H). exists e. split; [exact He|]. intros eps Heps c. destruct (H eps Heps) as (out & E & Po & Q & HQ & HI & _ & _ & W1 & W2 & Fd). exists out. split; [exact E|].
  assert (Hs : (0 < Cmod (overlap D st1 st2))%R) by (now apply Cmod_gt_0).
  destruct (largest (fun x : (ident * state) * (ident * state) => s_classical (snd (fst x)) = s_classical (snd (snd x))) (fun x => list_eq_dec Req_EM_T _ _) (fun x => Cmod (overlap D (snd (fst x)) (snd (snd x)))) _ (list_prod (from l1 out) (from l2 out)) Hs) as [([it1 it2] & Hin & Hc & Hle)|(k & Hk & Hmax)].
  - apply in_prod_iff in Hin. destruct Hin as [I1 I2]. exists it1, it2. repeat split; try assumption. now apply Cmod_le_norm2.
  - exfalso. pose proof P1 as (_ & _ & _ & C1 & _). pose proof P2 as (_ & _ & _ & C2 & _).
    assert (Hb : (Cmod (Csum Q (inner2 D)) <= k * sqrt (s_cum st1 * s_cum st2))%R).
    { eapply Rle_trans; [apply Cmod_Csum|]. eapply Rle_trans; [apply Rsum_le; intros q Hq; apply (found_overlap D ncl out l1 l2 q k HL Po)|].
      - rewrite Forall_forall in HQ. now apply HQ.
      - now apply Fd.
      - now apply Fd.
      - intros it1 it2 I1 I2 Hc. apply (Hmax (it1, it2)); [now apply in_prod|exact Hc].
      - apply Hk.
      - rewrite Rsum_scal_l. apply Rmult_le_compat_l; [apply Hk|]. rewrite <- W1, <- W2. apply sum_schwarz; intros; apply nrm_nonneg. }
    rewrite HI, Cmod_branches, Rmult_comm in Hb by lra. assert (0 < sqrt (s_cum st1 * s_cum st2))%R by (apply sqrt_lt_R0, Rmult_lt_0_compat; lra). apply Rmult_le_reg_r in Hb; [lra|assumption].
Qed.

(** Whoever leaves two states as they are, whatever the results of the measurements, has learned nothing about
    which of them it was: every event in the classical values has the same probability for both, unless
    the states are orthogonal. *)
Theorem C77_no_information : forall D ncl full nodes ops its X rnd l1 l2 st1 st2, 1 <= dL D -> 2 <= dN D ->
  Forall2 (means D ncl) nodes ops -> proper_items D ncl its -> only its l1 st1 -> only its l2 st2 -> s_classical st1 = s_classical st2 ->
  overlap D st1 st2 <> RtoC 0 ->
  exists eps0, (0 < eps0)%R /\ forall eps, (0 < eps <= eps0)%R ->
    let c := Circuit D ncl eps full (fresh_keys D) nodes in
    exists out, evaluate_circuit X rnd c (coll_of c its) = Ok (coll_of c out) /\
      ((forall it, In it (from l1 out) -> undisturbed D st1 (snd it)) -> (forall it, In it (from l2 out) -> undisturbed D st2 (snd it)) ->
       forall guess, (s_cum st2 * says out l1 guess = s_cum st1 * says out l2 guess)%R).
Proof.
  intros D ncl full nodes ops its X rnd l1 l2 st1 st2 HL HN HM Hp O1 O2 Hcl Hne. pose proof (only_proper D ncl its l1 st1 Hp O1) as P1. pose proof (only_proper D ncl its l2 st2 Hp O2) as P2.
  destruct (two_runs D ncl full nodes ops its X rnd l1 l2 st1 st2 HL HN HM Hp O1 O2 Hcl) as (e & He & H). exists e. split; [exact He|]. intros eps Heps c. destruct (H eps Heps) as (out & E & Po & Q & HQ & HI & S1 & S2 & W1 & W2 & Fd). exists out. split; [exact E|].
  intros U1 U2 guess. pose proof P1 as (_ & _ & _ & C1 & _). pose proof P2 as (_ & _ & _ & C2 & _). set (s := Cmod (overlap D st1 st2)). assert (Hs : (0 < s)%R) by (now apply Cmod_gt_0).
  set (p := s_cum st1) in *. set (r := s_cum st2) in *. set (n1 := fun q : branch * branch => nrm D (b_wave (fst q))) in *. set (n2 := fun q : branch * branch => nrm D (b_wave (snd q))) in *.
  assert (N1 : forall q, (0 <= n1 q)%R) by (intro; apply nrm_nonneg). assert (N2 : forall q, (0 <= n2 q)%R) by (intro; apply nrm_nonneg).
  assert (Hpr : (0 < sqrt (p * r))%R) by (apply sqrt_lt_R0, Rmult_lt_0_compat; lra).
  assert (HF : (sqrt (p * r) <= Rsum Q (fun q => sqrt (n1 q * n2 q)))%R).
  { apply (Rmult_le_reg_r s); [exact Hs|]. unfold s at 1. unfold p, r. rewrite <- (Cmod_branches D st1 st2) by (unfold p, r in *; lra). rewrite <- HI. eapply Rle_trans; [apply Cmod_Csum|].
    rewrite Rmult_comm, <- Rsum_scal_l. apply Rsum_le. intros q Hq. apply (found_overlap D ncl out l1 l2 q s HL Po).
    - rewrite Forall_forall in HQ. now apply HQ.
    - now apply Fd.
    - now apply Fd.
    - intros it1 it2 I1 I2 _. destruct (U1 it1 I1) as (c1 & Hc1 & A1). destruct (U2 it2 I2) as (c2 & Hc2 & A2).
      replace (overlap D (snd it1) (snd it2)) with (c1 * Cconj c2 * overlap D st1 st2)%C.
      + assert (Cmod c1 = 1%R) by (pose proof (Cmod_norm2 c1); pose proof (Cmod_ge_0 c1); nra). assert (Cmod c2 = 1%R) by (pose proof (Cmod_norm2 c2); pose proof (Cmod_ge_0 c2); nra).
        rewrite !Cmod_mult, Cmod_conj, H0, H1. unfold s. lra.
      + unfold overlap. rewrite <- Csum_scal_l. apply Csum_ext. intros f Hf. apply basis_in in Hf. rewrite A1, A2 by exact Hf. rewrite Cconj_mult. ring.
    - lra. }
  assert (Hz : forall q, In q Q -> (r * n1 q = p * n2 q)%R).
  { assert (Hsq : (Rsum Q (fun q => (sqrt (r * n1 q) - sqrt (p * n2 q)) * (sqrt (r * n1 q) - sqrt (p * n2 q))) <= 0)%R).
    { replace (Rsum Q (fun q => (sqrt (r * n1 q) - sqrt (p * n2 q)) * (sqrt (r * n1 q) - sqrt (p * n2 q))))%R with (r * Rsum Q n1 + (p * Rsum Q n2 + (-2 * sqrt (p * r)) * Rsum Q (fun q => sqrt (n1 q * n2 q))))%R.
      - rewrite W1, W2. pose proof (sqrt_sqrt (p * r) ltac:(apply Rmult_le_pos; lra)) as Es. nra.
      - rewrite <- !Rsum_scal_l, <- !Rsum_plus. apply Rsum_ext. intros q _. specialize (N1 q). specialize (N2 q).
        rewrite !sqrt_mult by lra. pose proof (sqrt_sqrt p ltac:(lra)) as Ep. pose proof (sqrt_sqrt r ltac:(lra)) as Er. pose proof (sqrt_sqrt _ N1) as E1. pose proof (sqrt_sqrt _ N2) as E2.
        transitivity ((sqrt r * sqrt r) * (sqrt (n1 q) * sqrt (n1 q)) + (sqrt p * sqrt p) * (sqrt (n2 q) * sqrt (n2 q)) - 2 * (sqrt p * sqrt r * (sqrt (n1 q) * sqrt (n2 q))))%R; [rewrite Ep, Er, E1, E2|]; ring. }
    intros q Hq. pose proof (Rsum_le_term Q (fun q => (sqrt (r * n1 q) - sqrt (p * n2 q)) * (sqrt (r * n1 q) - sqrt (p * n2 q)))%R q ltac:(intros; apply (Rle_0_sqr (sqrt _ - sqrt _))) Hq) as Ht. cbv beta in Ht.
    assert (Hr : (0 <= r * n1 q)%R) by (apply Rmult_le_pos; [lra|apply N1]). assert (Hp2 : (0 <= p * n2 q)%R) by (apply Rmult_le_pos; [lra|apply N2]).
    assert (E0 : (sqrt (r * n1 q) - sqrt (p * n2 q) = 0)%R) by nra.
    rewrite <- (sqrt_sqrt (r * n1 q) Hr), <- (sqrt_sqrt (p * n2 q) Hp2). replace (sqrt (r * n1 q)) with (sqrt (p * n2 q)) by lra. reflexivity. }
  unfold says. rewrite S1, S2, <- !Rsum_scal_l. apply Rsum_ext. intros q Hq. fold (n1 q). fold (n2 q). rewrite Forall_forall in HQ. destruct (HQ q Hq) as [<- _]. rewrite <- !Rmult_assoc. now rewrite (Hz q Hq).
Qed.

(** ** No cloning *)
Lemma tuples_app L m : forall n (F : values -> C), Csum (tuples L (n + m)) F = Csum (tuples L n) (fun a => Csum (tuples L m) (fun b => F (a ++ b))).
Proof.
  induction n as [|n IH]; intro F; [cbn [tuples Nat.add]; rewrite Csum_cons, Csum_nil, Cplus_0_r; reflexivity|].
  cbn [Nat.add]. rewrite !SpreadProofs.tuples_sum. apply Csum_ext. intros c _. rewrite IH. reflexivity.
Qed.
Lemma firstn_len {A} n (a b : list A) : length a = n -> firstn n (a ++ b) = a.
Proof. intros <-. rewrite firstn_app, Nat.sub_diag, firstn_all. cbn. apply app_nil_r. Qed.
Lemma skipn_len {A} n (a b : list A) : length a = n -> skipn n (a ++ b) = b.
Proof. intros <-. rewrite skipn_app, Nat.sub_diag, skipn_all. reflexivity. Qed.
Lemma skipn_twice {A} n m : forall l : list A, skipn m (skipn n l) = skipn (n + m) l.
Proof. induction n as [|n IH]; intro l; [reflexivity|]. destruct l as [|x l]; [cbn; apply skipn_nil|]. cbn [skipn Nat.add]. apply IH. Qed.
Lemma tuple_length L n f : In f (tuples L n) -> length f = n.
Proof. intro H. now apply tuples_in in H. Qed.
Lemma scalar_product L n m u v u' v' : Csum (tuples L (n + m)) (fun f => (u (firstn n f) * v (skipn n f)) * Cconj (u' (firstn n f) * v' (skipn n f)))%C = (scalar L n u u' * scalar L m v v')%C.
Proof.
  rewrite tuples_app. unfold scalar. rewrite Cmult_comm, <- Csum_scal_l. apply Csum_ext. intros a Ha. apply tuple_length in Ha. rewrite Cmult_comm, <- Csum_scal_l. apply Csum_ext. intros b _.
  rewrite firstn_len, skipn_len by exact Ha. rewrite Cconj_mult. ring.
Qed.
Lemma scalar_sq L n u : scalar L n u u = RtoC (Rsum (tuples L n) (fun f => Cnorm2 (u f))).
Proof. unfold scalar. rewrite <- Csum_RtoC. apply Csum_ext. intros f _. rewrite Cmult_comm. apply Cconj_mult_norm2. Qed.
Lemma self_overlap D ncl st : 1 <= dL D -> proper_state D ncl st -> overlap D st st = RtoC 1.
Proof.
  intros HL P. pose proof P as (_ & _ & _ & C & _). pose proof (inner_branches D st st) as H. rewrite inner_self, (nrm_branch D ncl) in H by assumption. rewrite sqrt_sqrt in H by lra.
  apply (f_equal (fun z => RtoC (/ s_cum st) * z)%C) in H. rewrite Cmult_assoc, <- !RtoC_mult in H. rewrite Rinv_l in H by lra. rewrite H. ring.
Qed.
Lemma scalar_le L n u v : normalised L n u -> normalised L n v -> (Cmod (scalar L n u v) <= 1)%R.
Proof.
  intros Hu Hv. unfold normalised in *. rewrite scalar_sq in Hu, Hv. apply RtoC_inj in Hu, Hv. pose proof (inner_schwarz (Dims L n true) u v) as H. unfold inner, nrm, basis in H. cbn [dL dN] in H. rewrite Hu, Hv, Rmult_1_l, sqrt_1 in H. exact H.
Qed.
Lemma unit_factor (a b : R) : (0 <= a)%R -> (0 <= b)%R -> (a * b = 1 -> a = 1 -> b = 1)%R.
Proof. intros; nra. Qed.
(** If some circuit, whatever it measures on the way, turns each of two states into two copies of it (with
    anything else in the other channels), then the two are orthogonal or the same state. *)
Theorem C77_no_cloning : forall D ncl full nodes ops its X rnd l1 l2 st1 st2 n psi1 psi2 blank, 1 <= dL D -> 2 <= dN D -> n + n <= dN D ->
  Forall2 (means D ncl) nodes ops -> proper_items D ncl its -> only its l1 st1 -> only its l2 st2 -> s_classical st1 = s_classical st2 ->
  normalised (dL D) n psi1 -> normalised (dL D) n psi2 -> holds D n psi1 blank st1 -> holds D n psi2 blank st2 ->
  exists eps0, (0 < eps0)%R /\ forall eps, (0 < eps <= eps0)%R ->
    let c := Circuit D ncl eps full (fresh_keys D) nodes in
    exists out, evaluate_circuit X rnd c (coll_of c its) = Ok (coll_of c out) /\
      ((forall it, In it (from l1 out) -> holds_twice D n psi1 (snd it)) -> (forall it, In it (from l2 out) -> holds_twice D n psi2 (snd it)) ->
       scalar (dL D) n psi1 psi2 = RtoC 0 \/ same_up_to_phase (dL D) n psi1 psi2).
Proof.
  intros D ncl full nodes ops its X rnd l1 l2 st1 st2 n psi1 psi2 blank HL HN Hn HM Hp O1 O2 Hcl U1 U2 A1 A2.
  pose proof (only_proper D ncl its l1 st1 Hp O1) as P1. pose proof (only_proper D ncl its l2 st2 Hp O2) as P2. set (L := dL D) in *. set (s := scalar L n psi1 psi2).
  assert (Hov : forall x y px py, holds D n px blank x -> holds D n py blank y -> overlap D x y = (scalar L n px py * scalar L (dN D - n) blank blank)%C).
  { intros x y px py Hx Hy. rewrite <- scalar_product. replace (n + (dN D - n)) with (dN D) by lia. unfold overlap. apply Csum_ext. intros f Hf. pose proof Hf as V. apply basis_in in V. now rewrite (Hx f V), (Hy f V). }
  assert (Hb : scalar L (dN D - n) blank blank = RtoC 1).
  { pose proof (Hov st1 st1 psi1 psi1 A1 A1) as H. rewrite (self_overlap D ncl) in H by assumption. unfold normalised in U1. rewrite U1 in H. rewrite H. ring. }
  assert (Es : overlap D st1 st2 = s) by (rewrite (Hov st1 st2 psi1 psi2 A1 A2), Hb; unfold s; ring).
  destruct (C_eq_dec s (RtoC 0)) as [Ez|Ez].
  - destruct (mean_input D ncl full nodes ops its X rnd HL HN HM Hp) as (e & He & H). exists e. split; [exact He|]. intros eps Heps c. destruct (H eps Heps) as (out & E & _). exists out. split; [exact E|]. intros _ _. now left.
  - destruct (two_runs D ncl full nodes ops its X rnd l1 l2 st1 st2 HL HN HM Hp O1 O2 Hcl) as (e0 & He0 & H0).
    destruct (C77_overlap D ncl full nodes ops its X rnd l1 l2 st1 st2 HL HN HM Hp O1 O2 Hcl) as (e & He & H); [now rewrite Es|]. exists (Rmin e e0). split; [now apply Rmin_glb_lt|]. intros eps [Hp0 Hle] c.
    destruct (H eps) as (out & E & it1 & it2 & I1 & I2 & _ & Hov2); [split; [exact Hp0|eapply Rle_trans; [exact Hle|apply Rmin_l]]|]. destruct (H0 eps) as (out2 & E2 & Po & _); [split; [exact Hp0|eapply Rle_trans; [exact Hle|apply Rmin_r]]|].
    cbv zeta in E, E2. rewrite E in E2. injection E2 as <-. exists out. split; [exact E|]. intros T1 T2. right.
    destruct (T1 it1 I1) as (r1 & B1). destruct (T2 it2 I2) as (r2 & B2). pose proof (from_proper D ncl out l1 it1 Po I1) as Q1. pose proof (from_proper D ncl out l2 it2 Po I2) as Q2.
    set (m := dN D - (n + n)).
    assert (Hp2 : forall x y px py rx ry, (forall f, valid D f -> amp_of D x f = (px (firstn n f) * px (firstn n (skipn n f)) * rx (skipn (n + n) f))%C) -> (forall f, valid D f -> amp_of D y f = (py (firstn n f) * py (firstn n (skipn n f)) * ry (skipn (n + n) f))%C) ->
      overlap D x y = (scalar L n px py * (scalar L n px py * scalar L m rx ry))%C).
    { intros x y px py rx ry Hx Hy. rewrite <- (scalar_product L n m px rx py ry). fold (scalar L (n + m) (fun f => px (firstn n f) * rx (skipn n f))%C (fun f => py (firstn n f) * ry (skipn n f))%C).
      rewrite <- scalar_product. replace (n + (n + m)) with (dN D) by (unfold m; lia). unfold overlap. apply Csum_ext. intros f Hf. pose proof Hf as V. apply basis_in in V. rewrite (Hx f V), (Hy f V). rewrite !Cconj_mult, !skipn_twice. ring. }
    assert (N1 : normalised L m r1) by (pose proof (Hp2 _ _ _ _ _ _ B1 B1) as K; rewrite (self_overlap D ncl) in K by assumption; unfold normalised in *; rewrite U1 in K; rewrite K; ring).
    assert (N2 : normalised L m r2) by (pose proof (Hp2 _ _ _ _ _ _ B2 B2) as K; rewrite (self_overlap D ncl) in K by assumption; unfold normalised in *; rewrite U2 in K; rewrite K; ring).
    pose proof (Hp2 _ _ _ _ _ _ B1 B2) as K. fold s in K. rewrite Es, K, !Cnorm2_mult in Hov2. pose proof (scalar_le L m r1 r2 N1 N2) as Hr. pose proof (scalar_le L n psi1 psi2 U1 U2) as Hs. fold s in Hs.
    assert (Hs1 : Cnorm2 s = 1%R).
    { assert (0 < Cnorm2 s)%R by (destruct (Cnorm2_nonneg s) as [Hl|Hz]; [exact Hl|exfalso; apply Ez, Cnorm2_eq0; now symmetry]).
      rewrite <- (Cmod_norm2 s), <- (Cmod_norm2 (scalar L m r1 r2)) in *. pose proof (Cmod_ge_0 s). pose proof (Cmod_ge_0 (scalar L m r1 r2)). set (a := Cmod s) in *. set (b := Cmod (scalar L m r1 r2)) in *.
      assert (a * a <= 1)%R by nra. assert (b * b <= 1)%R by nra. assert (a * a <= a * a * (a * a))%R by nra. nra. }
    exists s. split; [exact Hs1|]. intros f Hf.
    assert (Hz : Rsum (tuples L n) (fun f => Cnorm2 (psi1 f - s * psi2 f)%C) = 0%R).
    { pose proof (nrm_minus (Dims L n true) psi1 (fun f => s * psi2 f)%C) as Hm. rewrite nrm_phase in Hm by exact Hs1. unfold nrm, inner, basis in Hm. cbn [dL dN] in Hm. rewrite Hm. clear Hm.
      unfold normalised in U1, U2. rewrite scalar_sq in U1, U2. apply RtoC_inj in U1, U2. rewrite U1, U2.
      replace (Csum (tuples L n) (fun f => psi1 f * Cconj (s * psi2 f))%C) with (Cconj s * s)%C; [rewrite Cconj_mult_norm2, Hs1; cbn; ring|].
      unfold s at 2. unfold scalar. rewrite <- Csum_scal_l. apply Csum_ext. intros g _. rewrite Cconj_mult. ring. }
    pose proof (Rsum_le_term (tuples L n) (fun f => Cnorm2 (psi1 f - s * psi2 f)%C) f ltac:(intros; apply Cnorm2_nonneg) Hf) as Hle2. rewrite Hz in Hle2. cbv beta in Hle2.
    assert (E0 : (psi1 f - s * psi2 f)%C = RtoC 0) by (apply Cnorm2_eq0; pose proof (Cnorm2_nonneg (psi1 f - s * psi2 f)%C); lra).
    transitivity ((psi1 f - s * psi2 f) + s * psi2 f)%C; [ring|rewrite E0; ring].
Qed.

(** ** Number states can be copied *)
Lemma total_combine f c : forall n i j, total_control (combine (seq i n) (seq j n)) f c = if (j <=? c) && (c <? j + n) then nth (i + (c - j)) f 0 else 0.
Proof.
  induction n as [|n IH]; intros i j; [destruct (Nat.leb_spec j c), (Nat.ltb_spec c (j + 0)); try reflexivity; lia|].
  cbn [seq combine total_control fst snd]. rewrite IH. destruct (Nat.eqb_spec j c) as [->|Hn].
  - replace (S c <=? c) with false by (symmetry; apply Nat.leb_gt; lia). rewrite Nat.leb_refl. replace (c <? c + S n) with true by (symmetry; apply Nat.ltb_lt; lia). cbn [andb]. rewrite Nat.sub_diag. now rewrite !Nat.add_0_r.
  - destruct (Nat.leb_spec (S j) c), (Nat.leb_spec j c), (Nat.ltb_spec c (S j + n)), (Nat.ltb_spec c (j + S n)); cbn [andb]; try lia. replace (S i + (c - S j)) with (i + (c - j)) by lia. reflexivity.
Qed.
Lemma nth_firstn' {A} (d : A) n l c : c < n -> nth c (firstn n l) d = nth c l d.
Proof. revert n c. induction l as [|x l IH]; intros [|n] c Hc; try lia; [now rewrite firstn_nil|]. destruct c; [reflexivity|]. cbn. apply IH. lia. Qed.
Lemma nth_skipn' {A} (d : A) n l c : nth c (skipn n l) d = nth (n + c) l d.
Proof. revert n. induction l as [|x l IH]; intros [|n]; try reflexivity; [rewrite skipn_nil; now destruct c|]. cbn. apply IH. Qed.
Lemma sum_copy D n f : 1 <= dL D -> n + n <= dN D -> valid D f -> firstn n (skipn n f) = repeat 0 n ->
  sum_of (dL D) (combine (seq 0 n) (seq n n)) f = firstn n f ++ firstn n f ++ skipn (n + n) f.
Proof.
  intros HL Hn [Hl HF] H0. rewrite Forall_forall in HF. assert (Hm : forall c, c < length f -> nth c f 0 mod dL D = nth c f 0) by (intros c Hc; apply Nat.mod_small, HF, nth_In; exact Hc).
  assert (Lf : length (firstn n f) = n) by (rewrite firstn_length; lia).
  apply (nth_ext _ _ 0 0); [unfold sum_of; rewrite map_length, seq_length, !app_length, Lf, skipn_length; lia|].
  intros c Hc. unfold sum_of in *. rewrite map_length, seq_length in Hc. rewrite (nth_indep _ 0 ((nth 0 f 0 + total_control (combine (seq 0 n) (seq n n)) f 0) mod dL D)) by (now rewrite map_length, seq_length).
  rewrite (map_nth (fun c => (nth c f 0 + total_control (combine (seq 0 n) (seq n n)) f c) mod dL D)), seq_nth by exact Hc. cbn [Nat.add]. rewrite total_combine.
  destruct (Nat.ltb_spec c n) as [C1|C1].
  - replace (n <=? c) with false by (symmetry; apply Nat.leb_gt; lia). cbn [andb]. rewrite Nat.add_0_r, app_nth1 by lia. rewrite nth_firstn' by lia. now apply Hm.
  - replace (n <=? c) with true by (symmetry; apply Nat.leb_le; lia). rewrite app_nth2 by lia. rewrite Lf. destruct (Nat.ltb_spec c (n + n)) as [C2|C2]; cbn [andb].
    + rewrite app_nth1 by lia. rewrite nth_firstn' by lia. assert (E : nth c f 0 = 0).
      { replace c with (n + (c - n)) by lia. rewrite <- nth_skipn', <- (nth_firstn' 0 n) by lia. rewrite H0. apply nth_repeat. }
      rewrite E. cbn [Nat.add]. apply Hm. lia.
    + rewrite Nat.add_0_r, app_nth2 by lia. rewrite Lf, nth_skipn'. replace (n + n + (c - n - n)) with c by lia. now apply Hm.
Qed.
(** Controlled shifts copy all number states: the orthogonal states of the theorem above can be copied. *)
Theorem C77_numbers_copied : forall D ncl full n its X rnd, 1 <= dL D -> 2 <= dN D -> 1 <= n -> n + n <= dN D -> proper_items D ncl its ->
  exists nodes, program_nodes D ncl (copy_numbers n) = Some nodes /\
  exists eps0, (0 < eps0)%R /\ forall eps, (0 < eps <= eps0)%R ->
    let c := Circuit D ncl eps full (fresh_keys D) nodes in
    exists out, evaluate_circuit X rnd c (coll_of c its) = Ok (coll_of c out) /\
      forall l st a other, only its l st -> In a (tuples (dL D) n) ->
        holds D n (number_state a) (fun f => number_state (repeat 0 n) (firstn n f) * other (skipn n f))%C st ->
        from l out <> [] /\ forall it, In it (from l out) -> holds_twice D n (number_state a) (snd it).
Proof.
  intros D ncl full n its X rnd HL HN H1 Hn Hp.
  assert (HA : Forall (accepted D ncl) (copy_numbers n)).
  { constructor; [|constructor]. cbn [accepted]. rewrite !seq_length, Nat.min_id. split; [lia|]. split; intros c Hc; rewrite firstn_all2 in Hc by (rewrite seq_length; lia); apply in_seq in Hc; lia. }
  assert (HC : Forall (careful D ncl) (copy_numbers n)).
  { constructor; [|constructor]. cbn [careful]. intros [a b] [a' b'] H2 H3. apply in_combine_l in H2. apply in_combine_r in H3. apply in_seq in H2, H3. cbn. lia. }
  destruct (accepted_program D ncl _ HN HA) as (nodes & B). exists nodes. split; [exact B|].
  destruct (C62_program D ncl full _ nodes its X rnd HL HN B HC Hp) as (e & He & H). exists e. split; [exact He|]. intros eps Heps c. destruct (H eps Heps) as (out & E & Po & Hs). exists out. split; [exact E|].
  intros l st a other Ho Ha Hh. pose proof (only_proper D ncl its l st Hp Ho) as Ps. destruct Ho as (i & F).
  assert (Hi : In (i, st) its /\ s_init st = l). { assert (H0 : In (i, st) (from l its)) by (rewrite F; now left). unfold from in H0. apply filter_In in H0. destruct H0 as [A1 A2]. split; [exact A1|now apply leqb_spec in A2]. } destruct Hi as [Hi Hl].
  pose proof Ps as (_ & _ & _ & Cs & _). pose proof (tuple_length _ _ _ Ha) as La.
  unfold copy_numbers in Hs. cbn [flat_map meaning app] in Hs. unfold run in Hs. cbn [fold_left] in Hs. set (T := fun f g : values => if leqb g (sum_of (dL D) (combine (seq 0 n) (seq n n)) f) then RtoC 1 else RtoC 0) in *.
  assert (HE : forall b, In b (flat_map (perform D (Transform T)) (branches_of D its)) -> b_label b = l -> b = Branch (s_init st) (s_classical st) (evolve D T (b_wave (branch_of D st)))).
  { intros b Hb Lb. apply in_flat_map in Hb. destruct Hb as (b0 & Hb0 & Hb). unfold branches_of in Hb0. apply in_map_iff in Hb0. destruct Hb0 as (it0 & <- & Hit0). cbn [perform In] in Hb. destruct Hb as [<-|[]]. cbn [b_label branch_of] in Lb.
    assert (H0 : In it0 (from l its)) by (unfold from; apply filter_In; split; [exact Hit0|now apply leqb_spec]). rewrite F in H0. destruct H0 as [<-|[]]. reflexivity. }
  split.
  - assert (Hn0 : nonzero D (Branch (s_init st) (s_classical st) (evolve D T (b_wave (branch_of D st)))) = true).
    { unfold nonzero. destruct (Req_EM_T _ _) as [Ez|]; [|reflexivity]. exfalso.
      pose proof (program_means D ncl HL HN _ nodes B HC) as HM. pose proof (means_all D ncl _ _ HL HN HM) as HI. unfold copy_numbers in HI. cbn [flat_map meaning app] in HI. inversion HI as [|x y HI1 _]; subst. cbn [isometric relabel] in HI1.
      pose proof (evolve_inner D T (b_wave (branch_of D st)) (b_wave (branch_of D st)) HI1) as Ei. rewrite !inner_self in Ei. apply RtoC_inj in Ei. unfold weight in Ez. cbn [b_wave] in Ez. change (nrm D (evolve D T (b_wave (branch_of D st))) = 0%R) in Ez. rewrite (nrm_branch D ncl st HL Ps) in Ei. lra. }
    destruct (branch_result D out _ (Branch (s_init st) (s_classical st) (evolve D T (b_wave (branch_of D st)))) Hs) as (it & Hit & L & _); [|exact Hn0|].
    + apply in_flat_map. exists (branch_of D st). split; [unfold branches_of; apply in_map_iff; now exists (i, st)|]. cbn [perform]. now left.
    + intro H0. assert (Hin : In it (from l out)) by (unfold from; apply filter_In; split; [exact Hit|]; apply leqb_spec; rewrite L; cbn; exact Hl). rewrite H0 in Hin. destruct Hin.
  - intros it Hit. pose proof (from_proper D ncl out l it Po Hit) as Pi. pose proof Pi as (_ & _ & _ & Ci & _). unfold from in Hit. apply filter_In in Hit. destruct Hit as [Hit Hlab]. apply leqb_spec in Hlab.
    destruct (result_branch D ncl its out _ it Po Hs Hit) as (b & Hb & L & _ & W). rewrite (HE b Hb) in W by congruence. cbn [b_wave] in W.
    exists (fun f => RtoC (sqrt (s_cum st) / sqrt (s_cum (snd it))) * other f)%C. intros f V.
    assert (Hq : (0 < sqrt (s_cum (snd it)))%R) by (apply sqrt_lt_R0; lra).
    specialize (W f V). cbn [branch_of b_wave] in W.
    assert (We : evolve D T (fun f => RtoC (sqrt (s_cum st)) * amp_of D st f)%C f = (RtoC (sqrt (s_cum st)) * (number_state a (firstn n f) * number_state a (firstn n (skipn n f)) * other (skipn (n + n) f)))%C).
    { unfold evolve. destruct V as [Vl VF]. rewrite Forall_forall in VF.
      set (f0 := a ++ repeat 0 n ++ skipn (n + n) f).
      assert (V0 : valid D f0).
      { split; [unfold f0; rewrite !app_length, La, repeat_length, skipn_length; lia|]. apply Forall_forall. intros x Hx. unfold f0 in Hx. apply in_app_or in Hx. destruct Hx as [Hx|Hx]; [apply tuples_in in Ha; destruct Ha as [_ Ha]; rewrite Forall_forall in Ha; now apply Ha|].
        apply in_app_or in Hx. destruct Hx as [Hx|Hx]; [apply repeat_spec in Hx; lia|]. apply VF. rewrite <- (firstn_skipn (n + n) f). apply in_or_app. now right. }
      assert (F0 : firstn n f0 = a /\ skipn n f0 = repeat 0 n ++ skipn (n + n) f) by (unfold f0; split; [now apply firstn_len|now apply skipn_len]). destruct F0 as [F1 F2].
      rewrite (Csum_single _ f0); [|apply basis_nodup|now apply basis_in|].
      - rewrite (Hh f0 V0), F1, F2, firstn_len, skipn_len by apply repeat_length. unfold number_state at 1 2. rewrite !leqb_refl. unfold T. rewrite sum_copy by (try assumption; rewrite F2; apply firstn_len, repeat_length). rewrite F1.
        rewrite <- (skipn_twice n n f0), F2, skipn_len by apply repeat_length.
        assert (Ef : leqb f (a ++ a ++ skipn (n + n) f) = leqb (firstn n f) a && leqb (firstn n (skipn n f)) a).
        { destruct (leqb f (a ++ a ++ skipn (n + n) f)) eqn:Ee.
          - apply leqb_spec in Ee. rewrite Ee. rewrite skipn_len, !firstn_len, !leqb_refl by exact La. reflexivity.
          - symmetry. apply andb_false_iff. destruct (leqb (firstn n f) a) eqn:E1; [right|now left]. destruct (leqb (firstn n (skipn n f)) a) eqn:E2; [|reflexivity]. exfalso. apply leqb_spec in E1, E2. assert (f = a ++ a ++ skipn (n + n) f) as Ex by (rewrite <- (firstn_skipn n f) at 1; rewrite E1; f_equal; rewrite <- (firstn_skipn n (skipn n f)) at 1; rewrite E2; f_equal; apply skipn_twice).
            rewrite <- Ex, leqb_refl in Ee. discriminate. }
        rewrite Ef. unfold number_state. destruct (leqb (firstn n f) a), (leqb (firstn n (skipn n f)) a); cbn [andb]; ring.
      - intros f' Hf' Hne. apply basis_in in Hf'. rewrite (Hh f' Hf'). unfold number_state. destruct (leqb (firstn n f') a) eqn:E1; [|ring]. destruct (leqb (firstn n (skipn n f')) (repeat 0 n)) eqn:E2; [|ring]. apply leqb_spec in E1, E2.
        unfold T. rewrite sum_copy by assumption. rewrite E1. destruct (leqb f (a ++ a ++ skipn (n + n) f')) eqn:E3; [|ring]. exfalso. apply Hne. apply leqb_spec in E3. unfold f0. rewrite E3. rewrite <- (skipn_twice n n (a ++ a ++ skipn (n + n) f')), !skipn_len by exact La.
        rewrite <- (firstn_skipn n f') at 1. rewrite E1. f_equal. rewrite <- (firstn_skipn n (skipn n f')) at 1. rewrite E2. f_equal. apply skipn_twice. }
    change (b_wave (branch_of D st)) with (fun f => RtoC (sqrt (s_cum st)) * amp_of D st f)%C in W. rewrite We in W.
    assert (HR : RtoC (sqrt (s_cum (snd it))) <> RtoC 0) by (intro Z; apply RtoC_inj in Z; lra).
    transitivity (RtoC (/ sqrt (s_cum (snd it))) * (RtoC (sqrt (s_cum (snd it))) * amp_of D (snd it) f))%C.
    + rewrite Cmult_assoc, <- RtoC_mult, Rinv_l by lra. ring.
    + rewrite <- W. unfold Rdiv. rewrite RtoC_mult. ring.
Qed.

(** ** Concrete cases *)
(** A photon with a linear polarisation and two empty channels. *)
Definition photon_and_blank (lab : nat) (t : R) : ident * state :=
  ([lab], State [lab] 1 [([1;0;0;0], (RtoC (cos t), cos t * cos t)%R); ([0;1;0;0], (RtoC (sin t), sin t * sin t)%R)] [0%R] [] []).
Definition case_photons : items := [photon_and_blank 1 (PI / 6); photon_and_blank 2 (- (PI / 6))].
Lemma case_state lab t : cos t <> 0%R -> sin t <> 0%R -> proper_state (Dims 2 4 true) 1 (snd (photon_and_blank lab t)).
Proof.
  intros H1 H2. pose proof (sin2_cos2 t) as Hs. unfold Rsqr in Hs. cbn [snd photon_and_blank]. split; [|split; [|split; [|split; [|split; reflexivity]]]].
  - split; [repeat constructor; cbn; intuition discriminate|]. intros nm. cbn. intros [<-|[<-|[]]]; [exists [1;0;0;0]|exists [0;1;0;0]]; (split; [|reflexivity]); repeat constructor.
  - intros nm x p [E|[E|[]]]; injection E as <- <- <-; (split; [intro H; now apply RtoC_inj in H|now rewrite Cnorm2_RtoC]).
  - unfold state_norm2. cbn. rewrite !Cnorm2_RtoC. lra.
  - cbn. lra.
Qed.
Lemma case_holds lab t : holds (Dims 2 4 true) 2 (wave_of (photon_at t)) (number_state [0;0]) (snd (photon_and_blank lab t)).
Proof.
  intros f Vf. apply basis_in in Vf. vm_compute in Vf. unfold wave_of, photon_at, number_state. rewrite !Csum_cons, !Csum_nil. repeat (destruct Vf as [<-|Vf]; [apply C_eq; cbn; ring|]). destruct Vf.
Qed.
Lemma case_scalar s t : scalar 2 2 (wave_of (photon_at s)) (wave_of (photon_at t)) = RtoC (cos (s - t)).
Proof.
  rewrite cos_minus. unfold scalar, wave_of, photon_at. cbn [tuples flat_map seq map app]. rewrite !Csum_cons, !Csum_nil. cbn [fst snd leqb Nat.eqb andb]. apply C_eq; cbn; ring.
Qed.
(** Two polarisations that are neither equal nor orthogonal: no circuit at all copies them. *)
Example C77_case : let D := Dims 2 4 true in
  proper_items D 1 case_photons /\ only case_photons [1] (snd (photon_and_blank 1 (PI / 6))) /\ only case_photons [2] (snd (photon_and_blank 2 (- (PI / 6)))) /\
  normalised 2 2 (wave_of (photon_at (PI / 6))) /\ normalised 2 2 (wave_of (photon_at (- (PI / 6)))) /\
  forall full nodes ops X rnd, Forall2 (means D 1) nodes ops ->
  exists eps0, (0 < eps0)%R /\ forall eps, (0 < eps <= eps0)%R ->
    let c := Circuit D 1 eps full (fresh_keys D) nodes in
    exists out, evaluate_circuit X rnd c (coll_of c case_photons) = Ok (coll_of c out) /\
      ~ ((forall it, In it (from [1] out) -> holds_twice D 2 (wave_of (photon_at (PI / 6))) (snd it)) /\
         (forall it, In it (from [2] out) -> holds_twice D 2 (wave_of (photon_at (- (PI / 6)))) (snd it))).
Proof.
  assert (Hs : sin (PI / 6) <> 0%R) by (rewrite sin_PI6; lra). assert (Hc : cos (PI / 6) <> 0%R) by (pose proof PI_RGT_0; apply Rgt_not_eq, cos_gt_0; lra).
  assert (Hp : proper_items (Dims 2 4 true) 1 case_photons).
  { split; [discriminate|]. split; [repeat constructor; cbn; intuition discriminate|]. apply Forall_cons; [now apply case_state|]. apply Forall_cons; [|apply Forall_nil]. apply case_state; rewrite ?cos_neg, ?sin_neg; lra. }
  assert (O1 : only case_photons [1] (snd (photon_and_blank 1 (PI / 6)))) by now exists [1]. assert (O2 : only case_photons [2] (snd (photon_and_blank 2 (- (PI / 6))))) by now exists [2].
  assert (N : forall t, normalised 2 2 (wave_of (photon_at t))) by (intro t; unfold normalised; rewrite case_scalar; rewrite Rminus_diag_eq, cos_0 by reflexivity; reflexivity).
  split; [exact Hp|]. split; [exact O1|]. split; [exact O2|]. split; [apply N|]. split; [apply N|].
  intros full nodes ops X rnd HM. destruct (C77_no_cloning (Dims 2 4 true) 1 full nodes ops case_photons X rnd [1] [2] _ _ 2 _ _ (number_state [0;0]) ltac:(cbn; lia) ltac:(cbn; lia) ltac:(cbn; lia) HM Hp O1 O2 eq_refl (N (PI / 6)%R) (N (- (PI / 6))%R) (case_holds _ _) (case_holds _ _)) as (e & He & H).
  exists e. split; [exact He|]. intros eps Heps c. destruct (H eps Heps) as (out & E & Hno). exists out. split; [exact E|]. intros [T1 T2].
  assert (Ec : scalar 2 2 (wave_of (photon_at (PI / 6))) (wave_of (photon_at (- (PI / 6)))) = RtoC (1 / 2)) by (rewrite case_scalar; f_equal; replace (PI / 6 - - (PI / 6))%R with (PI / 3)%R by field; apply cos_PI3).
  destruct (Hno T1 T2) as [Z|(k & Hk & Hf)].
  - cbn [dL] in Z. rewrite Ec in Z. apply RtoC_inj in Z. lra.
  - cbn [dL] in Hf. assert (Ek : scalar 2 2 (wave_of (photon_at (PI / 6))) (wave_of (photon_at (- (PI / 6)))) = k).
    { unfold scalar. transitivity (Csum (tuples 2 2) (fun f => k * (wave_of (photon_at (- (PI / 6))) f * Cconj (wave_of (photon_at (- (PI / 6))) f)))%C); [apply Csum_ext; intros f Hin; rewrite (Hf f Hin); ring|].
      rewrite Csum_scal_l. pose proof (N (- (PI / 6))%R) as Hn. unfold normalised, scalar in Hn. rewrite Hn. ring. }
    rewrite Ek in Ec. rewrite Ec, Cnorm2_RtoC in Hk. lra.
Qed.
(** A measurement of an empty channel leaves these states as they are. *)
Example C77_undisturbed_case : let D := Dims 2 4 true in
  overlap D (snd (photon_and_blank 1 (PI / 6))) (snd (photon_and_blank 2 (- (PI / 6)))) <> RtoC 0 /\
  exists nodes, program_nodes D 1 [Detectors [3] [0]] = Some nodes /\
  exists eps0, (0 < eps0)%R /\ forall eps, (0 < eps <= eps0)%R ->
    let c := Circuit D 1 eps true (fresh_keys D) nodes in forall X rnd,
    exists out, evaluate_circuit X rnd c (coll_of c case_photons) = Ok (coll_of c out) /\
      (forall it, In it (from [1] out) -> undisturbed D (snd (photon_and_blank 1 (PI / 6))) (snd it)) /\ (forall it, In it (from [2] out) -> undisturbed D (snd (photon_and_blank 2 (- (PI / 6)))) (snd it)).
Proof.
  pose proof C77_case as (Hp & O1 & O2 & _). split.
  - intro Z. assert (E : overlap (Dims 2 4 true) (snd (photon_and_blank 1 (PI / 6))) (snd (photon_and_blank 2 (- (PI / 6)))) = (scalar 2 2 (wave_of (photon_at (PI / 6))) (wave_of (photon_at (- (PI / 6)))) * scalar 2 2 (number_state [0;0]) (number_state [0;0]))%C).
    { rewrite <- scalar_product. unfold overlap. apply Csum_ext. intros f Hf. pose proof Hf as V. change (In f (basis (Dims 2 4 true))) in V. apply basis_in in V. now rewrite (case_holds 1 _ f V), (case_holds 2 _ f V). }
    rewrite E, case_scalar in Z. replace (PI / 6 - - (PI / 6))%R with (PI / 3)%R in Z by field. rewrite cos_PI3 in Z. unfold scalar, number_state in Z. cbn [tuples flat_map seq map app] in Z. rewrite !Csum_cons, !Csum_nil in Z. cbn [leqb Nat.eqb andb] in Z. apply (f_equal fst) in Z. cbn in Z. lra.
  - set (D := Dims 2 4 true) in *. assert (B : exists nodes, program_nodes D 1 [Detectors [3] [0]] = Some nodes) by (eexists; reflexivity). destruct B as (nodes & B). exists nodes. split; [exact B|].
    assert (HC : Forall (careful D 1) [Detectors [3] [0]]) by (repeat constructor; cbn; intuition).
    pose proof (program_means D 1 ltac:(cbn; lia) ltac:(cbn; lia) _ nodes B HC) as HM. destruct (clear_throughout_exists D (flat_map (meaning D) [Detectors [3] [0]]) (branches_of D case_photons)) as (e & He & Hcl).
    exists e. split; [exact He|]. intros eps [Hp0 Hle] c X rnd. specialize (Hcl eps Hle).
    destruct (C62_branches D 1 eps true nodes _ case_photons X rnd ltac:(cbn; lia) ltac:(cbn; lia) Hp0 HM Hp Hcl) as (out & E & Po & Hs). exists out. split; [exact E|].
    assert (G : forall l st, only case_photons l st -> (forall f, valid D f -> nth 3 f 0 <> 0 -> amp_of D st f = RtoC 0) -> forall it, In it (from l out) -> undisturbed D st (snd it)).
    { intros l st (i & F) Hz it Hit. pose proof (from_proper D 1 out l it Po Hit) as Pi. pose proof (only_proper D 1 case_photons l st Hp (ex_intro _ i F)) as Ps. unfold from in Hit. apply filter_In in Hit. destruct Hit as [Hit Hl]. apply leqb_spec in Hl.
      destruct (result_branch D 1 case_photons out _ it Po Hs Hit) as (b & Hb & L & _ & W). cbn [flat_map meaning app run fold_left] in Hb. apply in_flat_map in Hb. destruct Hb as (b0 & Hb0 & Hb). unfold branches_of in Hb0. apply in_map_iff in Hb0. destruct Hb0 as (it0 & <- & Hit0).
      cbn [perform] in Hb. apply in_map_iff in Hb. destruct Hb as (o & <- & _). cbn [reading b_label b_wave branch_of] in L, W.
      assert (H0 : In it0 (from l case_photons)) by (unfold from; apply filter_In; split; [exact Hit0|]; apply leqb_spec; congruence). rewrite F in H0. destruct H0 as [<-|[]]. cbn [snd] in *.
      assert (Wo : o = [0]).
      { destruct (list_eq_dec Nat.eq_dec o [0]) as [|Hno]; [assumption|]. exfalso. pose proof (nrm_branch D 1 (snd it) ltac:(cbn; lia) Pi) as Hn. pose proof Pi as (_ & _ & _ & Ci & _). pose proof (nrm_ext' D _ _ W) as Hw. cbn [b_wave branch_of] in Hn. rewrite <- Hw in Hn.
        rewrite (nrm_ext' D _ (fun _ => RtoC 0)) in Hn; [unfold nrm in Hn; rewrite Rsum_zero in Hn by (intros; unfold Cnorm2; cbn; ring); lra|].
        intros f V. destruct (leqb (readout [3] f) o) eqn:Eo; [|reflexivity]. apply leqb_spec in Eo. subst o. rewrite Hz; [ring|exact V|]. intro Z. apply Hno. cbn. now rewrite Z. }
      subst o. assert (W' : forall f, valid D f -> b_wave (branch_of D st) f = b_wave (branch_of D (snd it)) f).
      { intros f V. cbn [b_wave branch_of]. rewrite <- (W f V). destruct (leqb (readout [3] f) [0]) eqn:Eo; [reflexivity|]. rewrite Hz; [ring|exact V|]. intro Z. cbn in Eo. rewrite Z in Eo. discriminate. }
      pose proof (nrm_ext' D _ _ W') as Hn. rewrite !(nrm_branch D 1) in Hn by (try assumption; cbn; lia). pose proof Ps as (_ & _ & _ & Cs & _).
      exists (RtoC 1). split; [unfold Cnorm2; cbn; ring|]. intros f V. specialize (W' f V). cbn [b_wave branch_of] in W'. rewrite <- Hn in W'. assert (HR : RtoC (sqrt (s_cum st)) <> RtoC 0) by (intro Z; apply RtoC_inj in Z; pose proof (sqrt_lt_R0 _ (proj1 Cs)); lra).
      transitivity (RtoC (/ sqrt (s_cum st)) * (RtoC (sqrt (s_cum st)) * amp_of D (snd it) f))%C; [rewrite Cmult_assoc, <- RtoC_mult, Rinv_l by (intro Z; apply HR; now rewrite Z); ring|]. rewrite <- W'. rewrite Cmult_assoc, <- RtoC_mult, Rinv_l by (intro Z; apply HR; now rewrite Z). ring. }
    assert (Z : forall lab t f, valid D f -> nth 3 f 0 <> 0 -> amp_of D (snd (photon_and_blank lab t)) f = RtoC 0).
    { intros lab t f V Hn. apply basis_in in V. vm_compute in V. repeat (destruct V as [<-|V]; [cbn in Hn |- *; first [reflexivity|now contradiction Hn]|]). destruct V. }
    split; [apply (G [1]); [exact O1|apply Z]|apply (G [2]); [exact O2|apply Z]].
Qed.
Print Assumptions C77_overlap.
Print Assumptions C77_no_information.
Print Assumptions C77_no_cloning.
Print Assumptions C77_numbers_copied.
