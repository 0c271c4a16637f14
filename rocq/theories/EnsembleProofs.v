(** Ensembles and observables. *)
From Coq Require Import Reals List Arith Lia Lra Bool Permutation.
From Coquelicot Require Import Complex.
From Verif Require Import Prelude NamesModel NamesSpec NamesProofs FockModel FockSpec FockProofs GateProofs
  OpticalModel StateModel StateSpec CollectionModel EvalModel MeasureSpec MeasureProofs InterferenceSpec ArrangementProofs CircuitSpec CircuitProofs.
Import ListNotations.

(** An observable: for every label and register a matrix. *)
Definition observable := ident -> list R -> values -> values -> C.
Definition expect1 (D : dims) (o : observable) (b : branch) : C :=
  Csum (basis D) (fun f => Csum (basis D) (fun g => o (b_label b) (b_reg b) f g * (b_wave b f * Cconj (b_wave b g)))%C).
Definition expect (D : dims) (E : list branch) (o : observable) : C := Csum E (expect1 D o).

Definition key_dec : forall a b : ident * list R, {a = b} + {a <> b}.
Proof. decide equality; apply list_eq_dec; [exact Req_EM_T|exact Nat.eq_dec]. Defined.
Definition keyb (a b : ident * list R) : bool := if key_dec a b then true else false.
Lemma leqb_refl a : leqb a a = true.
Proof. now apply leqb_spec. Qed.
Lemma density_key E l r f g : density E l r f g = Csum E (fun b => if keyb (b_label b, b_reg b) (l, r) then (b_wave b f * Cconj (b_wave b g))%C else RtoC 0).
Proof.
  unfold density. apply Csum_ext. intros b _. unfold keyb. destruct (key_dec _ _) as [E0|E0].
  - injection E0 as -> ->. rewrite leqb_refl. destruct (list_eq_dec _ _ _); congruence.
  - destruct (leqb _ _) eqn:E1; [|reflexivity]. apply leqb_spec in E1. destruct (list_eq_dec _ _ _); [|reflexivity]. exfalso. apply E0. congruence.
Qed.
Lemma expect_density D E K o : NoDup K -> (forall b, In b E -> In (b_label b, b_reg b) K) ->
  expect D E o = Csum K (fun k => Csum (basis D) (fun f => Csum (basis D) (fun g => o (fst k) (snd k) f g * density E (fst k) (snd k) f g)%C)).
Proof.
  intros NK HK.
  transitivity (Csum E (fun b => Csum K (fun k => if keyb (b_label b, b_reg b) k then expect1 D o b else RtoC 0))).
  - apply Csum_ext. intros b Hb. rewrite (Csum_single K (b_label b, b_reg b)); [unfold keyb; destruct (key_dec _ _); [reflexivity|congruence]|exact NK|now apply HK|].
    intros k _ Hk. unfold keyb. destruct (key_dec _ _); [congruence|reflexivity].
  - rewrite Csum_swap. apply Csum_ext. intros [l r] _. cbn [fst snd].
    transitivity (Csum E (fun b => Csum (basis D) (fun f => Csum (basis D) (fun g => o l r f g * (if keyb (b_label b, b_reg b) (l, r) then b_wave b f * Cconj (b_wave b g) else RtoC 0)))%C)).
    + apply Csum_ext. intros b _. unfold keyb. destruct (key_dec _ _) as [E0|E0].
      * injection E0 as <- <-. reflexivity.
      * symmetry. apply Csum_zero. intros f _. apply Csum_zero. intros g _. ring.
    + rewrite Csum_swap. apply Csum_ext. intros f _. rewrite Csum_swap. apply Csum_ext. intros g _. rewrite Csum_scal_l. f_equal. symmetry. apply density_key.
Qed.
Lemma same_ensemble_expect D E E' : same_ensemble D E E' <-> forall o, expect D E o = expect D E' o.
Proof.
  split.
  - intros H o. set (K := nodup key_dec (map (fun b => (b_label b, b_reg b)) (E ++ E'))).
    rewrite (expect_density D E K), (expect_density D E' K); try apply NoDup_nodup.
    + apply Csum_ext. intros k _. apply Csum_ext. intros f Hf. apply Csum_ext. intros g Hg. apply basis_in in Hf, Hg. now rewrite H.
    + intros b Hb. apply nodup_In. apply (in_map (fun b => (b_label b, b_reg b))). apply in_or_app. now right.
    + intros b Hb. apply nodup_In. apply (in_map (fun b => (b_label b, b_reg b))). apply in_or_app. now left.
  - intros H l r f g Vf Vg.
    assert (G : forall E0, density E0 l r f g = expect D E0 (fun l' r' f' g' => if keyb (l', r') (l, r) then if leqb f' f then if leqb g' g then RtoC 1 else RtoC 0 else RtoC 0 else RtoC 0)).
    { intro E0. rewrite density_key. unfold expect. apply Csum_ext. intros b _. unfold expect1. destruct (keyb _ _).
      - rewrite (Csum_single (basis D) f); [|apply basis_nodup|now apply basis_in|].
        + rewrite (Csum_single (basis D) g); [|apply basis_nodup|now apply basis_in|].
          * rewrite !leqb_refl. ring.
          * intros g' _ Hn. rewrite leqb_refl. destruct (leqb g' g) eqn:Eg; [apply leqb_spec in Eg; congruence|ring].
        + intros f' _ Hn. apply Csum_zero. intros g' _. destruct (leqb f' f) eqn:Ef; [apply leqb_spec in Ef; congruence|ring].
      - symmetry. apply Csum_zero. intros f' _. apply Csum_zero. intros g' _. ring. }
    rewrite !G. apply H.
Qed.

(** What has to be observed before an operation to know what is observed after it. *)
Definition before (D : dims) (op : operation) (o : observable) : observable :=
  match op with
  | Element A h v => fun l r f g => Csum (basis D) (fun f' => Csum (basis D) (fun g' => o l r f' g' * (pair_amp D (A r) h v f f' * Cconj (pair_amp D (A r) h v g g'))))%C
  | Transform T => fun l r f g => Csum (basis D) (fun f' => Csum (basis D) (fun g' => o l r f' g' * (T f f' * Cconj (T g g'))))%C
  | Compute F => fun l r f g => o l (F r) f g
  | Detect opt cl => fun l r f g => if leqb (readout opt f) (readout opt g) then o l (noted cl (readout opt f) r) f g else RtoC 0
  end.
Lemma Csum_prod {A B} (l : list A) (m : list B) F G : (Csum l F * Csum m G)%C = Csum l (fun x => Csum m (fun y => F x * G y)%C).
Proof. rewrite <- Csum_scal_r. apply Csum_ext. intros x _. now rewrite Csum_scal_l. Qed.
Lemma evolve_expect D T (o : values -> values -> C) w :
  Csum (basis D) (fun f' => Csum (basis D) (fun g' => o f' g' * (evolve D T w f' * Cconj (evolve D T w g')))%C)
  = Csum (basis D) (fun f => Csum (basis D) (fun g => Csum (basis D) (fun f' => Csum (basis D) (fun g' => o f' g' * (T f f' * Cconj (T g g'))))%C * (w f * Cconj (w g)))%C).
Proof.
  transitivity (Csum (basis D) (fun f' => Csum (basis D) (fun g' => Csum (basis D) (fun f => Csum (basis D) (fun g => o f' g' * (T f f' * Cconj (T g g')) * (w f * Cconj (w g)))%C)))).
  - apply Csum_ext. intros f' _. apply Csum_ext. intros g' _. unfold evolve. rewrite Csum_conj, Csum_prod, <- Csum_scal_l. apply Csum_ext. intros f _. rewrite <- Csum_scal_l.
    apply Csum_ext. intros g _. rewrite Cconj_mult. ring.
  - transitivity (Csum (basis D) (fun f' => Csum (basis D) (fun f => Csum (basis D) (fun g' => Csum (basis D) (fun g => o f' g' * (T f f' * Cconj (T g g')) * (w f * Cconj (w g)))%C)))).
    { apply Csum_ext. intros f' _. apply Csum_swap. }
    rewrite Csum_swap. apply Csum_ext. intros f _.
    transitivity (Csum (basis D) (fun f' => Csum (basis D) (fun g => Csum (basis D) (fun g' => o f' g' * (T f f' * Cconj (T g g')) * (w f * Cconj (w g)))%C))).
    { apply Csum_ext. intros f' _. apply Csum_swap. }
    rewrite Csum_swap. apply Csum_ext. intros g _. rewrite <- Csum_scal_r. apply Csum_ext. intros f' _. now rewrite <- Csum_scal_r.
Qed.
Lemma expect_perform D op o b : expect D (perform D op b) o = expect1 D (before D op o) b.
Proof.
  destruct op as [A h v|T|F|opt cl]; unfold expect; cbn [perform before].
  - rewrite Csum_cons, Csum_nil. unfold expect1. cbn [b_label b_reg b_wave]. rewrite evolve_expect. ring.
  - rewrite Csum_cons, Csum_nil. unfold expect1. cbn [b_label b_reg b_wave]. rewrite evolve_expect. ring.
  - rewrite Csum_cons, Csum_nil. unfold expect1. cbn [b_label b_reg b_wave]. ring.
  - rewrite Csum_map. unfold expect1. cbn [reading b_label b_reg b_wave]. rewrite Csum_swap. apply Csum_ext. intros f Hf. rewrite Csum_swap. apply Csum_ext. intros g Hg.
    assert (Hin : In (readout opt f) (all_readings D opt)) by (apply nodup_In; now apply in_map).
    destruct (leqb (readout opt f) (readout opt g)) eqn:E.
    + apply leqb_spec in E. rewrite (Csum_single _ (readout opt f)); [|apply NoDup_nodup|exact Hin|].
      * rewrite <- E, leqb_refl. reflexivity.
      * intros o' _ Hn. destruct (leqb (readout opt f) o') eqn:E1; [apply leqb_spec in E1; congruence|]. ring.
    + rewrite Csum_zero; [ring|]. intros o' _. destruct (leqb (readout opt f) o') eqn:E1; [|ring]. apply leqb_spec in E1. subst o'.
      rewrite leqb_sym, E. rewrite Cconj_RtoC. ring.
Qed.
Definition before_all (D : dims) (ops : list operation) (o : observable) : observable := fold_right (before D) o ops.
Lemma expect_flat D op o E : expect D (flat_map (perform D op) E) o = expect D E (before D op o).
Proof. unfold expect. rewrite Csum_flat_map. apply Csum_ext. intros b _. apply (expect_perform D op o b). Qed.
Lemma expect_run D ops : forall E o, expect D (run D ops E) o = expect D E (before_all D ops o).
Proof. induction ops as [|op ops IH]; intros E o; [reflexivity|]. rewrite run_cons, IH, expect_flat. reflexivity. Qed.
Lemma run_same D ops E E' : same_ensemble D E E' -> same_ensemble D (run D ops E) (run D ops E').
Proof. rewrite !same_ensemble_expect. intros H o. rewrite !expect_run. apply H. Qed.

(** Observables that agree on all branches of an ensemble. *)
Definition agree (D : dims) (ncl : nat) (o o' : observable) : Prop :=
  forall l r f g, length r = ncl -> valid D f -> valid D g -> o l r f g = o' l r f g.
Definition registers (ncl : nat) (E : list branch) : Prop := forall b, In b E -> length (b_reg b) = ncl.
Lemma expect_agree D ncl o o' E : agree D ncl o o' -> registers ncl E -> expect D E o = expect D E o'.
Proof.
  intros H HE. apply Csum_ext. intros b Hb. apply Csum_ext. intros f Hf. apply Csum_ext. intros g Hg. apply basis_in in Hf, Hg. rewrite H by (try assumption; now apply HE). reflexivity.
Qed.

(** Same branches: same ensemble. *)
Lemma same_branches_ensemble D E E' : same_branches D E (filter (nonzero D) E') -> same_ensemble D E E'.
Proof.
  intros (E1 & HP & HF) l r f g Vf Vg. transitivity (density E1 l r f g); [|transitivity (density (filter (nonzero D) E') l r f g)].
  - unfold density. clear HP. induction HF as [|b b' m m' (H1 & H2 & H3) HF IH]; [reflexivity|]. rewrite !Csum_cons, IH, H1, H2, !H3 by assumption. reflexivity.
  - unfold density. now apply Csum_perm.
  - unfold density. rewrite Csum_filter. apply Csum_ext. intros b _. destruct (nonzero D b) eqn:E0; [reflexivity|]. unfold nonzero in E0. destruct (Req_EM_T (weight D b) 0) as [H0|]; [|discriminate].
    assert (Hz : b_wave b f = RtoC 0).
    { apply Cnorm2_eq0. apply Rle_antisym; [|apply Cnorm2_nonneg]. rewrite <- H0. unfold weight. apply (Rsum_le_term _ (fun f => Cnorm2 (b_wave b f)) f); [intros; apply Cnorm2_nonneg|now apply basis_in]. }
    rewrite Hz. destruct (leqb _ _); [|reflexivity]. destruct (list_eq_dec _ _ _); [ring|reflexivity].
Qed.
Lemma density_branches D its l r f g : Forall (fun it : ident * state => (0 <= s_cum (snd it))%R) its -> density (branches_of D its) l r f g = density_matrix D its l r f g.
Proof.
  intro H. unfold density, branches_of, density_matrix. rewrite Csum_map. apply Csum_ext. intros it Hin. rewrite Forall_forall in H. specialize (H it Hin). cbn [branch_of b_label b_reg b_wave].
  destruct (leqb _ _); [|reflexivity]. destruct (list_eq_dec _ _ _); [|reflexivity]. rewrite Cconj_mult, Cconj_RtoC. rewrite <- (sqrt_sqrt (s_cum (snd it))) at 3 by exact H. rewrite RtoC_mult. ring.
Qed.

(** ** Clear ensembles *)
Lemma clear_exists D E : exists eps0, (0 < eps0)%R /\ forall eps, (eps <= eps0)%R -> clear D eps E.
Proof.
  assert (G1 : forall b, exists eps0, (0 < eps0)%R /\ forall eps f, (eps <= eps0)%R -> valid D f -> b_wave b f = RtoC 0 \/ (eps * weight D b <= Cnorm2 (b_wave b f))%R).
  { intro b. assert (Hw : (0 <= weight D b)%R) by (apply Rsum_nonneg; intros; apply Cnorm2_nonneg).
    assert (G : forall l, exists eps0, (0 < eps0)%R /\ forall eps f, (eps <= eps0)%R -> In f l -> b_wave b f = RtoC 0 \/ (eps * weight D b <= Cnorm2 (b_wave b f))%R).
    { induction l as [|f l (e & He & IH)]; [exists 1%R; split; [lra|intros ? ? _ []]|]. destruct (Req_EM_T (Cnorm2 (b_wave b f)) 0) as [H0|H0].
      - exists e. split; [exact He|]. intros eps g Hle [<-|Hg]; [left; now apply Cnorm2_eq0|now apply IH].
      - pose proof (Cnorm2_nonneg (b_wave b f)). exists (Rmin e (Cnorm2 (b_wave b f) / (weight D b + 1))). split.
        + apply Rmin_glb_lt; [exact He|]. apply Rdiv_lt_0_compat; lra.
        + intros eps g Hle [<-|Hg]; [|apply IH; [|exact Hg]; eapply Rle_trans; [exact Hle|apply Rmin_l]]. right.
          assert (Hle2 : (eps <= Cnorm2 (b_wave b f) / (weight D b + 1))%R) by (eapply Rle_trans; [exact Hle|apply Rmin_r]).
          apply Rle_trans with (Cnorm2 (b_wave b f) / (weight D b + 1) * weight D b)%R; [now apply Rmult_le_compat_r|].
          apply (Rmult_le_reg_r (weight D b + 1)); [lra|]. unfold Rdiv. replace (Cnorm2 (b_wave b f) * / (weight D b + 1) * weight D b * (weight D b + 1))%R with (Cnorm2 (b_wave b f) * weight D b)%R by (field; lra).
          apply Rmult_le_compat_l; lra. }
    destruct (G (basis D)) as (e & He & HG). exists e. split; [exact He|]. intros eps f Hle Vf. apply HG; [exact Hle|now apply basis_in]. }
  induction E as [|b E (e & He & IH)]; [exists 1%R; split; [lra|intros eps _ b f []]|]. destruct (G1 b) as (e1 & He1 & H1). exists (Rmin e e1). split; [now apply Rmin_glb_lt|].
  intros eps Hle b' f [<-|Hb] Vf.
  - apply H1; [|exact Vf]. eapply Rle_trans; [exact Hle|apply Rmin_r].
  - apply IH; try assumption. eapply Rle_trans; [exact Hle|apply Rmin_l].
Qed.
Lemma clear_throughout_exists D ops E : exists eps0, (0 < eps0)%R /\ forall eps, (eps <= eps0)%R -> clear_throughout D eps ops E.
Proof.
  assert (G : forall m, exists eps0, (0 < eps0)%R /\ forall eps, (eps <= eps0)%R -> forall n, n <= m -> clear D eps (run D (firstn n ops) E)).
  { induction m as [|m (e & He & IH)].
    - destruct (clear_exists D E) as (e & He & H). exists e. split; [exact He|]. intros eps Hle n Hn. assert (n = 0) by lia. subst n. now apply H.
    - destruct (clear_exists D (run D (firstn (S m) ops) E)) as (e1 & He1 & H1). exists (Rmin e e1). split; [now apply Rmin_glb_lt|]. intros eps Hle n Hn. destruct (Nat.eq_dec n (S m)) as [->|].
      + apply H1. eapply Rle_trans; [exact Hle|apply Rmin_r].
      + apply IH; [|lia]. eapply Rle_trans; [exact Hle|apply Rmin_l]. }
  destruct (G (length ops)) as (e & He & H). exists e. split; [exact He|]. intros eps Hle n. destruct (Nat.le_ge_cases n (length ops)) as [Hn|Hn]; [now apply H|].
  rewrite firstn_all2 by exact Hn. rewrite <- (firstn_all ops). now apply H.
Qed.
