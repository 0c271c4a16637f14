(** C63 to C67: consequences for whole circuits. *)
From Coq Require Import Reals List Arith Lia Lra Bool Permutation.
From Coquelicot Require Import Complex.
From Verif Require Import Prelude NamesModel NamesSpec NamesProofs FockModel FockSpec FockProofs GateProofs
  OpticalModel OpticalProofs StateModel StateSpec StateProofs CollectionModel EvalModel EvalSpec EvalProofs MeasureSpec MeasureProofs
  InterferenceSpec ArrangementProofs PermanentProofs CircuitSpec CircuitProofs EnsembleProofs PropCircuit ProtocolSpec ProtocolProofs PropCleanup ExponentialProofs.
Import ListNotations.

(** Two circuits evaluated on the same collection, for every threshold that is small enough. *)
Lemma two_circuits D ncl full nodes ops nodes2 ops2 its X rnd rnd2 (Q : items -> items -> Prop) : 1 <= dL D -> 2 <= dN D ->
  Forall2 (means D ncl) nodes ops -> Forall2 (means D ncl) nodes2 ops2 -> proper_items D ncl its ->
  (forall out out2, proper_items D ncl out -> proper_items D ncl out2 ->
     (forall o, expect D (branches_of D out) o = expect D (branches_of D its) (before_all D ops o)) ->
     (forall o, expect D (branches_of D out2) o = expect D (branches_of D its) (before_all D ops2 o)) -> Q out out2) ->
  exists eps0, (0 < eps0)%R /\ forall eps, (0 < eps <= eps0)%R ->
    let c := Circuit D ncl eps full (fresh_keys D) nodes in let c2 := Circuit D ncl eps full (fresh_keys D) nodes2 in
    exists out out2, evaluate_circuit X rnd c (coll_of c its) = Ok (coll_of c out) /\ evaluate_circuit X rnd2 c2 (coll_of c2 its) = Ok (coll_of c2 out2) /\ Q out out2.
Proof.
  intros HL HN HM HM2 Hp HQ. destruct (C62_exact D ncl full nodes ops its X rnd HL HN HM Hp) as (e & He & H). destruct (C62_exact D ncl full nodes2 ops2 its X rnd2 HL HN HM2 Hp) as (e2 & He2 & H2).
  exists (Rmin e e2). split; [now apply Rmin_glb_lt|]. intros eps [H0 Hle] c c2.
  destruct (H eps) as (out & E & Hpo & Hb); [split; [exact H0|eapply Rle_trans; [exact Hle|apply Rmin_l]]|]. destruct (H2 eps) as (out2 & E2 & Hpo2 & Hb2); [split; [exact H0|eapply Rle_trans; [exact Hle|apply Rmin_r]]|].
  exists out, out2. split; [exact E|]. split; [exact E2|]. apply HQ; try assumption; intro o; rewrite <- expect_run; eapply ensemble_result; eassumption.
Qed.
Lemma indistinguishable_expect D ncl its its2 : proper_items D ncl its -> proper_items D ncl its2 ->
  (forall o, expect D (branches_of D its) o = expect D (branches_of D its2) o) -> indistinguishable D its its2.
Proof.
  intros Hp Hp2 H l r f g Vf Vg. rewrite <- !density_branches by (eapply proper_cum; eassumption). apply (proj2 (same_ensemble_expect D _ _) H); assumption.
Qed.
Lemma before_all_app D a b o : before_all D (a ++ b) o = before_all D a (before_all D b o).
Proof. unfold before_all. apply fold_right_app. Qed.
Lemma before_all_agree D ncl ops o o' : Forall (isometric D ncl) ops -> agree D ncl o o' -> agree D ncl (before_all D ops o) (before_all D ops o').
Proof.
  intros HI H. induction HI as [|op ops Hop HI IH]; [exact H|]. change (before_all D (op :: ops) o) with (before D op (before_all D ops o)). change (before_all D (op :: ops) o') with (before D op (before_all D ops o')).
  apply before_agree; [|exact IH]. intros r Hr. destruct op; cbn in *; auto.
Qed.
(** Replacing a part of a circuit by another one with the same effect. *)
Lemma replace_part D ncl full pre part part2 post ops_pre ops ops2 ops_post its X rnd rnd2 : 1 <= dL D -> 2 <= dN D ->
  Forall2 (means D ncl) pre ops_pre -> Forall2 (means D ncl) part ops -> Forall2 (means D ncl) part2 ops2 -> Forall2 (means D ncl) post ops_post -> proper_items D ncl its ->
  (forall o, agree D ncl (before_all D ops o) (before_all D ops2 o)) ->
  exists eps0, (0 < eps0)%R /\ forall eps, (0 < eps <= eps0)%R ->
    let c := Circuit D ncl eps full (fresh_keys D) (pre ++ part ++ post) in let c2 := Circuit D ncl eps full (fresh_keys D) (pre ++ part2 ++ post) in
    exists out out2, evaluate_circuit X rnd c (coll_of c its) = Ok (coll_of c out) /\ evaluate_circuit X rnd2 c2 (coll_of c2 its) = Ok (coll_of c2 out2) /\ indistinguishable D out out2.
Proof.
  intros HL HN M1 M2 M3 M4 Hp HA. apply (two_circuits D ncl full _ (ops_pre ++ ops ++ ops_post) _ (ops_pre ++ ops2 ++ ops_post)); try assumption; try (now repeat apply Forall2_app).
  intros out out2 P1 P2 E1 E2. apply (indistinguishable_expect D ncl); try assumption. intro o. rewrite E1, E2. apply (expect_agree D ncl); [|exact (proper_registers D ncl its Hp)].
  rewrite !before_all_app. apply before_all_agree; [exact (means_all D ncl pre ops_pre HL HN M1)|]. apply HA.
Qed.

(** ** C63 *)
(** No signalling: if two circuits differ only in what Alice does in her optical and classical channels,
    the distributions of the values in the other classical channels are the same, wherever in the circuit
    her nodes stand and whatever the collection contains. *)
Theorem C63_no_signalling : forall D ncl full S K nodes ops nodes2 ops2 its X rnd rnd2, 1 <= dL D -> 2 <= dN D ->
  Forall2 (means D ncl) nodes ops -> Forall2 (means D ncl) nodes2 ops2 -> differ_by_alice D ncl S K ops ops2 -> proper_items D ncl its ->
  exists eps0, (0 < eps0)%R /\ forall eps, (0 < eps <= eps0)%R ->
    let c := Circuit D ncl eps full (fresh_keys D) nodes in let c2 := Circuit D ncl eps full (fresh_keys D) nodes2 in
    exists out out2, evaluate_circuit X rnd c (coll_of c its) = Ok (coll_of c out) /\ evaluate_circuit X rnd2 c2 (coll_of c2 its) = Ok (coll_of c2 out2) /\
      forall l r, prob_outside K out l r = prob_outside K out2 l r.
Proof.
  intros D ncl full S K nodes ops nodes2 ops2 its X rnd rnd2 HL HN HM HM2 HW Hp. apply (two_circuits D ncl full nodes ops nodes2 ops2); try assumption.
  intros out out2 P1 P2 E1 E2 l r. apply RtoC_eq_inv. pose proof (E1 (look K l r)) as H1. pose proof (E2 (look K l r)) as H2. unfold look in H1 at 1, H2 at 1. rewrite (expect_branches D ncl) in H1, H2 by assumption.
  unfold prob_outside. rewrite H1, H2. apply (expect_agree D ncl); [|exact (proper_registers D ncl its Hp)]. apply (differ_agree D ncl S K ops ops2); [exact HW|apply look_blind].
Qed.

(** ** C64 *)
Lemma noted_at_app cl : forall o cl2 o2 c, length o = length cl ->
  noted_at (cl ++ cl2) (o ++ o2) c = match noted_at cl o c with Some x => Some x | None => noted_at cl2 o2 c end.
Proof.
  induction cl as [|k cl IH]; intros o cl2 o2 c H; destruct o as [|x o]; try discriminate; [reflexivity|]. cbn. destruct (k =? c); [reflexivity|]. apply IH. now injection H.
Qed.
Lemma list_R_ext (a b : list R) : length a = length b -> (forall c, c < length a -> nth c a 0%R = nth c b 0%R) -> a = b.
Proof. intros. now apply (nth_ext _ _ 0%R 0%R). Qed.
Lemma noted_noted cl o cl2 o2 r : length o = length cl -> (forall c, In c cl -> ~ In c cl2) -> noted cl2 o2 (noted cl o r) = noted (cl ++ cl2) (o ++ o2) r.
Proof.
  intros Hl Hd. apply list_R_ext; [now rewrite !noted_length|]. intros c Hc. rewrite !noted_length in Hc. rewrite !noted_nth by (rewrite ?noted_length; exact Hc). rewrite noted_at_app by exact Hl.
  destruct (noted_at cl o c) as [x|] eqn:E.
  - rewrite (noted_at_none cl2); [reflexivity|]. apply Hd. destruct (in_dec Nat.eq_dec c cl) as [H|H]; [exact H|]. rewrite noted_at_none in E by exact H. discriminate.
  - reflexivity.
Qed.
Lemma noted_comm cl o cl2 o2 r : (forall c, In c cl -> ~ In c cl2) -> noted cl2 o2 (noted cl o r) = noted cl o (noted cl2 o2 r).
Proof.
  intros Hd. apply list_R_ext; [now rewrite !noted_length|]. intros c Hc. rewrite !noted_length in Hc. rewrite !noted_nth by (rewrite ?noted_length; exact Hc).
  destruct (in_dec Nat.eq_dec c cl) as [H|H].
  - rewrite (noted_at_none cl2 o2 c) by now apply Hd. reflexivity.
  - rewrite (noted_at_none cl o c) by exact H. destruct (noted_at _ _ _); reflexivity.
Qed.
Lemma noted_idem cl o r : noted cl o (noted cl o r) = noted cl o r.
Proof.
  apply list_R_ext; [now rewrite !noted_length|]. intros c Hc. rewrite !noted_length in Hc. rewrite !noted_nth by (rewrite ?noted_length; exact Hc). destruct (noted_at _ _ _); reflexivity.
Qed.
Lemma readout_app a b f : readout (a ++ b) f = readout a f ++ readout b f.
Proof. apply map_app. Qed.
Lemma leqb_app a a' b b' : length a = length a' -> leqb (a ++ b) (a' ++ b') = leqb a a' && leqb b b'.
Proof.
  revert a'. induction a as [|x a IH]; intros [|x' a'] H; try discriminate; [reflexivity|]. cbn. rewrite IH by (now injection H). apply andb_assoc.
Qed.
Lemma means_detect D ncl opt cl op : means D ncl (NMeasure opt cl) op -> op = Detect opt cl /\ length cl = length opt /\ NoDup cl.
Proof. intro H. inversion H. auto. Qed.

(** Measuring channels one group after the other is measuring them together. *)
Theorem C64_two_steps : forall D ncl full pre post ops_pre ops_post a ca b cb its X rnd rnd2, 1 <= dL D -> 2 <= dN D ->
  Forall2 (means D ncl) pre ops_pre -> Forall2 (means D ncl) post ops_post -> proper_items D ncl its ->
  length ca = length a -> length cb = length b -> NoDup (ca ++ cb) -> (forall c, In c (ca ++ cb) -> c < ncl) ->
  exists eps0, (0 < eps0)%R /\ forall eps, (0 < eps <= eps0)%R ->
    let c := Circuit D ncl eps full (fresh_keys D) (pre ++ [NMeasure a ca; NMeasure b cb] ++ post) in
    let c2 := Circuit D ncl eps full (fresh_keys D) (pre ++ [NMeasure (a ++ b) (ca ++ cb)] ++ post) in
    exists out out2, evaluate_circuit X rnd c (coll_of c its) = Ok (coll_of c out) /\ evaluate_circuit X rnd2 c2 (coll_of c2 its) = Ok (coll_of c2 out2) /\ indistinguishable D out out2.
Proof.
  intros D ncl full pre post ops_pre ops_post a ca b cb its X rnd rnd2 HL HN M1 M4 Hp La Lb ND Hb.
  assert (N1 : NoDup ca) by exact (PropCleanup.NoDup_app_l _ _ ND). assert (N2 : NoDup cb) by exact (PropCleanup.NoDup_app_r _ _ ND).
  assert (Hd : forall c, In c ca -> ~ In c cb).
  { intros c H1 H2. clear - ND H1 H2. induction ca as [|x ca IH]; [destruct H1|]. cbn in ND. inversion ND; subst. destruct H1 as [<-|H1]; [|now apply IH]. apply H3. apply in_or_app. now right. }
  apply (replace_part D ncl full pre _ _ post ops_pre [Detect a ca; Detect b cb] [Detect (a ++ b) (ca ++ cb)] ops_post); try assumption.
  - constructor; [|constructor; [|constructor]]; constructor; try assumption; intros c Hc; apply Hb; apply in_or_app; auto.
  - constructor; [|constructor]. constructor; [now rewrite !app_length, La, Lb|exact Hb|exact ND].
  - intros o l r f g Hr Vf Vg. cbn [before_all fold_right before]. rewrite !readout_app, leqb_app by now rewrite !readout_length.
    destruct (leqb (readout a f) (readout a g)); [cbn [andb]|reflexivity]. destruct (leqb (readout b f) (readout b g)); [|reflexivity].
    rewrite noted_noted; [reflexivity|now rewrite readout_length|exact Hd].
Qed.
(** The order of two measurements does not matter. *)
Theorem C64_order : forall D ncl full pre post ops_pre ops_post a ca b cb its X rnd rnd2, 1 <= dL D -> 2 <= dN D ->
  Forall2 (means D ncl) pre ops_pre -> Forall2 (means D ncl) post ops_post -> proper_items D ncl its ->
  length ca = length a -> length cb = length b -> NoDup ca -> NoDup cb -> (forall c, In c ca -> ~ In c cb) -> (forall c, In c (ca ++ cb) -> c < ncl) ->
  exists eps0, (0 < eps0)%R /\ forall eps, (0 < eps <= eps0)%R ->
    let c := Circuit D ncl eps full (fresh_keys D) (pre ++ [NMeasure a ca; NMeasure b cb] ++ post) in
    let c2 := Circuit D ncl eps full (fresh_keys D) (pre ++ [NMeasure b cb; NMeasure a ca] ++ post) in
    exists out out2, evaluate_circuit X rnd c (coll_of c its) = Ok (coll_of c out) /\ evaluate_circuit X rnd2 c2 (coll_of c2 its) = Ok (coll_of c2 out2) /\ indistinguishable D out out2.
Proof.
  intros D ncl full pre post ops_pre ops_post a ca b cb its X rnd rnd2 HL HN M1 M4 Hp La Lb N1 N2 Hd Hb.
  apply (replace_part D ncl full pre _ _ post ops_pre [Detect a ca; Detect b cb] [Detect b cb; Detect a ca] ops_post); try assumption.
  - constructor; [|constructor; [|constructor]]; constructor; try assumption; intros c Hc; apply Hb; apply in_or_app; auto.
  - constructor; [|constructor; [|constructor]]; constructor; try assumption; intros c Hc; apply Hb; apply in_or_app; auto.
  - intros o l r f g Hr Vf Vg. cbn [before_all fold_right before]. destruct (leqb (readout a f) (readout a g)), (leqb (readout b f) (readout b g)); try reflexivity. f_equal. apply noted_comm. exact Hd.
Qed.
(** Measuring twice in a row is measuring once. *)
Theorem C64_twice : forall D ncl full pre post ops_pre ops_post a ca its X rnd rnd2, 1 <= dL D -> 2 <= dN D ->
  Forall2 (means D ncl) pre ops_pre -> Forall2 (means D ncl) post ops_post -> proper_items D ncl its ->
  length ca = length a -> NoDup ca -> (forall c, In c ca -> c < ncl) ->
  exists eps0, (0 < eps0)%R /\ forall eps, (0 < eps <= eps0)%R ->
    let c := Circuit D ncl eps full (fresh_keys D) (pre ++ [NMeasure a ca; NMeasure a ca] ++ post) in
    let c2 := Circuit D ncl eps full (fresh_keys D) (pre ++ [NMeasure a ca] ++ post) in
    exists out out2, evaluate_circuit X rnd c (coll_of c its) = Ok (coll_of c out) /\ evaluate_circuit X rnd2 c2 (coll_of c2 its) = Ok (coll_of c2 out2) /\ indistinguishable D out out2.
Proof.
  intros D ncl full pre post ops_pre ops_post a ca its X rnd rnd2 HL HN M1 M4 Hp La N1 Hb.
  apply (replace_part D ncl full pre _ _ post ops_pre [Detect a ca; Detect a ca] [Detect a ca] ops_post); try assumption.
  - repeat constructor; assumption.
  - repeat constructor; assumption.
  - intros o l r f g Hr Vf Vg. cbn [before_all fold_right before]. destruct (leqb (readout a f) (readout a g)); [|reflexivity]. now rewrite noted_idem.
Qed.

(** ** C65 *)
Lemma before_kernels D (T1 T2 : values -> values -> C) (o : values -> values -> C) f g :
  Csum (basis D) (fun f1 => Csum (basis D) (fun g1 => Csum (basis D) (fun f2 => Csum (basis D) (fun g2 => o f2 g2 * (T2 f1 f2 * Cconj (T2 g1 g2))))%C * (T1 f f1 * Cconj (T1 g g1)))%C)
  = Csum (basis D) (fun f2 => Csum (basis D) (fun g2 => o f2 g2 * (Csum (basis D) (fun k => T1 f k * T2 k f2) * Cconj (Csum (basis D) (fun k => T1 g k * T2 k g2)))))%C.
Proof.
  set (b := basis D).
  transitivity (Csum b (fun f1 => Csum b (fun g1 => Csum b (fun f2 => Csum b (fun g2 => o f2 g2 * (T1 f f1 * T2 f1 f2 * Cconj (T1 g g1 * T2 g1 g2)))%C)))).
  { apply Csum_ext. intros f1 _. apply Csum_ext. intros g1 _. rewrite <- Csum_scal_r. apply Csum_ext. intros f2 _. rewrite <- Csum_scal_r. apply Csum_ext. intros g2 _. rewrite Cconj_mult. ring. }
  transitivity (Csum b (fun f1 => Csum b (fun f2 => Csum b (fun g1 => Csum b (fun g2 => o f2 g2 * (T1 f f1 * T2 f1 f2 * Cconj (T1 g g1 * T2 g1 g2)))%C)))).
  { apply Csum_ext. intros f1 _. apply Csum_swap. }
  rewrite Csum_swap. apply Csum_ext. intros f2 _.
  transitivity (Csum b (fun f1 => Csum b (fun g2 => Csum b (fun g1 => o f2 g2 * (T1 f f1 * T2 f1 f2 * Cconj (T1 g g1 * T2 g1 g2)))%C))).
  { apply Csum_ext. intros f1 _. apply Csum_swap. }
  rewrite Csum_swap. apply Csum_ext. intros g2 _. rewrite Csum_conj, Csum_prod, <- Csum_scal_l. apply Csum_ext. intros f1 _. rewrite <- Csum_scal_l. reflexivity.
Qed.
Definition elsewhere4 (D : dims) (h v h' v' : nat) (f g : values) : bool :=
  forallb (fun c => (c =? h) || (c =? v) || (c =? h') || (c =? v') || (nth c f 0 =? nth c g 0)) (seq 0 (dN D)).
Lemma pair_pair D A B h v h' v' f g : h <> v -> h' <> v' -> h < dN D -> v < dN D -> h' < dN D -> v' < dN D -> h <> h' -> h <> v' -> v <> h' -> v <> v' ->
  valid D f -> valid D g ->
  Csum (basis D) (fun k => pair_amp D A h v f k * pair_amp D B h' v' k g)%C
  = if elsewhere4 D h v h' v' f g then (gate_amp (dL D) A (nth h f 0) (nth v f 0) (nth h g 0) (nth v g 0) * gate_amp (dL D) B (nth h' f 0) (nth v' f 0) (nth h' g 0) (nth v' g 0))%C else RtoC 0.
Proof.
  intros N1 N2 Hh Hv Hh' Hv' X1 X2 X3 X4 Vf Vg. pose proof (proj1 Vf) as Lf. rewrite (pair_sum D A h v f (fun k => pair_amp D B h' v' k g)) by assumption.
  assert (E4 : elsewhere4 D h v h' v' f g = true <-> forall c, c < dN D -> c <> h -> c <> v -> c <> h' -> c <> v' -> nth c f 0 = nth c g 0).
  { unfold elsewhere4. rewrite forallb_forall. split.
    - intros H c Hc C1 C2 C3 C4. specialize (H c). rewrite in_seq in H. specialize (H ltac:(lia)). rewrite !orb_true_iff, !Nat.eqb_eq in H. tauto.
    - intros H c Hc. apply in_seq in Hc. rewrite !orb_true_iff, !Nat.eqb_eq. destruct (Nat.eq_dec c h); [tauto|]. destruct (Nat.eq_dec c v); [tauto|]. destruct (Nat.eq_dec c h'); [tauto|]. destruct (Nat.eq_dec c v'); [tauto|]. right. apply H; auto; lia. }
  assert (E2 : forall x y, elsewhereb D h' v' (put2 h v x y f) g = true <-> elsewhere4 D h v h' v' f g = true /\ x = nth h g 0 /\ y = nth v g 0).
  { intros x y. rewrite elsewhereb_spec, E4. split.
    - intro H. split; [|split].
      + intros c Hc C1 C2 C3 C4. specialize (H c Hc C3 C4). rewrite put2_nth in H by lia. destruct (Nat.eqb_spec c v); [congruence|]. destruct (Nat.eqb_spec c h); [congruence|exact H].
      + specialize (H h Hh X1 X2). rewrite put2_nth in H by lia. rewrite Nat.eqb_refl in H. destruct (Nat.eqb_spec h v); [congruence|exact H].
      + specialize (H v Hv X3 X4). rewrite put2_nth in H by lia. rewrite Nat.eqb_refl in H. exact H.
    - intros (H & -> & ->) c Hc C1 C2. rewrite put2_nth by lia. destruct (Nat.eqb_spec c v); [now subst|]. destruct (Nat.eqb_spec c h); [now subst|]. now apply H. }
  rewrite (Csum_single _ (nth h g 0, nth v g 0)); [|apply pairs_nodup|apply pairs_in; split; now apply (valid_nth_lt D)|].
  - cbn [fst snd]. unfold pair_amp. fold (elsewhereb D h' v' (put2 h v (nth h g 0) (nth v g 0) f) g). destruct (elsewhereb _ _ _ _ _) eqn:E.
    + apply E2 in E. destruct E as [E _]. rewrite E. f_equal. rewrite !put2_nth by lia.
      destruct (Nat.eqb_spec h' v); [congruence|]. destruct (Nat.eqb_spec h' h); [congruence|]. destruct (Nat.eqb_spec v' v); [congruence|]. destruct (Nat.eqb_spec v' h); [congruence|]. reflexivity.
    + destruct (elsewhere4 D h v h' v' f g) eqn:E3; [|ring]. exfalso. assert (false = true); [|discriminate]. rewrite <- E. apply E2. tauto.
  - intros [x y] Hp Hn. cbn [fst snd]. unfold pair_amp at 1. fold (elsewhereb D h' v' (put2 h v x y f) g). destruct (elsewhereb _ _ _ _ _) eqn:E; [|ring]. apply E2 in E. destruct E as (_ & -> & ->). congruence.
Qed.
Lemma pair_comm D A B h v h' v' f g : h <> v -> h' <> v' -> h < dN D -> v < dN D -> h' < dN D -> v' < dN D -> h <> h' -> h <> v' -> v <> h' -> v <> v' ->
  valid D f -> valid D g ->
  Csum (basis D) (fun k => pair_amp D A h v f k * pair_amp D B h' v' k g)%C = Csum (basis D) (fun k => pair_amp D B h' v' f k * pair_amp D A h v k g)%C.
Proof.
  intros. rewrite !pair_pair by auto. replace (elsewhere4 D h' v' h v f g) with (elsewhere4 D h v h' v' f g).
  - destruct (elsewhere4 _ _ _ _ _ _ _); [ring|reflexivity].
  - unfold elsewhere4. induction (seq 0 (dN D)) as [|c l IH]; [reflexivity|]. cbn. rewrite IH. f_equal. destruct (c =? h), (c =? v), (c =? h'), (c =? v'); reflexivity.
Qed.
Lemma means_channels D ncl nd A h v : means D ncl nd (Element A h v) -> h <> v /\ h < dN D /\ v < dN D.
Proof.
  assert (G : forall h v rest, Permutation (h :: v :: rest) (seq 0 (dN D)) -> h <> v /\ h < dN D /\ v < dN D).
  { clear. intros h v rest HP. assert (ND : NoDup (h :: v :: rest)) by (apply (Permutation_NoDup (l := seq 0 (dN D))); [now symmetry|apply seq_NoDup]). split; [|split].
    - intros ->. inversion ND as [|? ? H _]. apply H. now left.
    - assert (In h (seq 0 (dN D))) by (apply (Permutation_in _ HP); now left). rewrite in_seq in H. lia.
    - assert (In v (seq 0 (dN D))) by (apply (Permutation_in _ HP); right; now left). rewrite in_seq in H. lia. }
  intro H. inversion H; subst; eapply G; eassumption.
Qed.
(** Elements in different channels commute, also when they are controlled by the classical channels. *)
Theorem C65_elements : forall D ncl full pre post ops_pre ops_post nd1 nd2 A B h v h' v' its X rnd rnd2, 1 <= dL D -> 2 <= dN D ->
  Forall2 (means D ncl) pre ops_pre -> Forall2 (means D ncl) post ops_post -> proper_items D ncl its ->
  means D ncl nd1 (Element A h v) -> means D ncl nd2 (Element B h' v') -> h <> h' -> h <> v' -> v <> h' -> v <> v' ->
  exists eps0, (0 < eps0)%R /\ forall eps, (0 < eps <= eps0)%R ->
    let c := Circuit D ncl eps full (fresh_keys D) (pre ++ [nd1; nd2] ++ post) in
    let c2 := Circuit D ncl eps full (fresh_keys D) (pre ++ [nd2; nd1] ++ post) in
    exists out out2, evaluate_circuit X rnd c (coll_of c its) = Ok (coll_of c out) /\ evaluate_circuit X rnd2 c2 (coll_of c2 its) = Ok (coll_of c2 out2) /\ indistinguishable D out out2.
Proof.
  intros D ncl full pre post ops_pre ops_post nd1 nd2 A B h v h' v' its X rnd rnd2 HL HN M1 M4 Hp Hm1 Hm2 X1 X2 X3 X4.
  destruct (means_channels _ _ _ _ _ _ Hm1) as (N1 & Hh & Hv). destruct (means_channels _ _ _ _ _ _ Hm2) as (N2 & Hh' & Hv').
  apply (replace_part D ncl full pre _ _ post ops_pre [Element A h v; Element B h' v'] [Element B h' v'; Element A h v] ops_post); try assumption; try (constructor; [assumption|constructor; [assumption|constructor]]).
  intros o l r f g Hr Vf Vg. cbn [before_all fold_right before]. rewrite !before_kernels. apply Csum_ext. intros f2 Hf2. apply Csum_ext. intros g2 Hg2. apply basis_in in Hf2, Hg2.
  rewrite (pair_comm D (A r) (B r) h v h' v' f f2), (pair_comm D (A r) (B r) h v h' v' g g2) by assumption. reflexivity.
Qed.
Lemma pair_amp_elsewhere D A h v f g : pair_amp D A h v f g <> RtoC 0 -> forall c, c < dN D -> c <> h -> c <> v -> nth c f 0 = nth c g 0.
Proof.
  unfold pair_amp. fold (elsewhereb D h v f g). destruct (elsewhereb D h v f g) eqn:E; [|congruence]. intros _. now apply elsewhereb_spec.
Qed.
Lemma C_eq_dec (a b : C) : {a = b} + {a <> b}.
Proof. destruct a as [x y], b as [x' y']. destruct (Req_EM_T x x'), (Req_EM_T y y'); [left; congruence|right; congruence|right; congruence|right; congruence]. Qed.
(** An element commutes with a measurement of other channels, if the measurement does not change the
    values that control the element. *)
Theorem C65_measurement : forall D ncl full pre post ops_pre ops_post nd A h v opt cl its X rnd rnd2, 1 <= dL D -> 2 <= dN D ->
  Forall2 (means D ncl) pre ops_pre -> Forall2 (means D ncl) post ops_post -> proper_items D ncl its ->
  means D ncl nd (Element A h v) -> means D ncl (NMeasure opt cl) (Detect opt cl) -> ~ In h opt -> ~ In v opt ->
  (forall r r', length r = ncl -> length r' = ncl -> (forall c, ~ In c cl -> nth c r 0%R = nth c r' 0%R) -> A r = A r') ->
  exists eps0, (0 < eps0)%R /\ forall eps, (0 < eps <= eps0)%R ->
    let c := Circuit D ncl eps full (fresh_keys D) (pre ++ [nd; NMeasure opt cl] ++ post) in
    let c2 := Circuit D ncl eps full (fresh_keys D) (pre ++ [NMeasure opt cl; nd] ++ post) in
    exists out out2, evaluate_circuit X rnd c (coll_of c its) = Ok (coll_of c out) /\ evaluate_circuit X rnd2 c2 (coll_of c2 its) = Ok (coll_of c2 out2) /\ indistinguishable D out out2.
Proof.
  intros D ncl full pre post ops_pre ops_post nd A h v opt cl its X rnd rnd2 HL HN M1 M4 Hp Hm1 Hm2 X1 X2 HA.
  apply (replace_part D ncl full pre _ _ post ops_pre [Element A h v; Detect opt cl] [Detect opt cl; Element A h v] ops_post); try assumption; try (constructor; [assumption|constructor; [assumption|constructor]]).
  intros o l r f g Hr Vf Vg. cbn [before_all fold_right before].
  assert (Hro : forall B f f', valid D f -> valid D f' -> pair_amp D B h v f f' <> RtoC 0 -> readout opt f = readout opt f').
  { intros B f0 f' V0 V' Hn. apply (readout_agree D); [|apply V0|apply V']. intros c Hc Hlt. apply (pair_amp_elsewhere D B h v f0 f' Hn c Hlt); intros ->; contradiction. }
  assert (EA : A (noted cl (readout opt f) r) = A r).
  { apply HA; [now rewrite noted_length|exact Hr|]. intros c Hc. destruct (Nat.lt_ge_cases c (length r)) as [Hlt|Hge]; [|rewrite !nth_overflow; [reflexivity|exact Hge|now rewrite noted_length]].
    rewrite noted_nth by exact Hlt. now rewrite noted_at_none. }
  rewrite EA. destruct (leqb (readout opt f) (readout opt g)) eqn:E.
  - apply leqb_spec in E. apply Csum_ext. intros f' Hf'. apply Csum_ext. intros g' Hg'. apply basis_in in Hf', Hg'.
    destruct (C_eq_dec (pair_amp D (A r) h v f f') (RtoC 0)) as [Z|Z]; [rewrite Z; ring|]. destruct (C_eq_dec (pair_amp D (A r) h v g g') (RtoC 0)) as [Z'|Z']; [rewrite Z', Cconj_RtoC; ring|].
    rewrite <- (Hro (A r) f f' Vf Hf' Z), <- (Hro (A r) g g' Vg Hg' Z'), E, leqb_refl. reflexivity.
  - apply Csum_zero. intros f' Hf'. apply Csum_zero. intros g' Hg'. apply basis_in in Hf', Hg'.
    destruct (C_eq_dec (pair_amp D (A r) h v f f') (RtoC 0)) as [Z|Z]; [rewrite Z; ring|]. destruct (C_eq_dec (pair_amp D (A r) h v g g') (RtoC 0)) as [Z'|Z']; [rewrite Z', Cconj_RtoC; ring|].
    rewrite <- (Hro (A r) f f' Vf Hf' Z), <- (Hro (A r) g g' Vg Hg' Z'), E. ring.
Qed.

(** ** C66 *)
Lemma pair_compose D A B h v f g : h <> v -> h < dN D -> v < dN D -> valid D f -> valid D g ->
  Csum (basis D) (fun k => pair_amp D A h v f k * pair_amp D B h v k g)%C = pair_amp D (mat2_mul B A) h v f g.
Proof.
  intros Hne Hh Hv Vf Vg. pose proof (proj1 Vf) as Lf. rewrite (pair_sum D A h v f (fun k => pair_amp D B h v k g)) by assumption.
  assert (E : forall x y, elsewhereb D h v (put2 h v x y f) g = elsewhereb D h v f g).
  { intros x y. apply eq_true_iff_eq. rewrite !elsewhereb_spec. split; intros H c Hc C1 C2; specialize (H c Hc C1 C2); rewrite put2_nth in * by lia;
      (destruct (Nat.eqb_spec c v); [congruence|]); (destruct (Nat.eqb_spec c h); [congruence|]); exact H. }
  transitivity (Csum (pairs (dL D)) (fun p => if elsewhereb D h v f g then (gate_amp (dL D) A (nth h f 0) (nth v f 0) (fst p) (snd p) * gate_amp (dL D) B (fst p) (snd p) (nth h g 0) (nth v g 0))%C else RtoC 0)).
  { apply Csum_ext. intros [x y] Hp. cbn [fst snd]. unfold pair_amp. fold (elsewhereb D h v (put2 h v x y f) g). rewrite E. destruct (elsewhereb D h v f g); [|ring]. rewrite !put2_nth by lia. rewrite !Nat.eqb_refl.
    destruct (Nat.eqb_spec h v); [congruence|reflexivity]. }
  unfold pair_amp. fold (elsewhereb D h v f g). destruct (elsewhereb D h v f g); [|now apply Csum_zero].
  rewrite Csum_pairs, Csum_swap. cbn [fst snd]. apply gate_compose; now apply (valid_nth_lt D).
Qed.
Lemma pair_id D h v f g : h < dN D -> v < dN D -> valid D f -> valid D g -> pair_amp D mat2_id h v f g = if leqb f g then RtoC 1 else RtoC 0.
Proof.
  intros Hh Hv Vf Vg. unfold pair_amp. fold (elsewhereb D h v f g). rewrite gate_id. destruct (leqb f g) eqn:E.
  - apply leqb_spec in E. subst g. rewrite !Nat.eqb_refl. replace (elsewhereb D h v f f) with true; [reflexivity|]. symmetry. now apply elsewhereb_spec.
  - destruct (elsewhereb D h v f g) eqn:E1; [|reflexivity]. destruct (Nat.eqb_spec (nth h f 0) (nth h g 0)) as [Eh|]; [|reflexivity]. destruct (Nat.eqb_spec (nth v f 0) (nth v g 0)) as [Ev|]; [|reflexivity]. exfalso.
    assert (f = g); [|subst; rewrite leqb_refl in E; discriminate]. apply (values_ext D); try assumption. intros c Hc. destruct (Nat.eq_dec c h) as [->|]; [exact Eh|]. destruct (Nat.eq_dec c v) as [->|]; [exact Ev|].
    now apply (proj1 (elsewhereb_spec D h v f g) E1).
Qed.
(** Two elements in the same channels are one element with the product of the matrices. *)
Theorem C66_compose : forall D ncl full pre post ops_pre ops_post A B tl its X rnd rnd2, 1 <= dL D -> 2 <= dN D ->
  Forall2 (means D ncl) pre ops_pre -> Forall2 (means D ncl) post ops_post -> proper_items D ncl its ->
  Permutation tl (seq 0 (dN D)) -> unitary2 A -> unitary2 B ->
  exists eps0, (0 < eps0)%R /\ forall eps, (0 < eps <= eps0)%R ->
    let c := Circuit D ncl eps full (fresh_keys D) (pre ++ [NOptical A tl; NOptical B tl] ++ post) in
    let c2 := Circuit D ncl eps full (fresh_keys D) (pre ++ [NOptical (mat2_mul A B) tl] ++ post) in
    exists out out2, evaluate_circuit X rnd c (coll_of c its) = Ok (coll_of c out) /\ evaluate_circuit X rnd2 c2 (coll_of c2 its) = Ok (coll_of c2 out2) /\ indistinguishable D out out2.
Proof.
  intros D ncl full pre post ops_pre ops_post A B tl its X rnd rnd2 HL HN M1 M4 Hp HP HA HB. pose proof (ExponentialProofs.unitary2_mul A B HA HB) as HAB.
  assert (exists h v rest, tl = h :: v :: rest) as (h & v & rest & ->).
  { pose proof (Permutation_length HP) as Hl. rewrite seq_length in Hl. destruct tl as [|h [|v rest]]; cbn in Hl; try lia. now exists h, v, rest. }
  pose proof (means_optical D ncl A h v rest HP HA) as Hm1. pose proof (means_optical D ncl B h v rest HP HB) as Hm2. pose proof (means_optical D ncl _ h v rest HP HAB) as Hm3.
  destruct (means_channels _ _ _ _ _ _ Hm1) as (N1 & Hh & Hv).
  apply (replace_part D ncl full pre _ _ post ops_pre _ _ ops_post) with (4 := Forall2_cons _ _ Hm1 (Forall2_cons _ _ Hm2 (Forall2_nil _))) (5 := Forall2_cons _ _ Hm3 (Forall2_nil _)); try assumption.
  intros o l r f g Hr Vf Vg. cbn [before_all fold_right before]. rewrite before_kernels. apply Csum_ext. intros f2 Hf2. apply Csum_ext. intros g2 Hg2. apply basis_in in Hf2, Hg2. f_equal.
  rewrite !pair_compose by assumption. replace (mat2_mul (mat2_tr B) (mat2_tr A)) with (mat2_tr (mat2_mul A B)); [reflexivity|].
  unfold mat2_mul, mat2_tr. cbn. f_equal; ring.
Qed.
(** An element followed by its inverse can be left out. *)
Theorem C66_undo : forall D ncl full pre post ops_pre ops_post A tl its X rnd rnd2, 1 <= dL D -> 2 <= dN D ->
  Forall2 (means D ncl) pre ops_pre -> Forall2 (means D ncl) post ops_post -> proper_items D ncl its ->
  Permutation tl (seq 0 (dN D)) -> unitary2 A ->
  exists eps0, (0 < eps0)%R /\ forall eps, (0 < eps <= eps0)%R ->
    let c := Circuit D ncl eps full (fresh_keys D) (pre ++ [NOptical A tl; NOptical (mat2_adj A) tl] ++ post) in
    let c2 := Circuit D ncl eps full (fresh_keys D) (pre ++ post) in
    exists out out2, evaluate_circuit X rnd c (coll_of c its) = Ok (coll_of c out) /\ evaluate_circuit X rnd2 c2 (coll_of c2 its) = Ok (coll_of c2 out2) /\ indistinguishable D out out2.
Proof.
  intros D ncl full pre post ops_pre ops_post A tl its X rnd rnd2 HL HN M1 M4 Hp HP HA.
  assert (exists h v rest, tl = h :: v :: rest) as (h & v & rest & ->).
  { pose proof (Permutation_length HP) as Hl. rewrite seq_length in Hl. destruct tl as [|h [|v rest]]; cbn in Hl; try lia. now exists h, v, rest. }
  assert (HA' : unitary2 (mat2_adj A)).
  { destruct HA as [U1 U2]. assert (E : mat2_adj (mat2_adj A) = A) by (destruct A; unfold mat2_adj; cbn; now rewrite !Cconj_invol). split; rewrite E; assumption. }
  pose proof (means_optical D ncl A h v rest HP HA) as Hm1. pose proof (means_optical D ncl _ h v rest HP HA') as Hm2.
  destruct (means_channels _ _ _ _ _ _ Hm1) as (N1 & Hh & Hv).
  apply (replace_part D ncl full pre _ [] post ops_pre _ [] ops_post) with (4 := Forall2_cons _ _ Hm1 (Forall2_cons _ _ Hm2 (Forall2_nil _))); try assumption; [constructor|].
  intros o l r f g Hr Vf Vg. cbn [before_all fold_right before]. rewrite before_kernels.
  assert (EM : mat2_mul (mat2_tr (mat2_adj A)) (mat2_tr A) = mat2_id).
  { transitivity (mat2_tr (mat2_mul A (mat2_adj A))); [unfold mat2_mul, mat2_tr; cbn; f_equal; ring|]. destruct HA as [-> _]. reflexivity. }
  rewrite (Csum_single _ f); [|apply basis_nodup|now apply basis_in|].
  - rewrite (Csum_single _ g); [|apply basis_nodup|now apply basis_in|].
    + rewrite !pair_compose, EM, !pair_id, !leqb_refl by assumption. rewrite Cconj_RtoC. ring.
    + intros g2 Hg2 Hn. apply basis_in in Hg2. rewrite (pair_compose _ _ _ _ _ g g2), EM, pair_id by assumption. destruct (leqb g g2) eqn:E; [apply leqb_spec in E; congruence|]. rewrite Cconj_RtoC. ring.
  - intros f2 Hf2 Hn. apply Csum_zero. intros g2 Hg2. apply basis_in in Hf2. rewrite (pair_compose _ _ _ _ _ f f2), EM, pair_id by assumption. destruct (leqb f f2) eqn:E; [apply leqb_spec in E; congruence|]. ring.
Qed.
Print Assumptions C63_no_signalling.
Print Assumptions C64_two_steps.
Print Assumptions C64_order.
Print Assumptions C64_twice.
Print Assumptions C65_elements.
Print Assumptions C65_measurement.
Print Assumptions C66_compose.
Print Assumptions C66_undo.
