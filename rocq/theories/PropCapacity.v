(** Property theorems C83: how many messages a circuit can carry. *)
From Coq Require Import Reals List Arith Lia Lra Bool Permutation.
From Coquelicot Require Import Complex.
From Verif Require Import Prelude NamesModel NamesSpec NamesProofs FockModel FockSpec FockProofs
  OpticalModel OpticalProofs StateModel StateSpec CollectionModel EvalModel MeasureSpec MeasureProofs
  InterferenceSpec CircuitSpec CircuitProofs EnsembleProofs PropCircuit ProtocolSpec ProtocolProofs ProgramModel ProgramSpec PropProgram
  TsirelsonSpec TsirelsonProofs PropTsirelson DistinguishSpec PropDistinguish CapacitySpec.
Import ListNotations.

Definition at_tuple (f : values) : values -> C := fun k => if leqb k f then RtoC 1 else RtoC 0.
Lemma Csum_opp {A} (l : list A) f : Csum l (fun x => - f x)%C = (- Csum l f)%C.
Proof. induction l as [|x l IH]; [apply C_eq; cbn; ring|]. rewrite !Csum_cons, IH. ring. Qed.
Lemma Cconj_minus_sign a : Cconj (- a)%C = (- Cconj a)%C.
Proof. apply C_eq; cbn; ring. Qed.
Lemma Csum_kept {A} (keep : A -> bool) (F : A -> C) (l : list A) : (forall x, In x l -> keep x = false -> F x = RtoC 0) -> Csum l F = Csum (filter keep l) F.
Proof.
  induction l as [|x l IH]; intros H; [reflexivity|]. cbn [filter]. rewrite Csum_cons, IH by (intros; apply H; [now right|assumption]).
  destruct (keep x) eqn:E; [now rewrite Csum_cons|]. rewrite H; [ring|now left|exact E].
Qed.
Section Form.
Variable D : dims.
Variable o : values -> values -> C.
Notation form := (form D).
Lemma form_plus_l u w v : form o (fun k => u k + w k)%C v = (form o u v + form o w v)%C.
Proof.
  unfold TsirelsonProofs.form. rewrite <- Csum_plus. apply Csum_ext. intros f _. rewrite <- Csum_plus. apply Csum_ext. intros g _. ring.
Qed.
Lemma form_plus_r u w v : form o v (fun k => u k + w k)%C = (form o v u + form o v w)%C.
Proof.
  unfold TsirelsonProofs.form. rewrite <- Csum_plus. apply Csum_ext. intros f _. rewrite <- Csum_plus. apply Csum_ext. intros g _. rewrite Cconj_plus. ring.
Qed.
Lemma form_scal_l a u v : form o (fun k => a * u k)%C v = (a * form o u v)%C.
Proof.
  unfold TsirelsonProofs.form. rewrite <- Csum_scal_l. apply Csum_ext. intros f _. rewrite <- Csum_scal_l. apply Csum_ext. intros g _. ring.
Qed.
Lemma form_scal_r a u v : form o v (fun k => a * u k)%C = (Cconj a * form o v u)%C.
Proof.
  unfold TsirelsonProofs.form. rewrite <- Csum_scal_l. apply Csum_ext. intros f _. rewrite <- Csum_scal_l. apply Csum_ext. intros g _. rewrite Cconj_mult. ring.
Qed.
Lemma form_at f g : valid D f -> valid D g -> form o (at_tuple f) (at_tuple g) = o f g.
Proof.
  intros Vf Vg. apply basis_in in Vf. apply basis_in in Vg. unfold TsirelsonProofs.form. rewrite (Csum_single _ f); [|apply basis_nodup|exact Vf|].
  - rewrite (Csum_single _ g); [|apply basis_nodup|exact Vg|].
    + unfold at_tuple. rewrite !leqb_refl, Cconj_RtoC. ring.
    + intros k _ Hk. unfold at_tuple at 2. destruct (leqb k g) eqn:E; [apply leqb_spec in E; congruence|]. rewrite Cconj_RtoC. ring.
  - intros k _ Hk. transitivity (Csum (basis D) (fun _ => RtoC 0)); [|now apply Csum_zero]. apply Csum_ext. intros g' _.
    unfold at_tuple at 1. destruct (leqb k f) eqn:E; [apply leqb_spec in E; congruence|]. ring.
Qed.
Lemma form_two f g a b : valid D f -> valid D g ->
  form o (fun k => a * at_tuple f k + b * at_tuple g k)%C (fun k => a * at_tuple f k + b * at_tuple g k)%C
  = (a * Cconj a * o f f + a * Cconj b * o f g + b * Cconj a * o g f + b * Cconj b * o g g)%C.
Proof.
  intros Vf Vg. rewrite form_plus_l, !form_plus_r, !form_scal_l, !form_scal_r, !form_at by assumption. ring.
Qed.
(** A positive form is at most its trace over the tuples that occur. *)
Lemma form_trace u (keep : values -> bool) : (forall v, (0 <= fst (form o v v))%R) -> (forall f, valid D f -> keep f = false -> u f = RtoC 0) ->
  (fst (form o u u) <= nrm D u * Rsum (filter keep (basis D)) (fun f => fst (o f f)))%R.
Proof.
  intros Hpos Hu. set (S := filter keep (basis D)).
  assert (VS : forall f, In f S -> valid D f) by (intros f Hf; apply filter_In in Hf; now apply basis_in).
  assert (E1 : form o u u = Csum S (fun f => Csum S (fun g => o f g * (u f * Cconj (u g)))%C)).
  { unfold TsirelsonProofs.form. assert (G : forall F : values -> C, (forall f, valid D f -> keep f = false -> F f = RtoC 0) -> Csum (basis D) F = Csum S F).
    { intros F HF. apply Csum_kept. intros f Hf. apply basis_in in Hf. now apply HF. }
    rewrite G.
    - apply Csum_ext. intros f _. apply G. intros g Vg Hg. rewrite (Hu g Vg Hg), Cconj_RtoC. ring.
    - intros f Vf Hf. transitivity (Csum (basis D) (fun _ => RtoC 0)); [|now apply Csum_zero]. apply Csum_ext. intros g _. rewrite (Hu f Vf Hf). ring. }
  assert (E2 : RtoC (nrm D u) = Csum S (fun f => u f * Cconj (u f))%C).
  { unfold nrm. rewrite <- Csum_RtoC. unfold S. rewrite <- Csum_kept.
    - apply Csum_ext. intros f _. rewrite <- Cconj_mult_norm2. ring.
    - intros f Hf Ek. apply basis_in in Hf. rewrite (Hu f Hf Ek). ring. }
  set (v := fun f g k => (Cconj (u g) * at_tuple f k + (- Cconj (u f)) * at_tuple g k)%C).
  assert (E3 : Csum S (fun f => Csum S (fun g => form o (v f g) (v f g))) = (RtoC 2 * (RtoC (nrm D u) * Csum S (fun f => o f f) - form o u u))%C).
  { transitivity (Csum S (fun f => Csum S (fun g => (o f f * (u g * Cconj (u g)) + (u f * Cconj (u f)) * o g g) + - (o f g * (u f * Cconj (u g)) + o g f * (u g * Cconj (u f)))))%C).
    { apply Csum_ext. intros f Hf. apply Csum_ext. intros g Hg. unfold v. rewrite form_two by auto. rewrite Cconj_minus_sign, !Cconj_invol. ring. }
    transitivity (((Csum S (fun f => o f f) * RtoC (nrm D u) + RtoC (nrm D u) * Csum S (fun f => o f f)) - (form o u u + form o u u))%C); [|apply C_eq; cbn; ring].
    rewrite E1 at 2. rewrite E1, (Csum_swap S S (fun f g => o f g * (u f * Cconj (u g)))%C) at 1. rewrite !E2, !Csum_prod. 
    unfold Cminus. rewrite <- !Csum_plus, <- Csum_opp, <- Csum_plus. apply Csum_ext. intros f _. rewrite <- !Csum_plus, <- Csum_opp, <- Csum_plus. apply Csum_ext. intros g _. ring. }
  assert (P : (0 <= fst (Csum S (fun f => Csum S (fun g => form o (v f g) (v f g)))))%R).
  { rewrite re_sum. apply Rsum_nonneg. intros f _. rewrite re_sum. apply Rsum_nonneg. intros g _. apply Hpos. }
  rewrite E3 in P. rewrite <- (re_sum S (fun f => o f f)). cbn [fst RtoC Cmult Cminus Cplus Copp] in P. cbn in P. lra.
Qed.
End Form.

(** ** What a decoder can achieve *)
Lemma expect1_form D (o : observable) b : expect1 D o b = form D (o (b_label b) (b_reg b)) (b_wave b) (b_wave b).
Proof. reflexivity. Qed.
Lemma run_diag D ops a b : fst (expect1 D (before_all D ops (diag a)) b) = Rsum (run D ops [b]) (fun b' => a (b_reg b') * nrm D (b_wave b'))%R.
Proof.
  transitivity (fst (expect D [b] (before_all D ops (diag a)))); [unfold expect; rewrite Csum_cons, Csum_nil; f_equal; ring|].
  rewrite <- expect_run. unfold expect. rewrite re_sum. apply Rsum_ext. intros b' _. now rewrite expect_diag.
Qed.
Lemma at_tuple_nrm D f : valid D f -> nrm D (at_tuple f) = 1%R.
Proof.
  intros Vf. apply RtoC_inj. rewrite nrm_sum, form_at by assumption. now rewrite leqb_refl.
Qed.
Lemma run_nrm D ncl ops b : Forall (isometric D ncl) ops -> length (b_reg b) = ncl -> Rsum (run D ops [b]) (fun b' => nrm D (b_wave b')) = nrm D (b_wave b).
Proof.
  intros HI Hb. apply RtoC_inj.
  pose proof (run_label D ncl ops (fun _ => true) [b] HI) as H. cbv beta in H. unfold expect in H.
  rewrite Csum_cons, Csum_nil, (Csum_ext (run D ops [b]) _ (fun b' => RtoC (nrm D (b_wave b')))), Csum_RtoC in H.
  - rewrite H; [rewrite expect1_trace; unfold nrm, weight; ring|]. intros b' [<-|[]]. exact Hb.
  - intros b' _. rewrite expect1_trace. reflexivity.
Qed.

Lemma weight_from_rsum l its : weight_of_label its l = Rsum (from l its) (fun it => s_cum (snd it)).
Proof. unfold weight_of_label, from. now rewrite Rsum_filter. Qed.
Definition member (S : list values) (f : values) : bool := existsb (leqb f) S.
Lemma member_false S f : member S f = false -> ~ In f S.
Proof. intros H Hin. unfold member in H. apply Bool.not_true_iff_false in H. apply H. apply existsb_exists. exists f. split; [exact Hin|apply leqb_refl]. Qed.
Lemma member_length D S : length (filter (member S) (basis D)) <= length S.
Proof.
  apply NoDup_incl_length; [apply NoDup_filter, basis_nodup|]. intros f Hf. apply filter_In in Hf. destruct Hf as [_ Hf]. apply existsb_exists in Hf. destruct Hf as (g & Hg & E). apply leqb_spec in E. now subst.
Qed.
Lemma swap_rsum {A B} (l : list A) (m : list B) (f : A -> B -> R) : Rsum l (fun x => Rsum m (fun y => f x y)) = Rsum m (fun y => Rsum l (fun x => f x y)).
Proof. apply Rsum_swap. Qed.

(** Whatever circuit is built and however the results are read: summed over the messages, the
    probabilities of being understood are at most the number of tuples the messages are written with. *)
Theorem C83_capacity : forall D ncl full nodes ops its X rnd, 1 <= dL D -> 2 <= dN D ->
  Forall2 (means D ncl) nodes ops -> proper_items D ncl its ->
  exists eps0, (0 < eps0)%R /\ forall eps, (0 < eps <= eps0)%R ->
    let c := Circuit D ncl eps full (fresh_keys D) nodes in
    exists out, evaluate_circuit X rnd c (coll_of c its) = Ok (coll_of c out) /\
      forall ms r alphabet w guess, length r = ncl -> encoded D its ms r alphabet -> decoder ncl ms guess ->
        (0 <= w)%R -> (forall m, In m ms -> weight_of_label its m <= w)%R ->
        (understood out ms guess <= w * INR (length alphabet))%R.
Proof.
  intros D ncl full nodes ops its X rnd HL HN HM Hp.
  destruct (mean_input D ncl full nodes ops its X rnd HL HN HM Hp) as (e & He & H). exists e. split; [exact He|]. intros eps Heps c. destruct (H eps Heps) as (out & E & Hm). exists out. split; [exact E|].
  intros ms r alphabet w guess Hr Henc Hdec Hw0 Hw. pose proof (means_all D ncl _ _ HL HN HM) as HI.
  set (M := fun m => before_all D ops (diag (guess m)) [] r). set (T := fun m f => fst (M m f f)). set (S := filter (member alphabet) (basis D)).
  assert (Hform : forall m v, fst (form D (M m) v v) = Rsum (run D ops [Branch [] r v]) (fun b' => guess m (b_reg b') * nrm D (b_wave b'))%R).
  { intros m v. rewrite <- run_diag. rewrite expect1_form. reflexivity. }
  assert (Hregs : forall v b', In b' (run D ops [Branch [] r v]) -> length (b_reg b') = ncl).
  { intros v b' Hb'. apply (registers_run D ncl ops [Branch [] r v] HI); [|exact Hb']. intros b0 [<-|[]]. exact Hr. }
  assert (Hpos : forall m, In m ms -> forall v, (0 <= fst (form D (M m) v v))%R).
  { intros m Hms v. rewrite Hform. apply Rsum_nonneg. intros b' Hb'. apply Rmult_le_pos; [|apply nrm_nonneg]. apply (Hdec (b_reg b') (Hregs v b' Hb')). exact Hms. }
  assert (HT : forall f, valid D f -> (Rsum ms (fun m => T m f) <= 1)%R).
  { intros f Vf. unfold T. rewrite (Rsum_ext _ _ (fun m => Rsum (run D ops [Branch [] r (at_tuple f)]) (fun b' => guess m (b_reg b') * nrm D (b_wave b'))%R)) by (intros m _; rewrite <- (form_at D (M m) f f Vf Vf); apply Hform).
    rewrite swap_rsum. eapply Rle_trans; [|apply Req_le, (at_tuple_nrm D f Vf)]. eapply Rle_trans; [|apply Req_le, (run_nrm D ncl ops (Branch [] r (at_tuple f)) HI Hr)].
    apply ExponentialProofs.Rsum_le. intros b' Hb'. rewrite (Rsum_ext _ _ (fun m => nrm D (b_wave b') * guess m (b_reg b'))%R) by (intros; ring). rewrite Rsum_scal_l.
    pose proof (nrm_nonneg D (b_wave b')) as Hn. destruct (Hdec (b_reg b') (Hregs _ b' Hb')) as [_ Hs]. nra. }
  assert (HT0 : forall m f, In m ms -> valid D f -> (0 <= T m f)%R).
  { intros m f Hms Vf. unfold T. rewrite <- (form_at D (M m) f f Vf Vf). now apply Hpos. }
  assert (VS : forall f, In f S -> valid D f) by (intros f Hf; apply filter_In in Hf; now apply basis_in).
  assert (HS : forall m, In m ms -> (says out m (guess m) <= w * Rsum S (T m))%R).
  { intros m Hms. unfold says. destruct (Hm m) as [M1 _]. rewrite M1. unfold expect. rewrite re_sum.
    apply Rle_trans with (weight_of_label its m * Rsum S (T m))%R.
    - rewrite weight_from_rsum. rewrite Rmult_comm, <- Rsum_scal_l. unfold branches_of. rewrite Rsum_map. apply ExponentialProofs.Rsum_le. intros it Hit.
      assert (Hin : In it its /\ s_init (snd it) = m) by (apply filter_In in Hit; destruct Hit as [H1 H2]; apply leqb_spec in H2; now split). destruct Hin as [Hin Hl].
      destruct Hp as (_ & _ & HF). rewrite Forall_forall in HF. pose proof (HF it Hin) as Hps. destruct (Henc it Hin) as [Hcl Huse]; [now rewrite Hl|].
      rewrite expect1_form. replace (before_all D ops (diag (guess m)) (b_label (branch_of D (snd it))) (b_reg (branch_of D (snd it)))) with (before_all D ops (diag (guess m)) (b_label (branch_of D (snd it))) r) by (cbn [branch_of b_reg]; now rewrite Hcl).
      rewrite (form_ext D _ (M m) _ (b_wave (branch_of D (snd it))) _ (b_wave (branch_of D (snd it)))); [|intros f g _ _; apply unlabelled_before_all, diag_unlabelled|reflexivity|reflexivity].
      rewrite <- (nrm_branch D ncl (snd it) HL Hps). rewrite Rmult_comm. apply form_trace; [now apply Hpos|].
      intros f Vf Hf. cbn [branch_of b_wave]. rewrite Huse; [ring|exact Vf|now apply member_false].
    - apply Rmult_le_compat_r; [|now apply Hw]. apply Rsum_nonneg. intros f Hf. apply HT0; [exact Hms|now apply VS]. }
  unfold understood. eapply Rle_trans; [apply ExponentialProofs.Rsum_le; exact HS|]. rewrite Rsum_scal_l. apply Rmult_le_compat_l; [exact Hw0|].
  rewrite swap_rsum. apply Rle_trans with (Rsum S (fun _ => 1%R)).
  - apply ExponentialProofs.Rsum_le. intros f Hf. now apply HT, VS.
  - rewrite ExponentialProofs.Rsum_const, Rmult_1_r. apply le_INR. apply member_length.
Qed.
Print Assumptions C83_capacity.

(** If all messages are always understood, there are at most as many messages as tuples. *)
Theorem C83_perfect : forall D ncl full nodes ops its X rnd, 1 <= dL D -> 2 <= dN D ->
  Forall2 (means D ncl) nodes ops -> proper_items D ncl its ->
  exists eps0, (0 < eps0)%R /\ forall eps, (0 < eps <= eps0)%R ->
    let c := Circuit D ncl eps full (fresh_keys D) nodes in
    exists out, evaluate_circuit X rnd c (coll_of c its) = Ok (coll_of c out) /\
      forall ms r alphabet guess, length r = ncl -> encoded D its ms r alphabet -> decoder ncl ms guess ->
        (forall m, In m ms -> weight_of_label its m = 1 /\ says out m (guess m) = 1)%R ->
        length ms <= length alphabet.
Proof.
  intros D ncl full nodes ops its X rnd HL HN HM Hp.
  destruct (C83_capacity D ncl full nodes ops its X rnd HL HN HM Hp) as (e & He & H). exists e. split; [exact He|]. intros eps Heps c. destruct (H eps Heps) as (out & E & Hc). exists out. split; [exact E|].
  intros ms r alphabet guess Hr Henc Hdec Hall. apply INR_le.
  pose proof (Hc ms r alphabet 1%R guess Hr Henc Hdec ltac:(lra) (fun m Hms => Req_le _ _ (proj1 (Hall m Hms)))) as Hb.
  unfold understood in Hb. rewrite (Rsum_ext _ _ (fun _ => 1%R)) in Hb by (intros m Hms; apply (Hall m Hms)). rewrite ExponentialProofs.Rsum_const in Hb. lra.
Qed.
Print Assumptions C83_perfect.

Lemma noted_first D f r : valid D f -> dN D <= length r -> firstn (dN D) (noted (seq 0 (dN D)) f r) = map INR f.
Proof.
  intros [Lf _] Hr. apply (nth_ext _ _ 0%R (INR 0)); [rewrite firstn_length, noted_length, map_length; lia|].
  intros i Hi. rewrite firstn_length, noted_length in Hi. rewrite map_nth.
  assert (Hn : nth i (firstn (dN D) (noted (seq 0 (dN D)) f r)) 0%R = nth i (noted (seq 0 (dN D)) f r) 0%R).
  { rewrite <- (firstn_skipn (dN D) (noted (seq 0 (dN D)) f r)) at 2. rewrite app_nth1; [reflexivity|]. rewrite firstn_length, noted_length. lia. }
  rewrite Hn, noted_nth by lia. pose proof (noted_at_nth (seq 0 (dN D)) f i (seq_NoDup _ _)) as Ha. rewrite seq_nth in Ha by lia. cbn in Ha. rewrite Ha; [reflexivity|rewrite seq_length; lia|lia].
Qed.
Lemma readout_all D f : valid D f -> readout (seq 0 (dN D)) f = f.
Proof. intros [Lf _]. rewrite PropBridge.readout_firstn by lia. rewrite firstn_all2; [reflexivity|lia]. Qed.
Lemma map_INR_inj : forall a b : list nat, map INR a = map INR b -> a = b.
Proof. induction a as [|x a IH]; intros [|y b] H; try discriminate; [reflexivity|]. cbn in H. injection H as H1 H2. apply INR_eq in H1. subst. f_equal. now apply IH. Qed.
Lemma reads_decoder n ncl code ms : NoDup (map code ms) -> decoder ncl ms (reads n code).
Proof.
  intros ND r _. split; [intros m _; unfold reads; destruct (list_eq_dec _ _ _); lra|].
  induction ms as [|m ms IH]; [cbn; lra|]. cbn [map] in ND. inversion ND as [|? ? Hn ND']; subst. rewrite Rsum_cons. unfold reads at 1. destruct (list_eq_dec _ _ _) as [Em|_]; [|specialize (IH ND'); lra].
  rewrite Rsum_zero; [lra|]. intros m' Hm'. unfold reads. destruct (list_eq_dec _ _ _) as [Em'|_]; [|reflexivity]. exfalso. apply Hn. rewrite Em in Em'. apply map_INR_inj in Em'. rewrite Em'. now apply in_map.
Qed.

(** The bound is reached: as many messages as there are tuples, each written as one tuple, are read
    without a mistake by counting the photons in all channels. *)
Theorem C83_reached : forall L N ord ncl full its X rnd, 1 <= L -> 2 <= N -> N <= ncl -> let D := Dims L N ord in proper_items D ncl its ->
  exists nodes, program_nodes D ncl (count_all N) = Some nodes /\
  exists eps0, (0 < eps0)%R /\ forall eps, (0 < eps <= eps0)%R ->
    let c := Circuit D ncl eps full (fresh_keys D) nodes in
    exists out, evaluate_circuit X rnd c (coll_of c its) = Ok (coll_of c out) /\
      forall (ms : list ident) (code : ident -> values), NoDup (map code ms) -> (forall m, In m ms -> valid D (code m)) ->
        (forall it, In it its -> In (s_init (snd it)) ms -> uses_only D [code (s_init (snd it))] (snd it)) ->
        decoder ncl ms (reads N code) /\ forall m, In m ms -> says out m (reads N code m) = weight_of_label its m.
Proof.
  intros L N ord ncl full its X rnd HL HN Hncl D Hp.
  assert (En : program_nodes D ncl (count_all N) = Some [NMeasure (seq 0 N) (seq 0 N)]).
  { unfold count_all. cbn [program_nodes nodes_of]. unfold measure_optical_to_classical. rewrite Nat.eqb_refl. cbn [andb dN D].
    assert (F : forall k, N <= k -> forallb (fun c => c <? k) (seq 0 N) = true) by (intros k Hk; apply forallb_forall; intros c Hc; apply in_seq in Hc; apply Nat.ltb_lt; lia).
    rewrite !F by lia. reflexivity. }
  exists [NMeasure (seq 0 N) (seq 0 N)]. split; [exact En|].
  assert (HM : Forall2 (means D ncl) [NMeasure (seq 0 N) (seq 0 N)] [Detect (seq 0 N) (seq 0 N)]).
  { constructor; [|constructor]. constructor; [reflexivity|intros c Hc; apply in_seq in Hc; lia|apply seq_NoDup]. }
  destruct (mean_input D ncl full _ _ its X rnd HL HN HM Hp) as (e & He & H). exists e. split; [exact He|]. intros eps Heps c. destruct (H eps Heps) as (out & E & Hm). exists out. split; [exact E|].
  intros ms code ND Hv Huse. split; [now apply reads_decoder|]. intros m Hms. unfold says. destruct (Hm m) as [M1 _]. rewrite M1. unfold expect. rewrite re_sum, weight_from_rsum. unfold branches_of. rewrite Rsum_map. apply Rsum_ext. intros it Hit.
  assert (Hin : In it its /\ s_init (snd it) = m) by (apply filter_In in Hit; destruct Hit as [H1 H2]; apply leqb_spec in H2; now split). destruct Hin as [Hin Hl].
  destruct Hp as (_ & _ & HF). rewrite Forall_forall in HF. pose proof (HF it Hin) as Hps. assert (Hu : uses_only D [code m] (snd it)) by (rewrite <- Hl; apply Huse; [exact Hin|now rewrite Hl]).
  rewrite run_diag. cbn [run fold_left flat_map app perform]. rewrite app_nil_r, Rsum_map. cbn [reading b_reg b_wave].
  specialize (Hv m Hms). assert (Hr : readout (seq 0 N) (code m) = code m) by (apply (readout_all D); exact Hv).
  assert (Hlen : length (s_classical (snd it)) = ncl) by apply Hps.
  rewrite (Rsum_single _ (code m)).
  - assert (Eg : reads N code m (noted (seq 0 N) (code m) (b_reg (branch_of D (snd it)))) = 1%R).
    { unfold reads. cbn [branch_of b_reg]. pose proof (noted_first D (code m) (s_classical (snd it)) Hv) as Hf. cbn [dN D] in Hf. rewrite Hf by lia. destruct (list_eq_dec _ _ _) as [_|Hne]; [reflexivity|congruence]. }
    rewrite Eg, Rmult_1_l. rewrite <- (nrm_branch D ncl (snd it) HL Hps). apply nrm_ext. intros f Vf. destruct (leqb (readout (seq 0 N) f) (code m)) eqn:El; [reflexivity|].
    cbn [branch_of b_wave]. rewrite Hu; [ring|exact Vf|]. intros [Hc|[]]. subst f. rewrite Hr, leqb_refl in El. discriminate.
  - apply NoDup_nodup.
  - unfold all_readings. apply nodup_In. rewrite <- Hr at 1. apply in_map. now apply basis_in.
  - intros o _ Ho. assert (Ez : nrm D (fun f => if leqb (readout (seq 0 N) f) o then b_wave (branch_of D (snd it)) f else RtoC 0) = 0%R).
    { unfold nrm. apply Rsum_zero. intros f Hf. apply basis_in in Hf. destruct (leqb (readout (seq 0 N) f) o) eqn:El; [|rewrite Cnorm2_RtoC; ring].
      apply leqb_spec in El. pose proof (readout_all D f Hf) as Hrf. cbn [dN D] in Hrf. cbn [branch_of b_wave]. rewrite Hu; [rewrite Cmult_0_r, Cnorm2_RtoC; ring|exact Hf|]. intros [Hc|[]]. apply Ho. now rewrite <- El, Hrf. }
    rewrite Ez. ring.
Qed.
Print Assumptions C83_reached.

(** One photon in one of [n] channels: the alphabet has [n] tuples, so at most [n] messages are always
    understood. A case: three states of one photon in two channels, as three messages. *)
Lemma one_photon_length n : length (one_photon n) = n.
Proof. unfold one_photon. now rewrite map_length, seq_length. Qed.
Definition polarised_photon (lab : nat) (t : R) : ident * state := ([lab], State [lab] 1 [([1;0], (RtoC (cos t), cos t * cos t)%R); ([0;1], (RtoC (sin t), sin t * sin t)%R)] [0%R; 0%R] [] []).
Example C83_case : let D := Dims 2 2 true in let its := [polarised_photon 1 (PI / 6); polarised_photon 2 (- (PI / 6)); polarised_photon 3 (PI / 4)] in
  let ms := [[1]; [2]; [3]] in
  proper_items D 2 its /\ encoded D its ms [0%R; 0%R] (one_photon 2) /\ length (one_photon 2) = 2 /\ (forall m, In m ms -> weight_of_label its m <= 1)%R /\
  decoder 2 ms (reads 2 (fun m => match m with [1] => [1;0] | [2] => [0;1] | _ => [1;1] end)).
Proof.
  intros D its ms.
  assert (HS : forall lab t, cos t <> 0%R -> sin t <> 0%R -> proper_state D 2 (snd (polarised_photon lab t))).
  { intros lab t Hc Hs. split; [|split; [|split; [|split; [|split; reflexivity]]]].
    - split; [repeat constructor; cbn; intuition discriminate|]. intros nm. cbn [polarised_photon snd s_comps map fst In]. intros [<-|[<-|[]]]; [exists [1;0]|exists [0;1]]; (split; [split; [reflexivity|repeat constructor]|reflexivity]).
    - intros nm a q. cbn [polarised_photon snd s_comps In]. intros [H|[H|[]]]; injection H as <- <- <-; (split; [intros H; apply RtoC_inj in H; lra|now rewrite Cnorm2_RtoC]).
    - unfold state_norm2. cbn [polarised_photon snd s_comps]. rewrite !Rsum_cons. cbn [fst snd]. rewrite !Cnorm2_RtoC. unfold Rsum; cbn. pose proof (sin2_cos2 t) as H2. unfold Rsqr in H2. lra.
    - cbn. lra. }
  pose proof PI_RGT_0 as HPI.
  assert (T : forall t, (0 < t < PI / 2)%R -> cos t <> 0%R /\ sin t <> 0%R).
  { intros t Ht. pose proof (cos_gt_0 t ltac:(lra) ltac:(lra)). pose proof (sin_gt_0 t ltac:(lra) ltac:(lra)). lra. }
  destruct (T (PI / 6)%R ltac:(lra)) as [T1 T2]. destruct (T (PI / 4)%R ltac:(lra)) as [T3 T4].
  split; [|split; [|split; [reflexivity|split]]].
  - split; [discriminate|]. split; [repeat constructor; cbn; intuition discriminate|]. constructor; [now apply HS|]. constructor; [apply HS; [rewrite cos_neg; exact T1|rewrite sin_neg; lra]|]. constructor; [now apply HS|constructor].
  - intros it Hit _. assert (Hq : exists lab t, it = polarised_photon lab t) by (destruct Hit as [<-|[<-|[<-|[]]]]; now do 2 eexists). destruct Hq as (lab & t & ->). split; [reflexivity|].
    intros f Vf Hf. apply basis_in in Vf. vm_compute in Vf. cbn [one_photon map seq Nat.eqb In] in Hf.
    repeat (destruct Vf as [<-|Vf]; [first [reflexivity|exfalso; apply Hf; tauto]|]). destruct Vf.
  - intros m [<-|[<-|[<-|[]]]]; unfold weight_of_label, its, polarised_photon; rewrite !Rsum_cons; cbn; lra.
  - apply reads_decoder. cbn. repeat constructor; cbn; intuition discriminate.
Qed.
