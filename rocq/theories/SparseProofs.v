(** Wave functions given by a list of tuples and amplitudes, and symbolic execution with them. *)
From Coq Require Import Reals List Arith Lia Lra Bool Permutation.
From Coquelicot Require Import Complex.
From Verif Require Import Prelude NamesModel NamesSpec NamesProofs FockModel FockSpec FockProofs GateProofs PropFock
  OpticalModel OpticalProofs StateModel StateSpec StateProofs CollectionModel EvalModel EvalSpec EvalProofs MeasureSpec MeasureProofs PropEval
  InterferenceSpec ArrangementProofs PermanentProofs CustomModel CustomSpec PropCustom PropOptical CircuitSpec CircuitProofs EnsembleProofs PropCircuit ProgramModel ProgramSpec
  ProtocolSpec ProtocolProofs PropCleanup PropProtocol PropDeferred PropProgram ApplicationSpec.
Import ListNotations.

Lemma evolve_ext D T w w' g : (forall f, valid D f -> w f = w' f) -> evolve D T w g = evolve D T w' g.
Proof. intro H. unfold evolve. apply Csum_ext. intros f Hf. apply basis_in in Hf. now rewrite H. Qed.
Lemma wave_sum D l (F : values -> C) : Forall (fun p => valid D (fst p)) l ->
  Csum (basis D) (fun f => F f * wave_of l f)%C = Csum l (fun p => F (fst p) * snd p)%C.
Proof.
  intro HF. unfold wave_of. transitivity (Csum (basis D) (fun f => Csum l (fun p => F f * (if leqb f (fst p) then snd p else RtoC 0))%C)); [apply Csum_ext; intros f _; now rewrite Csum_scal_l|].
  rewrite Csum_swap. apply Csum_ext. intros p Hp. rewrite Forall_forall in HF. specialize (HF p Hp). rewrite (Csum_single _ (fst p)); [now rewrite leqb_refl|apply basis_nodup|now apply basis_in|].
  intros f _ Hn. destruct (leqb f (fst p)) eqn:E; [apply leqb_spec in E; congruence|ring].
Qed.

(** ** Up to two photons in an element *)
Definition split_pair (A : mat2) (a b : nat) : list ((nat * nat) * C) :=
  match a, b with
  | 0, 0 => [((0, 0), RtoC 1)]
  | 1, 0 => [((1, 0), m00 A); ((0, 1), m10 A)]
  | 0, 1 => [((1, 0), m01 A); ((0, 1), m11 A)]
  | 1, 1 => [((2, 0), RtoC (sqrt 2) * (m00 A * m01 A)); ((1, 1), m00 A * m11 A + m10 A * m01 A); ((0, 2), RtoC (sqrt 2) * (m10 A * m11 A))]%C
  | 2, 0 => [((2, 0), m00 A * m00 A); ((1, 1), RtoC (sqrt 2) * (m00 A * m10 A)); ((0, 2), m10 A * m10 A)]%C
  | 0, 2 => [((2, 0), m01 A * m01 A); ((1, 1), RtoC (sqrt 2) * (m01 A * m11 A)); ((0, 2), m11 A * m11 A)]%C
  | _, _ => []
  end.
Lemma sqrt_half_2 : sqrt (1 / 2) = (/ sqrt 2)%R.
Proof. unfold Rdiv. rewrite Rmult_1_l. apply sqrt_inv. Qed.
Lemma twice_inv_sqrt2 : (2 * / sqrt 2)%R = sqrt 2.
Proof. assert (0 < sqrt 2)%R by (apply sqrt_lt_R0; lra). apply (Rmult_eq_reg_r (sqrt 2)); [|lra]. rewrite sqrt_sqrt by lra. field. lra. Qed.
Lemma split_pair_ok L A a b u v : a + b <= 2 -> a + b < L ->
  gate_amp L A a b u v = Csum (split_pair A a b) (fun q => if (u =? fst (fst q)) && (v =? snd (fst q)) then snd q else RtoC 0).
Proof.
  intros H2 HL. unfold gate_amp. destruct (Nat.leb_spec L (a + b)) as [|_]; [lia|].
  assert (HC : RtoC (sqrt 2) = ((RtoC 1 + RtoC 1) * RtoC (/ sqrt 2))%C) by (rewrite <- RtoC_plus, <- RtoC_mult; f_equal; pose proof twice_inv_sqrt2; lra).
  destruct (Nat.eqb_spec (u + v) (a + b)) as [E|E].
  - assert (Hs : u <= 2) by lia. assert (Hs' : v <= 2) by lia.
    destruct a as [|[|[|a]]], b as [|[|[|b]]]; try lia; cbn [split_pair]; rewrite ?Csum_cons, Csum_nil; cbn [fst snd];
      destruct u as [|[|[|u]]]; try lia; destruct v as [|[|[|v]]]; try lia; cbn [Nat.eqb andb]; cbn -[sqrt INR Rdiv];
      replace (INR 1) with 1%R by reflexivity; replace (INR 2) with 2%R by (cbn; ring);
      rewrite ?Rdiv_1, ?sqrt_1, ?(Rinv_r 2), ?sqrt_half_2; try (replace (2 / 2)%R with 1%R by field); try (replace (1 / 1)%R with 1%R by field); rewrite ?sqrt_1, ?sqrt_half_2; try ring.
    all: try (replace (2 / 1)%R with 2%R by field; ring).
    all: try (rewrite HC; ring).
  - symmetry. apply Csum_zero. intros q Hq. destruct ((u =? fst (fst q)) && (v =? snd (fst q))) eqn:E1; [|reflexivity]. exfalso. apply andb_prop in E1. destruct E1 as [E1 E2]. apply Nat.eqb_eq in E1, E2. subst u v.
    destruct a as [|[|[|a]]], b as [|[|[|b]]]; try lia; cbn [split_pair] in Hq; repeat (destruct Hq as [<-|Hq]; [cbn in *; lia|]); destruct Hq.
Qed.

Lemma split_pair_small A a b q : a + b <= 2 -> In q (split_pair A a b) -> fst (fst q) + snd (fst q) = a + b.
Proof. intros H Hq. destruct a as [|[|[|a]]], b as [|[|[|b]]]; try lia; cbn [split_pair] in Hq; repeat (destruct Hq as [<-|Hq]; [reflexivity|]); destruct Hq. Qed.

Definition step (A : mat2) (h v : nat) (l : list (values * C)) : list (values * C) :=
  flat_map (fun p => map (fun q => (put2 h v (fst (fst q)) (snd (fst q)) (fst p), (snd q * snd p)%C)) (split_pair A (nth h (fst p) 0) (nth v (fst p) 0))) l.
(** Tuples with at most two photons, and fewer than the length, in the two channels. *)
Definition small (D : dims) (h v : nat) (p : values * C) : Prop :=
  valid D (fst p) /\ nth h (fst p) 0 + nth v (fst p) 0 <= 2 /\ nth h (fst p) 0 + nth v (fst p) 0 < dL D.
Lemma small_valid D h v l : Forall (small D h v) l -> Forall (fun p => valid D (fst p)) l.
Proof. apply Forall_impl. now intros p (H & _). Qed.
Lemma step_valid D A h v l : Forall (small D h v) l -> Forall (fun p => valid D (fst p)) (step A h v l).
Proof.
  intro HF. rewrite Forall_forall in *. intros p Hp. unfold step in Hp. apply in_flat_map in Hp. destruct Hp as (p0 & Hp0 & Hp). apply in_map_iff in Hp. destruct Hp as (q & <- & Hq). cbn [fst].
  destruct (HF p0 Hp0) as (V & H2 & HL). pose proof (split_pair_small _ _ _ _ H2 Hq). apply put2_valid; [exact V|lia|lia].
Qed.
Lemma step_ok D A h v l g : h <> v -> h < dN D -> v < dN D -> Forall (small D h v) l -> valid D g ->
  evolve D (pair_amp D A h v) (wave_of l) g = wave_of (step A h v l) g.
Proof.
  intros Hne Hh Hv HF Vg. unfold evolve. rewrite (wave_sum D l (fun f => pair_amp D A h v f g)) by now apply small_valid in HF.
  unfold wave_of, step. rewrite Csum_flat_map. apply Csum_ext. intros p Hp. rewrite Forall_forall in HF. destruct (HF p Hp) as (Vp & H2 & HL). rewrite Csum_map. cbn [fst snd].
  transitivity (Csum (basis D) (fun k => pair_amp D A h v (fst p) k * (if leqb g k then snd p else RtoC 0))%C).
  + rewrite (Csum_single _ g); [now rewrite leqb_refl|apply basis_nodup|now apply basis_in|]. intros f _ Hn. destruct (leqb g f) eqn:E; [apply leqb_spec in E; congruence|ring].
  + rewrite (pair_sum D A h v (fst p)) by assumption.
    transitivity (Csum (pairs (dL D)) (fun x => Csum (split_pair A (nth h (fst p) 0) (nth v (fst p) 0))
        (fun q => (if (fst x =? fst (fst q)) && (snd x =? snd (fst q)) then snd q else RtoC 0) * (if leqb g (put2 h v (fst x) (snd x) (fst p)) then snd p else RtoC 0))%C)).
    * apply Csum_ext. intros x _. rewrite (split_pair_ok (dL D) A) by assumption. now rewrite Csum_scal_r.
    * rewrite Csum_swap. apply Csum_ext. intros q Hq. pose proof (split_pair_small _ _ _ _ H2 Hq) as Hs. rewrite (Csum_single _ (fst q)); [|apply pairs_nodup|destruct (fst q) as [x y]; apply pairs_in; cbn [fst snd] in *; lia|].
      -- rewrite !Nat.eqb_refl. cbn [andb]. destruct (leqb g _); ring.
      -- intros x _ Hn. destruct (Nat.eqb_spec (fst x) (fst (fst q))) as [E1|], (Nat.eqb_spec (snd x) (snd (fst q))) as [E2|]; cbn [andb]; try ring. exfalso. apply Hn. destruct x, (fst q); cbn in *; congruence.
Qed.

(** ** Probabilities by symbolic execution *)
(** The probability that the branch [lab], [reg], [l] ends in a branch with the property [P]. *)
Definition chance (D : dims) (ops : list operation) (lab : ident) (reg : list R) (w : values -> C) (P : ident -> list R -> bool) : C :=
  expect D (run D ops [Branch lab reg w]) (trace_of P).
Lemma expect_wave_ext D o lab reg w w' : (forall f, valid D f -> w f = w' f) -> expect D [Branch lab reg w] o = expect D [Branch lab reg w'] o.
Proof.
  intro H. unfold expect. rewrite !Csum_cons, !Csum_nil. f_equal. unfold expect1. cbn [b_label b_reg b_wave]. apply Csum_ext. intros f Hf. apply Csum_ext. intros g Hg. apply basis_in in Hf, Hg. now rewrite !H.
Qed.
Lemma chance_ext D ops lab reg w w' P : (forall f, valid D f -> w f = w' f) -> chance D ops lab reg w P = chance D ops lab reg w' P.
Proof. intro H. unfold chance. rewrite !expect_run. now apply expect_wave_ext. Qed.
Lemma chance_element D A h v ops lab reg l P : h <> v -> h < dN D -> v < dN D -> Forall (small D h v) l ->
  chance D (Element A h v :: ops) lab reg (wave_of l) P = chance D ops lab reg (wave_of (step (A reg) h v l)) P.
Proof.
  intros H1 H2 H3 HF. unfold chance. rewrite run_cons. cbn [flat_map perform b_label b_reg b_wave app]. apply chance_ext. intros f Vf. now apply step_ok.
Qed.
Lemma chance_compute D F ops lab reg w P : chance D (Compute F :: ops) lab reg w P = chance D ops lab (F reg) w P.
Proof. unfold chance. rewrite run_cons. reflexivity. Qed.
Definition part (opt o : list nat) (l : list (values * C)) : list (values * C) := filter (fun p => leqb (readout opt (fst p)) o) l.
Lemma part_wave opt o l f : wave_of (part opt o l) f = if leqb (readout opt f) o then wave_of l f else RtoC 0.
Proof.
  unfold wave_of, part. induction l as [|p l IH]; [cbn [filter]; rewrite !Csum_nil; now destruct (leqb _ _)|]. cbn [filter]. rewrite Csum_cons.
  destruct (leqb f (fst p)) eqn:E.
  - apply leqb_spec in E. subst f. destruct (leqb (readout opt (fst p)) o); [rewrite Csum_cons, leqb_refl, IH; reflexivity|]. exact IH.
  - destruct (leqb (readout opt (fst p)) o); [rewrite Csum_cons, E|]; rewrite IH; destruct (leqb (readout opt f) o); ring.
Qed.
Lemma part_valid D opt o l : Forall (fun p => valid D (fst p)) l -> Forall (fun p => valid D (fst p)) (part opt o l).
Proof. intro H. rewrite Forall_forall in *. intros p Hp. apply filter_In in Hp. now apply H. Qed.
Lemma chance_zero D ops lab reg w P : (forall f, valid D f -> w f = RtoC 0) -> chance D ops lab reg w P = RtoC 0.
Proof.
  intro H. unfold chance. rewrite expect_run. unfold expect. rewrite Csum_cons, Csum_nil. unfold expect1. cbn [b_label b_reg b_wave]. rewrite Csum_zero; [ring|]. intros f Hf. apply Csum_zero. intros g _. apply basis_in in Hf. rewrite H by exact Hf. ring.
Qed.
Lemma chance_detect D opt cl ops lab reg l P os : Forall (fun p => valid D (fst p)) l -> NoDup os -> (forall p, In p l -> In (readout opt (fst p)) os) ->
  (forall o, In o os -> exists f, valid D f /\ readout opt f = o) ->
  chance D (Detect opt cl :: ops) lab reg (wave_of l) P = Csum os (fun o => chance D ops lab (noted cl o reg) (wave_of (part opt o l)) P).
Proof.
  intros HV Hnd Hin Hex. unfold chance at 1. rewrite run_cons. cbn [flat_map perform]. rewrite app_nil_r, expect_run. unfold expect. rewrite Csum_map.
  transitivity (Csum (all_readings D opt) (fun o => chance D ops lab (noted cl o reg) (wave_of (part opt o l)) P)).
  - apply Csum_ext. intros o _. unfold chance. rewrite expect_run. unfold reading. cbn [b_label b_reg b_wave].
    rewrite (expect_wave_ext D _ lab (noted cl o reg) (wave_of (part opt o l)) (fun f => if leqb (readout opt f) o then wave_of l f else RtoC 0)) by (intros f _; apply part_wave). unfold expect. rewrite Csum_cons, Csum_nil. ring.
  - assert (Ha : forall o, In o os -> In o (all_readings D opt)).
    { intros o Ho. destruct (Hex o Ho) as (f & Vf & <-). unfold all_readings. apply nodup_In. apply in_map. now apply basis_in. }
    rewrite (Csum_image (all_readings D opt) os (fun o => o)); [reflexivity|apply NoDup_nodup|exact Hnd|now intros|exact Ha|].
    intros o _ Hn. apply chance_zero. intros f _. rewrite part_wave. destruct (leqb (readout opt f) o) eqn:E; [|reflexivity]. apply leqb_spec in E.
    unfold wave_of. apply Csum_zero. intros p Hp. destruct (leqb f (fst p)) eqn:E1; [|reflexivity]. apply leqb_spec in E1. subst f. exfalso. apply (Hn _ (Hin p Hp)). congruence.
Qed.
(** At the end: the squared norm, if the amplitudes belong to different tuples. *)
Lemma chance_end D lab reg l P : Forall (fun p => valid D (fst p)) l -> NoDup (map fst l) ->
  chance D [] lab reg (wave_of l) P = if P lab reg then RtoC (Rsum l (fun p => Cnorm2 (snd p))) else RtoC 0.
Proof.
  intros HV Hnd. unfold chance, run. cbn [fold_left]. unfold expect. rewrite Csum_cons, Csum_nil. unfold expect1, trace_of. cbn [b_label b_reg b_wave]. destruct (P lab reg).
  - rewrite <- Csum_RtoC. transitivity (Csum (basis D) (fun f => Cconj (wave_of l f) * wave_of l f)%C).
    + rewrite Cplus_0_r. apply Csum_ext. intros f Hf. rewrite (Csum_single _ f); [rewrite leqb_refl; ring|apply basis_nodup|exact Hf|]. intros g _ Hn. destruct (leqb f g) eqn:E; [apply leqb_spec in E; congruence|ring].
    + rewrite (wave_sum D l (fun f => Cconj (wave_of l f))) by exact HV. apply Csum_ext. intros p Hp. rewrite <- Cconj_mult_norm2. f_equal. f_equal. unfold wave_of.
      clear HV. induction l as [|q l IH]; [destruct Hp|]. cbn [map] in Hnd. apply NoDup_cons_iff in Hnd. destruct Hnd as [Hn Hnd]. rewrite Csum_cons. destruct Hp as [->|Hp].
      * rewrite leqb_refl. rewrite Csum_zero; [ring|]. intros r Hr. destruct (leqb (fst p) (fst r)) eqn:E; [|reflexivity]. apply leqb_spec in E. exfalso. apply Hn. rewrite E. now apply in_map.
      * rewrite IH by assumption. destruct (leqb (fst p) (fst q)) eqn:E; [|ring]. apply leqb_spec in E. exfalso. apply Hn. rewrite <- E. now apply in_map.
  - rewrite Csum_zero; [ring|]. intros f _. apply Csum_zero. intros g _. ring.
Qed.
(** Nothing that follows changes the classical channel [c]. *)
Definition keeps (ncl c : nat) (op : operation) : Prop :=
  match op with
  | Compute F => forall r, length r = ncl -> length (F r) = ncl /\ nth c (F r) 0%R = nth c r 0%R
  | Detect _ cl => ~ In c cl
  | _ => True
  end.
Lemma noted_at_none cl : forall o c, ~ In c cl -> noted_at cl o c = None.
Proof. induction cl as [|x cl IH]; intros [|y o] c H; cbn; auto. destruct (Nat.eqb_spec x c); [exfalso; apply H; now left|]. apply IH. intro. apply H. now right. Qed.
Lemma noted_keeps cl o r c : ~ In c cl -> nth c (noted cl o r) 0%R = nth c r 0%R.
Proof.
  intro H. unfold noted. destruct (Nat.lt_ge_cases c (length r)) as [Hc|Hc].
  - rewrite (nth_indep _ 0%R ((fun c => match noted_at cl o c with Some x => INR x | None => nth c r 0%R end) 0)) by now rewrite map_length, seq_length.
    rewrite (map_nth (fun c => match noted_at cl o c with Some x => INR x | None => nth c r 0%R end)). rewrite seq_nth by exact Hc. cbn [Nat.add]. now rewrite noted_at_none.
  - rewrite !nth_overflow; try reflexivity; [exact Hc|now rewrite map_length, seq_length].
Qed.
Lemma noted_len cl o r : length (noted cl o r) = length r.
Proof. unfold noted. now rewrite map_length, seq_length. Qed.
Lemma run_keeps D ncl c ops : Forall (keeps ncl c) ops -> forall E b, (forall b, In b E -> length (b_reg b) = ncl) -> In b (run D ops E) ->
  exists b0, In b0 E /\ nth c (b_reg b) 0%R = nth c (b_reg b0) 0%R /\ b_label b = b_label b0.
Proof.
  induction 1 as [|op ops Hop HF IH]; intros E b HE Hb; [exists b; now split|]. rewrite run_cons in Hb.
  assert (Hp : forall b1, In b1 (flat_map (perform D op) E) -> length (b_reg b1) = ncl /\ exists b0, In b0 E /\ nth c (b_reg b1) 0%R = nth c (b_reg b0) 0%R /\ b_label b1 = b_label b0).
  { intros b1 H1. apply in_flat_map in H1. destruct H1 as (b0 & H0 & H1). pose proof (HE b0 H0) as Hl. destruct op as [A h v|T|F|opt cl]; cbn [perform keeps] in *.
    - destruct H1 as [<-|[]]. cbn. split; [exact Hl|]. now exists b0.
    - destruct H1 as [<-|[]]. cbn. split; [exact Hl|]. now exists b0.
    - destruct H1 as [<-|[]]. cbn. destruct (Hop _ Hl) as [H2 H3]. split; [exact H2|]. now exists b0.
    - apply in_map_iff in H1. destruct H1 as (o & <- & _). unfold reading. cbn. rewrite noted_len. split; [exact Hl|]. exists b0. split; [exact H0|]. split; [now apply noted_keeps|reflexivity]. }
  destruct (IH _ b (fun b1 H1 => proj1 (Hp b1 H1)) Hb) as (b1 & H1 & E1 & L1). destruct (Hp b1 H1) as (_ & b0 & H0 & E0 & L0). exists b0. split; [exact H0|]. split; congruence.
Qed.
Lemma expect_none D E P : (forall b, In b E -> P (b_label b) (b_reg b) = false) -> expect D E (trace_of P) = RtoC 0.
Proof.
  intro H. unfold expect. apply Csum_zero. intros b Hb. unfold expect1, trace_of. rewrite (H b Hb). apply Csum_zero. intros f _. apply Csum_zero. intros g _. ring.
Qed.
Lemma chance_dead D ncl c ops lab reg w P : length reg = ncl -> Forall (keeps ncl c) ops ->
  (forall r, nth c r 0%R = nth c reg 0%R -> P lab r = false) -> chance D ops lab reg w P = RtoC 0.
Proof.
  intros Hl HF HP. unfold chance. apply expect_none. intros b Hb. destruct (run_keeps D ncl c ops HF [Branch lab reg w] b) as (b0 & [<-|[]] & E & Lb); [|exact Hb|].
  - intros b0 [<-|[]]. exact Hl.
  - rewrite Lb. apply HP. exact E.
Qed.

(** ** From a collection *)

Lemma NoDup_fst_eq {A B} (l : list (A * B)) k x y : NoDup (map fst l) -> In (k, x) l -> In (k, y) l -> x = y.
Proof.
  induction l as [|[k0 z] l IH]; [intros _ []|]. cbn [map fst]. intros Hnd H1 H2. apply NoDup_cons_iff in Hnd. destruct Hnd as [Hn Hnd].
  destruct H1 as [E1|H1], H2 as [E2|H2]; try congruence; [exfalso; apply Hn; injection E1 as -> _; now apply (in_map fst) in H2|exfalso; apply Hn; injection E2 as -> _; now apply (in_map fst) in H1|now apply IH].
Qed.
Lemma run_labels D ops : forall E b, In b (run D ops E) -> exists b0, In b0 E /\ b_label b = b_label b0.
Proof.
  induction ops as [|op ops IH]; intros E b Hb; [now exists b|]. rewrite run_cons in Hb. destruct (IH _ _ Hb) as (b1 & H1 & E1). apply in_flat_map in H1. destruct H1 as (b0 & H0 & H1). exists b0. split; [exact H0|]. rewrite E1.
  destruct op as [A h v|T|F|opt cl]; cbn [perform] in H1; try (destruct H1 as [<-|[]]; reflexivity). apply in_map_iff in H1. now destruct H1 as (o & <- & _).
Qed.
Lemma expect_scale D o lab reg (w : values -> C) (a : R) :
  expect D [Branch lab reg (fun f => RtoC a * w f)%C] o = (RtoC (a * a) * expect D [Branch lab reg w] o)%C.
Proof.
  unfold expect. rewrite !Csum_cons, !Csum_nil. unfold expect1. cbn [b_label b_reg b_wave]. rewrite !Cplus_0_r, <- Csum_scal_l. apply Csum_ext. intros f _. rewrite <- Csum_scal_l. apply Csum_ext. intros g _.
  rewrite Cconj_mult, Cconj_RtoC, RtoC_mult. ring.
Qed.
(** The weights that a circuit gives. *)
Lemma program_chance D ncl full p nodes its X rnd : 1 <= dL D -> 2 <= dN D ->
  program_nodes D ncl p = Some nodes -> Forall (careful D ncl) p -> proper_items D ncl its ->
  exists eps0, (0 < eps0)%R /\ forall eps, (0 < eps <= eps0)%R ->
  let c := Circuit D ncl eps full (fresh_keys D) nodes in
  exists out, evaluate_circuit X rnd c (coll_of c its) = Ok (coll_of c out) /\ proper_items D ncl out /\
    forall lab st reg l P, prepared D its lab st reg l -> RtoC (weight_where out lab P) = (RtoC (s_cum st) * chance D (flat_map (meaning D) p) lab reg (wave_of l) (fun l' r => leqb l' lab && P r))%C.
Proof.
  intros HL HN E HF Hp. destruct (C62_program D ncl full p nodes its X rnd HL HN E HF Hp) as (eps0 & H0 & H). exists eps0. split; [exact H0|]. intros eps He c.
  destruct (H eps He) as (out & Eo & Hpo & Hb). exists out. split; [exact Eo|]. split; [exact Hpo|]. intros lab st reg l P (Hk & Hlab & Hu & Hreg & Hw).
  unfold weight_where. rewrite <- (expect_branches D ncl out (fun l' r => leqb l' lab && P r) HL Hpo), (ensemble_result D ncl its _ out Hpo Hb), expect_run.
  destruct Hp as (_ & Hnd & Hps). set (ops := flat_map (meaning D) p). set (Q := fun l' r => leqb l' lab && P r). destruct Hk as (k & Hk).
  unfold expect, branches_of. rewrite Csum_map.
  rewrite (Csum_single _ (k, st)); [|now apply (NoDup_map_inv fst)|exact Hk|].
  - cbn [snd]. unfold chance. rewrite expect_run. rewrite Forall_forall in Hps. destruct (Hps _ Hk) as (_ & _ & _ & [Hc _] & _). cbn [snd] in Hc.
    rewrite <- (sqrt_sqrt (s_cum st)) at 1 by lra. rewrite <- expect_scale. unfold expect. rewrite Csum_cons, Csum_nil, Cplus_0_r. unfold expect1, branch_of. cbn [b_label b_reg b_wave]. rewrite Hlab, Hreg.
    apply Csum_ext. intros f Hf. apply Csum_ext. intros g Hg. apply basis_in in Hf, Hg. now rewrite !Hw.
  - intros [k' st'] Hin Hne. cbn [snd].
    destruct (leqb (s_init st') lab) eqn:El.
    + apply leqb_spec in El. exfalso. apply Hne. assert (k' = k) by (eapply Hu; eassumption). subst k'. f_equal. eapply NoDup_fst_eq; eassumption.
    + transitivity (expect D [branch_of D st'] (before_all D ops (trace_of Q))); [unfold expect; rewrite Csum_cons, Csum_nil, Cplus_0_r; reflexivity|]. rewrite <- expect_run. apply expect_none. intros b Hb'. destruct (run_labels D ops _ _ Hb') as (b0 & [<-|[]] & El'). unfold Q. rewrite El'. cbn [b_label branch_of]. now rewrite El.
Qed.

(** ** Tactics for symbolic execution *)
Lemma Rsum_nil {A} (f : A -> R) : Rsum [] f = 0%R.
Proof. reflexivity. Qed.
Definition ind (b : bool) : C := if b then RtoC 1 else RtoC 0.
Lemma if_scale (b : bool) (x : C) : (if b then x else RtoC 0) = (x * ind b)%C.
Proof. unfold ind. destruct b; ring. Qed.
Ltac valid_tuple := split; [reflexivity|repeat (apply Forall_cons; [cbn; lia|]); apply Forall_nil].
Ltac smalls := repeat (apply Forall_cons; [split; [cbn [fst]; valid_tuple|cbn; lia]|]); apply Forall_nil.
Ltac valids := repeat (apply Forall_cons; [cbn [fst]; valid_tuple|]); apply Forall_nil.
Ltac expand_wave := unfold wave_of; rewrite ?Csum_cons, ?Csum_nil; cbn [fst snd]; rewrite !if_scale.
