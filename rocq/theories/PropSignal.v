(** C63: a phase shift in Bob's channel that looks into Alice's channel 0. *)
From Coq Require Import Reals List Arith Lia Lra Bool Permutation ZArith.
From Coquelicot Require Import Complex.
From Verif Require Import Prelude NamesModel NamesSpec NamesProofs FockModel FockSpec FockProofs GateProofs PropFock
  OpticalModel OpticalProofs StateModel StateSpec StateProofs CollectionModel EvalModel EvalSpec EvalProofs MeasureSpec MeasureProofs PropEval
  InterferenceSpec ArrangementProofs PermanentProofs CustomModel CustomSpec PropCustom PropOptical CircuitSpec CircuitProofs EnsembleProofs PropCircuit ProgramModel ProgramSpec
  ProtocolSpec ProtocolProofs PropCleanup PropProtocol PropDeferred PropProgram PropPrograms.
Import ListNotations.

(** Wave functions given by a list of tuples and amplitudes. *)
Definition wave_of (l : list (values * C)) : values -> C := fun g => Csum l (fun p => if leqb g (fst p) then snd p else RtoC 0).
Definition step (D : dims) (A : mat2) (h v : nat) (l : list (values * C)) : list (values * C) :=
  flat_map (fun p => map (fun q => (put2 h v (fst q) (snd q) (fst p), (gate_amp (dL D) A (nth h (fst p) 0) (nth v (fst p) 0) (fst q) (snd q) * snd p)%C)) (pairs (dL D))) l.
Lemma step_ok D A h v l g : h <> v -> h < dN D -> v < dN D -> Forall (fun p => valid D (fst p)) l -> valid D g ->
  evolve D (pair_amp D A h v) (wave_of l) g = wave_of (step D A h v l) g.
Proof.
  intros Hne Hh Hv HF Vg. unfold evolve, wave_of, step. rewrite Csum_flat_map.
  transitivity (Csum l (fun p => pair_amp D A h v (fst p) g * snd p)%C).
  - transitivity (Csum (basis D) (fun f => Csum l (fun p => pair_amp D A h v f g * (if leqb f (fst p) then snd p else RtoC 0))%C)); [apply Csum_ext; intros f _; now rewrite Csum_scal_l|].
    rewrite Csum_swap. apply Csum_ext. intros p Hp. rewrite Forall_forall in HF. specialize (HF p Hp). rewrite (Csum_single _ (fst p)); [now rewrite leqb_refl|apply basis_nodup|now apply basis_in|].
    intros f _ Hn. destruct (leqb f (fst p)) eqn:E; [apply leqb_spec in E; congruence|ring].
  - apply Csum_ext. intros p Hp. rewrite Forall_forall in HF. specialize (HF p Hp). rewrite Csum_map. cbn [fst snd].
    transitivity (Csum (basis D) (fun k => pair_amp D A h v (fst p) k * (if leqb g k then snd p else RtoC 0))%C).
    + rewrite (Csum_single _ g); [now rewrite leqb_refl|apply basis_nodup|now apply basis_in|]. intros f _ Hn. destruct (leqb g f) eqn:E; [apply leqb_spec in E; congruence|ring].
    + rewrite (pair_sum D A h v (fst p)) by assumption. apply Csum_ext. intros q _. destruct (leqb g _); [reflexivity|ring].
Qed.
Lemma evolve_ext D T w w' g : (forall f, valid D f -> w f = w' f) -> evolve D T w g = evolve D T w' g.
Proof. intro H. unfold evolve. apply Csum_ext. intros f Hf. apply basis_in in Hf. now rewrite H. Qed.
Lemma step_as D A h v w l l' : h <> v -> h < dN D -> v < dN D -> Forall (fun p => valid D (fst p)) l -> (forall f, valid D f -> w f = wave_of l f) ->
  (forall g, wave_of (step D A h v l) g = wave_of l' g) -> forall g, valid D g -> evolve D (pair_amp D A h v) w g = wave_of l' g.
Proof. intros H1 H2 H3 HF Hw Hl g Vg. rewrite (evolve_ext _ _ _ (wave_of l)) by exact Hw. rewrite step_ok by assumption. apply Hl. Qed.
(** The probability of a reading if the wave function before the measurement is a single tuple. *)
Lemma final_probability D opt cl lab reg w g P : valid D g -> (forall f, valid D f -> w f = wave_of [(g, RtoC 1)] f) ->
  expect D (run D [Detect opt cl] [Branch lab reg w]) (trace_of P) = if P lab (noted cl (readout opt g) reg) then RtoC 1 else RtoC 0.
Proof.
  intros Vg Hw. rewrite expect_run. unfold expect. rewrite Csum_cons, Csum_nil. unfold expect1. cbn [b_label b_reg b_wave before_all fold_right before].
  assert (Hk : forall f, valid D f -> w f = if leqb f g then RtoC 1 else RtoC 0).
  { intros f Vf. rewrite Hw by exact Vf. unfold wave_of. rewrite Csum_cons, Csum_nil. cbn [fst snd]. ring. }
  rewrite (Csum_single _ g); [|apply basis_nodup|now apply basis_in|].
  - rewrite (Csum_single _ g); [|apply basis_nodup|now apply basis_in|].
    + rewrite !Hk, !leqb_refl by exact Vg. unfold trace_of. rewrite leqb_refl. rewrite Cconj_RtoC. destruct (P _ _); ring.
    + intros g' Hg' Hn. apply basis_in in Hg'. rewrite (Hk g' Hg'). destruct (leqb g' g) eqn:E; [apply leqb_spec in E; congruence|]. rewrite Cconj_RtoC. ring.
  - intros f Hf Hn. apply basis_in in Hf. apply Csum_zero. intros g' _. rewrite (Hk f Hf). destruct (leqb f g) eqn:E; [apply leqb_spec in E; congruence|]. ring.
Qed.
Lemma prob_values_expect D ncl its l r : 1 <= dL D -> proper_items D ncl its ->
  RtoC (prob_of_values its l r) = expect D (branches_of D its) (trace_of (fun l' r' => leqb l' l && if list_eq_dec Req_EM_T r' r then true else false)).
Proof.
  intros HL Hp. rewrite (expect_branches D ncl) by assumption. f_equal. unfold prob_of_values. apply Rsum_ext. intros it _. destruct (leqb _ _); [|reflexivity]. cbn [andb]. now destruct (list_eq_dec _ _ _).
Qed.

(** Alice has channels 0 and 1, Bob channels 2 and 3. *)
Definition bobs_circuit : list instruction := [Optics (Mix_50_50 2 3); Optics (Phase_shift 3 PI); Optics (Mix_50_50 2 3); Detectors [2] [0]].
Definition alices_choice : instruction := Optics (Swap 0 1).
Definition one_photon_each : items := [([97], State [97] 1 [([1;0;1;0], (RtoC 1, 1%R))] [0%R] [] [])].

Lemma one_photon_each_proper : proper_items shared_dims 1 one_photon_each.
Proof.
  assert (H1 : Cnorm2 (RtoC 1) = 1%R) by (unfold Cnorm2; cbn; ring).
  split; [discriminate|]. split; [repeat constructor; cbn; intuition discriminate|]. constructor; [|constructor]. cbn [snd]. split; [|split; [|split; [|split; [|split; reflexivity]]]].
  - split; [repeat constructor; cbn; intuition discriminate|]. intros nm. cbn. intros [<-|[]]. exists [1;0;1;0]. split; [|reflexivity]. repeat constructor.
  - intros nm a p [E|[]]. injection E as <- <- <-. split; [intro H; apply RtoC_inj in H; lra|now rewrite H1].
  - unfold state_norm2. cbn. rewrite H1. ring.
  - cbn. lra.
Qed.
Lemma gate_no_photon A u v : gate_amp 2 A 0 0 u v = if (u =? 0) && (v =? 0) then RtoC 1 else RtoC 0.
Proof.
  destruct (Nat.eq_dec (u + v) 0) as [E|E].
  - replace u with 0 by lia. replace v with 0 by lia. unfold gate_amp. cbn -[sqrt INR Rdiv]. replace (INR 1 / INR 1)%R with 1%R by (simpl; field). rewrite sqrt_1. ring.
  - rewrite gate_amp_zero by lia. destruct (Nat.eqb_spec u 0), (Nat.eqb_spec v 0); cbn; try reflexivity; lia.
Qed.
Ltac gates A := rewrite ?(gate_no_photon A), ?(gate_amp_high 2 A 1 1) by lia; cbn [Nat.eqb andb];
  rewrite ?(proj1 (gate_one_photon 2 A (le_n 2))), ?(proj1 (proj2 (gate_one_photon 2 A (le_n 2)))), ?(proj1 (proj2 (proj2 (gate_one_photon 2 A (le_n 2))))), ?(proj2 (proj2 (proj2 (gate_one_photon 2 A (le_n 2)))));
  rewrite ?(gate_amp_zero 2 A 1 0 0 0), ?(gate_amp_zero 2 A 1 0 1 1), ?(gate_amp_zero 2 A 0 1 0 0), ?(gate_amp_zero 2 A 0 1 1 1) by lia.
Ltac one_step A := intro g; cbv [step flat_map map pairs dL shared_dims list_prod seq app put2 set_nth nth fst snd wave_of]; gates A; rewrite ?Csum_cons, ?Csum_nil; cbn [fst snd].
Lemma half_half : (RtoC (/ sqrt 2) * RtoC (/ sqrt 2) + RtoC (/ sqrt 2) * RtoC (/ sqrt 2) = RtoC 1)%C.
Proof. rewrite <- !RtoC_mult, <- RtoC_plus. f_equal. rewrite sqrt2_inv_sq. lra. Qed.
Ltac vd := split; [reflexivity|]; cbn; repeat (apply Forall_cons; [cbn; lia|]); apply Forall_nil.
Definition start (a : list nat) : list (values * C) := [(a ++ [1;0], RtoC 1)].
Definition spread (a : list nat) (x : C) : list (values * C) := [(a ++ [1;0], RtoC (/ sqrt 2)); (a ++ [0;1], x)].

Lemma first_mix a b w : a < 2 -> b < 2 -> (forall f, valid shared_dims f -> w f = wave_of (start [a; b]) f) ->
  forall g, valid shared_dims g -> evolve shared_dims (pair_amp shared_dims (generic_matrix (PI / 8) PI) 2 3) w g = wave_of (spread [a; b] (RtoC (/ sqrt 2))) g.
Proof.
  intros Ha Hb Hw. apply (step_as _ _ _ _ _ (start [a; b])); try (cbn; lia); try exact Hw.
  - constructor; [|constructor]. vd.
  - rewrite mix_matrix. set (A := Mat2 _ _ _ _). unfold start, spread. cbn [app]. one_step A. cbn [m00 m10 A]. destruct (leqb g _), (leqb g _), (leqb g _), (leqb g _); ring.
Qed.
Lemma second_mix a b (w : values -> C) (plus : bool) : a < 2 -> b < 2 ->
  (forall f, valid shared_dims f -> w f = wave_of (spread [a; b] (RtoC (if plus then / sqrt 2 else - / sqrt 2)%R)) f) ->
  forall g, valid shared_dims g -> evolve shared_dims (pair_amp shared_dims (generic_matrix (PI / 8) PI) 2 3) w g = wave_of [(if plus then [a;b;1;0] else [a;b;0;1], RtoC 1)] g.
Proof.
  intros Ha Hb Hw. apply (step_as _ _ _ _ _ (spread [a; b] (RtoC (if plus then / sqrt 2 else - / sqrt 2)%R))); try (cbn; lia); try exact Hw.
  - constructor; [|constructor; [|constructor]]; vd.
  - rewrite mix_matrix. set (A := Mat2 _ _ _ _). unfold spread. cbn [app]. one_step A. cbn [m00 m10 m01 m11 A]. pose proof half_half as HH. set (s := (/ sqrt 2)%R) in *.
    destruct plus; rewrite <- HH, ?RtoC_opp; destruct (leqb g _), (leqb g _), (leqb g _), (leqb g _); ring.
Qed.
Lemma phase_blocked w : (forall f, valid shared_dims f -> w f = wave_of (spread [1; 0] (RtoC (/ sqrt 2))) f) ->
  forall g, valid shared_dims g -> evolve shared_dims (pair_amp shared_dims (generic_matrix 0 PI) 0 3) w g = wave_of (spread [1; 0] (RtoC (/ sqrt 2))) g.
Proof.
  intros Hw. apply (step_as _ _ _ _ _ (spread [1; 0] (RtoC (/ sqrt 2)))); try (cbn; lia); try exact Hw.
  - constructor; [|constructor; [|constructor]]; cbn; (split; [reflexivity|]); repeat constructor.
  - rewrite phase_matrix. set (A := Mat2 _ _ _ _). unfold spread. cbn [app]. one_step A. cbn [m00 m10 m01 m11 A].
    destruct (leqb g _), (leqb g _), (leqb g _), (leqb g _), (leqb g _), (leqb g _), (leqb g _), (leqb g _); ring.
Qed.
Lemma phase_applied w : (forall f, valid shared_dims f -> w f = wave_of (spread [0; 1] (RtoC (/ sqrt 2))) f) ->
  forall g, valid shared_dims g -> evolve shared_dims (pair_amp shared_dims (generic_matrix 0 PI) 0 3) w g = wave_of (spread [0; 1] (RtoC (- / sqrt 2))) g.
Proof.
  intros Hw. apply (step_as _ _ _ _ _ (spread [0; 1] (RtoC (/ sqrt 2)))); try (cbn; lia); try exact Hw.
  - constructor; [|constructor; [|constructor]]; cbn; (split; [reflexivity|]); repeat constructor.
  - rewrite phase_matrix. replace (cos PI, sin PI) with (- RtoC 1)%C by (rewrite cos_PI, sin_PI; apply C_eq; cbn; ring). set (A := Mat2 _ _ _ _). unfold spread. cbn [app]. one_step A. cbn [m00 m10 m01 m11 A].
    rewrite !RtoC_opp. destruct (leqb g _), (leqb g _), (leqb g _), (leqb g _), (leqb g _), (leqb g _), (leqb g _), (leqb g _); ring.
Qed.
Lemma alice_swaps w : (forall f, valid shared_dims f -> w f = wave_of (start [1; 0]) f) ->
  forall g, valid shared_dims g -> evolve shared_dims (pair_amp shared_dims (generic_matrix (PI / 4) PI) 0 1) w g = wave_of (start [0; 1]) g.
Proof.
  intros Hw. apply (step_as _ _ _ _ _ (start [1; 0])); try (cbn; lia); try exact Hw.
  - constructor; [|constructor]; cbn; (split; [reflexivity|]); repeat constructor.
  - rewrite swap_matrix. set (A := Mat2 _ _ _ _). unfold start. cbn [app]. one_step A. cbn [m00 m10 m01 m11 A]. destruct (leqb g _), (leqb g _), (leqb g _), (leqb g _); ring.
Qed.
Lemma initial_wave f : valid shared_dims f -> b_wave (branch_of shared_dims (State [97] 1 [([1;0;1;0], (RtoC 1, 1%R))] [0%R] [] [])) f = wave_of (start [1; 0]) f.
Proof.
  intro Vf. apply basis_in in Vf. cbn [branch_of b_wave s_cum]. rewrite sqrt_1. unfold wave_of, start. rewrite Csum_cons, Csum_nil.
  vm_compute in Vf. repeat (destruct Vf as [<-|Vf]; [cbn; ring|]). destruct Vf.
Qed.
(** Bob's detector. *)
Lemma bob_sees w g P : (forall f, valid shared_dims f -> w f = wave_of [(g, RtoC 1)] f) -> valid shared_dims g ->
  expect shared_dims (run shared_dims [Detect [2] [0]] [Branch [97] [0%R] w]) (trace_of P) = if P [97] [INR (nth 2 g 0)] then RtoC 1 else RtoC 0.
Proof. intros Hw Vg. rewrite (final_probability shared_dims [2] [0] [97] [0%R] w g P Vg Hw). reflexivity. Qed.

(** Refuted: a phase shift of a channel of Bob is not confined to his channels. It is done by an element
    between channel 0 and the channel, and this element does nothing if the two hold as many photons as the
    length of the Fock state or more. Bob, with one photon and a detector, sees with certainty whether
    Alice has moved her photon from her channel 0 to her channel 1. *)
Theorem C63_phase_shift_refuted : exists nodes nodes2,
  program_nodes shared_dims 1 bobs_circuit = Some nodes /\ program_nodes shared_dims 1 (alices_choice :: bobs_circuit) = Some nodes2 /\
  Forall (careful shared_dims 1) (alices_choice :: bobs_circuit) /\ proper_items shared_dims 1 one_photon_each /\
  forall full X rnd rnd2, exists eps0, (0 < eps0)%R /\ forall eps, (0 < eps <= eps0)%R ->
    let c := Circuit shared_dims 1 eps full (fresh_keys shared_dims) nodes in let c2 := Circuit shared_dims 1 eps full (fresh_keys shared_dims) nodes2 in
    exists out out2, evaluate_circuit X rnd c (coll_of c one_photon_each) = Ok (coll_of c out) /\ evaluate_circuit X rnd2 c2 (coll_of c2 one_photon_each) = Ok (coll_of c2 out2) /\
      prob_of_values out [97] [1%R] = 1%R /\ prob_of_values out2 [97] [1%R] = 0%R.
Proof.
  assert (B1 : exists nodes, program_nodes shared_dims 1 bobs_circuit = Some nodes) by (eexists; reflexivity).
  assert (B2 : exists nodes, program_nodes shared_dims 1 (alices_choice :: bobs_circuit) = Some nodes) by (eexists; reflexivity).
  destruct B1 as (nodes & B1), B2 as (nodes2 & B2). exists nodes, nodes2. split; [exact B1|]. split; [exact B2|].
  assert (HC : Forall (careful shared_dims 1) (alices_choice :: bobs_circuit)) by (unfold alices_choice, bobs_circuit; repeat (apply Forall_cons || apply Forall_nil); cbn; unfold in_order; intuition (try lia; try discriminate; repeat (constructor; try (intros [])))).
  split; [exact HC|]. split; [exact one_photon_each_proper|]. intros full X rnd rnd2.
  apply (two_circuits shared_dims 1 full _ (flat_map (meaning shared_dims) bobs_circuit) _ (flat_map (meaning shared_dims) (alices_choice :: bobs_circuit))); [cbn; lia|cbn; lia|..].
  - apply (program_means shared_dims 1 ltac:(cbn; lia) ltac:(cbn; lia) bobs_circuit); [exact B1|exact (Forall_inv_tail HC)].
  - apply (program_means shared_dims 1 ltac:(cbn; lia) ltac:(cbn; lia) (alices_choice :: bobs_circuit)); [exact B2|exact HC].
  - exact one_photon_each_proper.
  - intros out out2 P1 P2 E1 E2. split; apply RtoC_inj; rewrite (prob_values_expect shared_dims 1) by (try (cbn; lia); assumption); set (P := fun _ _ => _).
    + rewrite E1, <- expect_run. unfold one_photon_each, branches_of. cbn [map snd flat_map meaning bobs_circuit optics_meaning app partner Nat.eqb].
      pose proof initial_wave as H0. destruct (branch_of shared_dims _) as [lab reg w] eqn:Eb. injection Eb as <- <- Ew. clear Ew. cbn [b_wave] in H0.
      unfold plate. do 3 rewrite run_cons. cbn [flat_map perform b_label b_reg b_wave app].
      pose proof (first_mix 1 0 _ ltac:(lia) ltac:(lia) H0) as H1. pose proof (phase_blocked _ H1) as H2. pose proof (second_mix 1 0 _ true ltac:(lia) ltac:(lia) H2) as H3.
      cbv iota in H3. pose proof (bob_sees _ [1;0;1;0] P H3 ltac:(vd)) as H4. etransitivity; [exact H4|]. unfold P. cbn [nth INR leqb Nat.eqb andb]. destruct (list_eq_dec Req_EM_T _ _) as [|Hn]; [reflexivity|congruence].
    + rewrite E2, <- expect_run. unfold one_photon_each, branches_of. cbn [map snd flat_map meaning alices_choice bobs_circuit optics_meaning app partner Nat.eqb]. unfold crossing. cbn [Nat.min Nat.max].
      pose proof initial_wave as H0. destruct (branch_of shared_dims _) as [lab reg w] eqn:Eb. injection Eb as <- <- Ew. clear Ew. cbn [b_wave] in H0.
      unfold plate. do 4 rewrite run_cons. cbn [flat_map perform b_label b_reg b_wave app].
      pose proof (alice_swaps _ H0) as H00. pose proof (first_mix 0 1 _ ltac:(lia) ltac:(lia) H00) as H1. pose proof (phase_applied _ H1) as H2. pose proof (second_mix 0 1 _ false ltac:(lia) ltac:(lia) H2) as H3.
      cbv iota in H3. pose proof (bob_sees _ [0;1;0;1] P H3 ltac:(vd)) as H4. etransitivity; [exact H4|]. unfold P. cbn [nth INR leqb Nat.eqb andb]. destruct (list_eq_dec Req_EM_T _ _) as [Hn|]; [|reflexivity]. injection Hn as Hn. lra.
Qed.
Print Assumptions C63_phase_shift_refuted.
