(** C70: three entangled photons. *)
From Coq Require Import Reals List Arith Lia Lra Bool Permutation.
From Coquelicot Require Import Complex.
From Verif Require Import Prelude NamesModel NamesSpec NamesProofs FockModel FockSpec FockProofs
  OpticalModel OpticalProofs StateModel StateSpec StateProofs CollectionModel EvalModel EvalSpec EvalProofs MeasureSpec MeasureProofs
  InterferenceSpec CircuitSpec CircuitProofs EnsembleProofs PropCircuit ProgramModel ProgramSpec
  ProtocolSpec ProtocolProofs PropProtocol PropDeferred PropProgram PropOptical ApplicationSpec SparseProofs PropBell.
Import ListNotations.

Lemma leqb_ne a b : a <> b -> leqb a b = false.
Proof. intro H. destruct (leqb a b) eqn:E; [apply leqb_spec in E; contradiction|reflexivity]. Qed.
(** A last measurement. *)
Lemma chance_final D opt cl lab reg w P :
  chance D [Detect opt cl] lab reg w P = Csum (basis D) (fun f => if P lab (noted cl (readout opt f) reg) then RtoC (Cnorm2 (w f)) else RtoC 0).
Proof.
  unfold chance. rewrite run_cons. cbn [flat_map perform]. rewrite app_nil_r. unfold run. cbn [fold_left]. unfold expect. rewrite Csum_map.
  transitivity (Csum (all_readings D opt) (fun o => Csum (basis D) (fun f => if leqb (readout opt f) o then if P lab (noted cl o reg) then RtoC (Cnorm2 (w f)) else RtoC 0 else RtoC 0))).
  - apply Csum_ext. intros o _. unfold reading, expect1, trace_of. cbn [b_label b_reg b_wave]. apply Csum_ext. intros f Hf.
    rewrite (Csum_single _ f); [rewrite leqb_refl|apply basis_nodup|exact Hf|].
    + destruct (leqb (readout opt f) o), (P lab (noted cl o reg)); rewrite ?Cconj_0; try ring. rewrite <- Cconj_mult_norm2. ring.
    + intros g _ Hn. destruct (leqb f g) eqn:E; [apply leqb_spec in E; congruence|]. destruct (P lab (noted cl o reg)); ring.
  - rewrite Csum_swap. apply Csum_ext. intros f Hf. rewrite (Csum_single _ (readout opt f)); [now rewrite leqb_refl|apply NoDup_nodup|apply nodup_In; now apply in_map|].
    intros o _ Hn. rewrite leqb_ne by congruence. reflexivity.
Qed.
Lemma chance_one D opt cl lab reg w P f0 : valid D f0 -> (forall f, valid D f -> P lab (noted cl (readout opt f) reg) = leqb f f0) ->
  chance D [Detect opt cl] lab reg w P = RtoC (Cnorm2 (w f0)).
Proof.
  intros V H. rewrite chance_final. rewrite (Csum_single _ f0); [rewrite H by exact V; now rewrite leqb_refl|apply basis_nodup|now apply basis_in|].
  intros f Hf Hn. apply basis_in in Hf. rewrite H by exact Hf. now rewrite leqb_ne by congruence.
Qed.
(** After the beam splitters: (a0 (a2 + a4) (a3 + a7) (a5 + a6)) / sqrt 8. *)
Definition behind : list (values * C) :=
  map (fun f => (f, RtoC (/ sqrt 2) * RtoC (/ sqrt 2) * RtoC (/ sqrt 2))%C)
    [[1;0;1;1;0;1;0;0]; [1;0;1;1;0;0;1;0]; [1;0;1;0;0;1;0;1]; [1;0;1;0;0;0;1;1]; [1;0;0;1;1;1;0;0]; [1;0;0;1;1;0;1;0]; [1;0;0;0;1;1;0;1]; [1;0;0;0;1;0;1;1]].
Lemma behind_ok g : wave_of (step (generic_matrix (PI / 4) PI) 5 7 (step (generic_matrix (PI / 8) PI) 7 6 (step (generic_matrix (PI / 8) PI) 3 5 (step (generic_matrix (PI / 8) PI) 2 4
   [([1;0;1;1;0;0;0;1], RtoC 1)])))) g = wave_of behind g.
Proof.
  rewrite mix_matrix, swap_matrix. rewrite RtoC_opp. unfold step, behind. cbn [flat_map map app nth put2 set_nth split_pair fst snd m00 m01 m10 m11]. 
  expand_wave. ring.
Qed.
Lemma first_ok g : wave_of (step (generic_matrix (PI / 4) PI) 1 7 two_pairs) g = wave_of [([1;0;1;1;0;0;0;1], RtoC 1)] g.
Proof. rewrite swap_matrix. unfold step, two_pairs. cbn [flat_map map app nth put2 set_nth split_pair fst snd m00 m01 m10 m11]. expand_wave. ring. Qed.
Section GHZ.
Variables (L : nat) (ord : bool).
Hypothesis HL : 3 <= L.
Let D := Dims L 8 ord.
Ltac unfold_step := unfold step, behind, two_pairs; cbn [flat_map map app nth put2 set_nth split_pair fst snd].
Lemma ghz_smalls A B C U M : Forall (small D 1 7) two_pairs /\ Forall (small D 2 4) [([1;0;1;1;0;0;0;1], RtoC 1)] /\
  Forall (small D 3 5) (step A 2 4 [([1;0;1;1;0;0;0;1], RtoC 1)]) /\ Forall (small D 7 6) (step B 3 5 (step A 2 4 [([1;0;1;1;0;0;0;1], RtoC 1)])) /\
  Forall (small D 5 7) (step C 7 6 (step B 3 5 (step A 2 4 [([1;0;1;1;0;0;0;1], RtoC 1)]))) /\
  Forall (small D 4 5) behind /\ Forall (small D 6 7) (step U 4 5 behind) /\ Forall (small D 2 3) (step M 6 7 (step U 4 5 behind)).
Proof. repeat split; unfold_step; smalls. Qed.
End GHZ.
Lemma ghz_amplitude U M m1 m2 m3 : wave_of (step M 2 3 (step M 6 7 (step U 4 5 behind))) ([1; 0] ++ pol m3 ++ pol m1 ++ pol m2)
  = (RtoC (/ 2) * Csum both (fun i => Csum both (fun j => Csum both (fun k => entry U m1 i * entry M m2 j * entry M m3 k * ghz i j k))))%C.
Proof.
  transitivity ((RtoC (/ sqrt 2) * RtoC (/ sqrt 2)) * Csum both (fun i => Csum both (fun j => Csum both (fun k => entry U m1 i * entry M m2 j * entry M m3 k * ghz i j k))))%C.
  2:{ rewrite <- RtoC_mult, sqrt2_inv_sq. reflexivity. }
  unfold step, behind, ghz, both. cbn [flat_map map app nth put2 set_nth split_pair fst snd].
  unfold wave_of. rewrite ?Csum_cons, ?Csum_nil. destruct m1, m2, m3; cbn [pol app fst snd leqb Nat.eqb andb entry Bool.eqb negb]; ring.
Qed.
Lemma shows_INR c (b : bool) r n : nth c r 0%R = INR n -> shows c (count b) r = (n =? if b then 1 else 0).
Proof.
  unfold shows. intros ->. assert (E : count b = INR (if b then 1 else 0)) by now destruct b. rewrite E. destruct (Req_EM_T _ _) as [H|H]; symmetry; [apply Nat.eqb_eq; now apply INR_eq|apply Nat.eqb_neq; intros ->; now apply H].
Qed.
Lemma coincidence_one L ord reg m1 m2 m3 f : length reg = 10 -> valid (Dims L 8 ord) f ->
  coincidence m1 m2 m3 (noted [0; 1; 6; 7; 2; 3; 4; 5] (readout [0; 1; 2; 3; 4; 5; 6; 7] f) reg) = leqb f ([1; 0] ++ pol m3 ++ pol m1 ++ pol m2).
Proof.
  intros Hr [Hl _]. cbn in Hl. do 8 (destruct f as [|?n f]; [discriminate|]). destruct f; [|discriminate]. do 10 (destruct reg as [|?r reg]; [discriminate|]). destruct reg; [|discriminate].
  set (z := noted _ _ _). assert (Z : z = [INR n; INR n0; INR n3; INR n4; INR n5; INR n6; INR n1; INR n2; r7; r8]) by reflexivity. clearbody z. subst z.
  unfold coincidence. cbn [forallb fst snd]. change 1%R with (count true) at 1. change 0%R with (count false) at 1.
  rewrite (shows_INR 0 true _ n), (shows_INR 1 false _ n0), (shows_INR 2 m1 _ n3), (shows_INR 3 (negb m1) _ n4), (shows_INR 4 m2 _ n5), (shows_INR 5 (negb m2) _ n6), (shows_INR 6 m3 _ n1), (shows_INR 7 (negb m3) _ n2) by reflexivity.
  destruct m1, m2, m3; cbn [pol app leqb negb]; repeat match goal with |- context [?a =? ?b] => destruct (a =? b); cbn [andb]; try reflexivity end.
Qed.

(** ** C70 *)
(** For every setting of the plate in front of detector 1, a coincidence of the trigger with one photon at
    each of the detectors has a quarter of the probability it has for the state (|HHV> + |VVH>)/sqrt 2 with
    the plates in front of the detectors. *)
Theorem C70_ghz : forall L ord full its X rnd, 3 <= L -> let D := Dims L 8 ord in proper_items D 10 its ->
  exists nodes, program_nodes D 10 ghz_experiment = Some nodes /\
  exists eps0, (0 < eps0)%R /\ forall eps, (0 < eps <= eps0)%R ->
  let circuit := Circuit D 10 eps full (fresh_keys D) nodes in
  exists out, evaluate_circuit X rnd circuit (coll_of circuit its) = Ok (coll_of circuit out) /\
    forall lab st reg, prepared D its lab st reg two_pairs -> length reg = 10 -> forall m1 m2 m3,
      weight_where out lab (coincidence m1 m2 m3)
      = (s_cum st * (/ 4 * Cnorm2 (Csum both (fun i => Csum both (fun j => Csum both (fun k =>
          entry (generic_matrix (nth 8 reg 0) (nth 9 reg 0)) m1 i * entry (generic_matrix (PI / 8) PI) m2 j * entry (generic_matrix (PI / 8) PI) m3 k * ghz i j k)%C)))))%R.
Proof.
  intros L ord full its X rnd HL D Hp.
  assert (B : exists nodes, program_nodes D 10 ghz_experiment = Some nodes) by (eexists; reflexivity). destruct B as (nodes & B). exists nodes. split; [exact B|].
  assert (HC : Forall (careful D 10) ghz_experiment).
  { unfold ghz_experiment. repeat (apply Forall_cons || apply Forall_nil); cbn [careful]; unfold in_order; repeat split; cbn; try lia.
    repeat (apply NoDup_cons; [cbn; intuition discriminate|]); apply NoDup_nil. }
  destruct (program_chance D 10 full ghz_experiment nodes its X rnd) as (eps0 & H0 & H); try assumption; [cbn; lia|cbn; lia|]. exists eps0. split; [exact H0|]. intros eps He circuit.
  destruct (H eps He) as (out & Eo & Hpo & HW). exists out. split; [exact Eo|]. intros lab st reg Hpr Hl m1 m2 m3. apply RtoC_inj. rewrite (HW lab st _ _ _ Hpr), RtoC_mult. f_equal. clear HW H0 H Eo Hpo B He.
  unfold ghz_experiment. cbn [flat_map meaning optics_meaning app]. unfold crossing, plate. cbn [Nat.min Nat.max].
  destruct (ghz_smalls L ord HL (generic_matrix (PI / 8) PI) (generic_matrix (PI / 8) PI) (generic_matrix (PI / 8) PI) (generic_matrix (nth 8 reg 0%R) (nth 9 reg 0%R)) (generic_matrix (PI / 8) PI)) as (S1 & S2 & S3 & S4 & S5 & S6 & S7 & S8).
  etransitivity; [apply (chance_element D); try (cbn; lia); exact S1|]. etransitivity; [apply (chance_ext D); intros g _; apply first_ok|].
  etransitivity; [apply (chance_element D); try (cbn; lia); exact S2|]. etransitivity; [apply (chance_element D); try (cbn; lia); exact S3|].
  etransitivity; [apply (chance_element D); try (cbn; lia); exact S4|]. etransitivity; [apply (chance_element D); try (cbn; lia); exact S5|].
  etransitivity; [apply (chance_ext D); intros g _; apply behind_ok|].
  etransitivity; [apply (chance_element D); try (cbn; lia); exact S6|]. etransitivity; [apply (chance_element D); try (cbn; lia); exact S7|].
  etransitivity; [apply (chance_element D); try (cbn; lia); exact S8|]. clear S1 S2 S3 S4 S5 S6 S7 S8. cbv beta.
  etransitivity; [apply (chance_one D _ _ _ _ _ _ ([1; 0] ++ pol m3 ++ pol m1 ++ pol m2))|].
  - destruct m1, m2, m3; cbn [pol app]; valid_tuple.
  - intros f Vf. rewrite leqb_refl. cbn [andb]. now apply (coincidence_one L ord).
  - rewrite ghz_amplitude, Cnorm2_mult. f_equal. f_equal. unfold Cnorm2. cbn. field.
Qed.
(** The two histograms of the notebook, with the plate in front of detector 1 at 0 and at 22.5 degrees. *)
Theorem C70_histograms : forall L ord full its X rnd, 3 <= L -> let D := Dims L 8 ord in proper_items D 10 its ->
  exists nodes, program_nodes D 10 ghz_experiment = Some nodes /\
  exists eps0, (0 < eps0)%R /\ forall eps, (0 < eps <= eps0)%R ->
  let circuit := Circuit D 10 eps full (fresh_keys D) nodes in
  exists out, evaluate_circuit X rnd circuit (coll_of circuit its) = Ok (coll_of circuit out) /\
    forall lab st reg, prepared D its lab st reg two_pairs -> length reg = 10 -> s_cum st = 1%R -> nth 9 reg 0%R = PI ->
      (nth 8 reg 0%R = 0%R -> forall m3, weight_where out lab (coincidence true false m3) = (/ 32)%R) /\
      (nth 8 reg 0%R = (PI / 8)%R -> weight_where out lab (coincidence true false true) = 0%R /\ weight_where out lab (coincidence true false false) = (/ 16)%R).
Proof.
  intros L ord full its X rnd HL D Hp. destruct (C70_ghz L ord full its X rnd HL Hp) as (nodes & B & eps0 & H0 & H). exists nodes. split; [exact B|]. exists eps0. split; [exact H0|]. intros eps He circuit.
  destruct (H eps He) as (out & Eo & HW). exists out. split; [exact Eo|]. intros lab st reg Hpr Hl Hc H9. split.
  - intros H8 m3. rewrite (HW lab st reg Hpr Hl), Hc, H8, H9, mix_matrix, phase_matrix. unfold both, ghz. rewrite !Csum_cons, !Csum_nil.
    set (x := (/ sqrt 2)%R). assert (Hx : (x * x = / 2)%R) by apply sqrt2_inv_sq.
    destruct m3; cbn [entry m00 m01 m10 m11 Bool.eqb andb negb]; unfold Cnorm2; cbn; (transitivity (/ 4 * ((x * x) * (x * x) * (x * x)))%R; [ring|rewrite Hx; field]).
  - intros H8. rewrite !(HW lab st reg Hpr Hl), Hc, H8, H9, mix_matrix. unfold both, ghz. rewrite !Csum_cons, !Csum_nil.
    set (x := (/ sqrt 2)%R). assert (Hx : (x * x = / 2)%R) by apply sqrt2_inv_sq.
    cbn [entry m00 m01 m10 m11 Bool.eqb andb negb]; unfold Cnorm2; cbn. split; [ring|].
    transitivity (((x * x) * (x * x) * (x * x) * (x * x)))%R; [field|rewrite Hx; field].
Qed.
(** The states of the notebook. *)
Definition ghz_state (lab : nat) (theta : R) : state := State [lab] 1 [([1;1;1;1;0;0;0;0], (RtoC 1, 1%R))] [0; 0; 0; 0; 0; 0; 0; 0; theta; PI]%R [] [].
Example C70_case : let D := Dims 3 8 true in let its := [([1], ghz_state 1 0%R); ([2], ghz_state 2 (PI / 8)%R)] in
  proper_items D 10 its /\ prepared D its [1] (ghz_state 1 0%R) (s_classical (ghz_state 1 0%R)) two_pairs /\ prepared D its [2] (ghz_state 2 (PI / 8)%R) (s_classical (ghz_state 2 (PI / 8)%R)) two_pairs.
Proof.
  intros D its.
  assert (HP : forall lab theta, proper_state D 10 (ghz_state lab theta)).
  { intros lab theta. split; [|split; [|split; [|split; [|split; reflexivity]]]].
    - split; [repeat constructor; cbn; intuition discriminate|]. intros nm. cbn. intros [<-|[]]. exists [1;1;1;1;0;0;0;0]; (split; [|reflexivity]); valid_tuple.
    - intros nm x p [E|[]]; injection E as <- <- <-. split; [intro E; apply RtoC_inj in E; lra|unfold Cnorm2; cbn; ring].
    - unfold state_norm2. cbn. unfold Cnorm2. cbn. ring.
    - cbn. lra. }
  assert (HB : forallb (fun f => Bool.eqb (leqb (name_string D f) [1;1;1;1;0;0;0;0]) (leqb f [1;1;1;1;0;0;0;0])) (basis D) = true) by (vm_compute; reflexivity).
  rewrite forallb_forall in HB.
  assert (HA : forall lab theta f, valid D f -> amp_of D (ghz_state lab theta) f = wave_of two_pairs f).
  { intros lab theta f Vf. apply basis_in in Vf. specialize (HB f Vf). apply eqb_prop in HB. unfold amp_of, amplitude, ghz_state, wave_of, two_pairs. cbn [s_comps dget]. rewrite HB, Csum_cons, Csum_nil. cbn [fst snd]. destruct (leqb f _); cbn [fst]; ring. }
  split; [split; [discriminate|split; [repeat constructor; cbn; intuition discriminate|repeat (apply Forall_cons; [apply HP|]); apply Forall_nil]]|].
  split; (split; [eexists; cbn; eauto|split; [reflexivity|split; [|split; [reflexivity|apply HA]]]]);
    intros k k' st1 st2 [E1|[E1|[]]] [E3|[E3|[]]] L1 L3; injection E1 as <- <-; injection E3 as <- <-; cbn in L1, L3; congruence.
Qed.
Print Assumptions C70_ghz.
Print Assumptions C70_histograms.
