(** C68: two photons, two wave plates, two detectors: the Bell experiment for all states and angles. *)
From Coq Require Import Reals List Arith Lia Lra Bool Permutation.
From Coquelicot Require Import Complex.
From Verif Require Import Prelude NamesModel NamesSpec NamesProofs FockModel FockSpec FockProofs
  OpticalModel OpticalProofs StateModel StateSpec StateProofs CollectionModel EvalModel EvalSpec EvalProofs MeasureSpec MeasureProofs
  InterferenceSpec CircuitSpec CircuitProofs EnsembleProofs PropCircuit ProgramModel ProgramSpec
  ProtocolSpec ProtocolProofs PropProtocol PropDeferred PropProgram PropOptical ApplicationSpec SparseProofs.
Import ListNotations.

Definition after_plates (A B : mat2) (c : bool -> bool -> C) (m n : bool) : C :=
  Csum both (fun i => Csum both (fun j => entry A m i * entry B n j * c i j)%C).
Lemma plates_amplitudes A B c g : wave_of (step B 2 3 (step A 0 1 (photon_pair c))) g = wave_of (photon_pair (after_plates A B c)) g.
Proof.
  unfold photon_pair, step, both. cbn [flat_map map app pol nth put2 set_nth split_pair fst snd]. unfold wave_of; rewrite ?Csum_cons, ?Csum_nil; cbn [fst snd].
  unfold after_plates, both. rewrite ?Csum_cons, ?Csum_nil. cbn [entry]. rewrite !if_scale. ring.
Qed.
Section Bell.
Variables (L : nat) (ord : bool).
Hypothesis HL : 2 <= L.
Let D := Dims L 4 ord.
Lemma photon_pair_small c : Forall (small D 0 1) (photon_pair c) /\ Forall (fun p => valid D (fst p)) (photon_pair c).
Proof. unfold photon_pair, both. cbn [flat_map map app pol]. split; [smalls|valids]. Qed.
Lemma plate_small A c : Forall (small D 2 3) (step A 0 1 (photon_pair c)).
Proof. unfold photon_pair, step, both. cbn [flat_map map app pol nth put2 set_nth split_pair fst snd]. smalls. Qed.
Lemma pol_readings c P lab reg : length reg = 6 ->
  chance D [Detect [0; 2] [4; 5]] lab reg (wave_of (photon_pair c)) P
  = Csum both (fun m => Csum both (fun n => if P lab (noted [4; 5] [nth 0 (pol m) 0; nth 0 (pol n) 0] reg) then RtoC (Cnorm2 (c m n)) else RtoC 0)).
Proof.
  intro Hr. rewrite (chance_detect D _ _ _ _ _ _ _ [[1;1]; [1;0]; [0;1]; [0;0]]).
  - unfold both. rewrite !Csum_cons, !Csum_nil. unfold part, photon_pair, both. cbn [flat_map map app pol filter readout fst leqb Nat.eqb andb nth].
    rewrite !chance_end; try valids; try (repeat constructor; cbn; tauto). rewrite !Rsum_cons, !Rsum_nil. cbn [snd]. rewrite !Rplus_0_r. ring.
  - apply photon_pair_small.
  - repeat constructor; cbn; intuition discriminate.
  - unfold photon_pair, both. cbn [flat_map map app pol]. intros p Hp. repeat (destruct Hp as [<-|Hp]; [cbn; tauto|]). destruct Hp.
  - intros o Ho. repeat (destruct Ho as [<-|Ho]; [eexists [_;0;_;0]; split; [|reflexivity]; valid_tuple|]). destruct Ho.
Qed.
End Bell.
Lemma count_shown (m : bool) : INR (nth 0 (pol m) 0) = count m.
Proof. now destruct m. Qed.
Lemma shows_count c m n r : nth c r 0%R = count n -> shows c (count m) r = Bool.eqb m n.
Proof. unfold shows. intros ->. destruct (Req_EM_T (count n) (count m)) as [E|E], m, n; cbn in *; try reflexivity; try lra; now contradiction E. Qed.

(** ** C68 *)
(** The probability that the first detector counts [m] and the second [n], for every state of two photons,
    all angles and every phase, is the square of the amplitude of quantum mechanics. *)
Theorem C68_bell_test : forall L ord full its X rnd, 2 <= L -> let D := Dims L 4 ord in proper_items D 6 its ->
  exists nodes, program_nodes D 6 bell_test = Some nodes /\
  exists eps0, (0 < eps0)%R /\ forall eps, (0 < eps <= eps0)%R ->
  let circuit := Circuit D 6 eps full (fresh_keys D) nodes in
  exists out, evaluate_circuit X rnd circuit (coll_of circuit its) = Ok (coll_of circuit out) /\
    forall lab st c a b x phi y z, prepared D its lab st [a; b; x; phi; y; z] (photon_pair c) -> forall m n,
      weight_where out lab (fun r => shows 4 (count m) r && shows 5 (count n) r)
      = (s_cum st * Cnorm2 (Csum both (fun i => Csum both (fun j => entry (generic_matrix a phi) m i * entry (generic_matrix b phi) n j * c i j)%C)))%R.
Proof.
  intros L ord full its X rnd HL D Hp.
  assert (B : exists nodes, program_nodes D 6 bell_test = Some nodes) by (eexists; reflexivity). destruct B as (nodes & B). exists nodes. split; [exact B|].
  assert (HC : Forall (careful D 6) bell_test) by (unfold bell_test; repeat (apply Forall_cons || apply Forall_nil); cbn; unfold in_order; repeat split; try lia; repeat (constructor; cbn; try (intuition discriminate))).
  destruct (program_chance D 6 full bell_test nodes its X rnd) as (eps0 & H0 & H); try assumption; [cbn; lia|cbn; lia|]. exists eps0. split; [exact H0|]. intros eps He circuit.
  destruct (H eps He) as (out & Eo & Hpo & HW). exists out. split; [exact Eo|]. intros lab st c a b x phi y z Hpr m n. apply RtoC_inj. rewrite (HW lab st _ _ _ Hpr), RtoC_mult. f_equal.
  unfold bell_test. cbn [flat_map meaning app]. rewrite chance_element by (try (cbn; lia); now apply photon_pair_small). rewrite chance_element by (try (cbn; lia); now apply plate_small). cbn [nth].
  rewrite (chance_ext D _ _ _ _ _ _ (fun g _ => plates_amplitudes _ _ c g)). etransitivity; [apply (pol_readings L ord HL); reflexivity|].
  fold (after_plates (generic_matrix a phi) (generic_matrix b phi) c m n). set (W := after_plates _ _ _).
  transitivity (Csum both (fun m' => Csum both (fun n' => if Bool.eqb m m' && Bool.eqb n n' then RtoC (Cnorm2 (W m' n')) else RtoC 0))).
  - apply Csum_ext. intros m' _. apply Csum_ext. intros n' _. rewrite leqb_refl. cbn [andb]. rewrite (shows_count 4 m m') by (cbn [noted noted_at length seq map nth Nat.eqb]; apply count_shown). rewrite (shows_count 5 n n') by (cbn [noted noted_at length seq map nth Nat.eqb]; apply count_shown). reflexivity.
  - unfold both. rewrite !Csum_cons, !Csum_nil. destruct m, n; cbn [Bool.eqb andb]; ring.
Qed.

(** The correlation 2 (p00 + p11) - 1 of the entangled state with half wave plates at the angles [a] and [b]. *)
Lemma entangled_same a b (m : bool) : Csum both (fun i => Csum both (fun j => entry (generic_matrix a PI) m i * entry (generic_matrix b PI) m j * entangled i j)%C) = RtoC (/ sqrt 2 * cos (2 * (a - b))).
Proof.
  rewrite !generic_pi. unfold both, entangled. rewrite !Csum_cons, !Csum_nil. cbn [Bool.eqb].
  replace (2 * (a - b))%R with (2 * a - 2 * b)%R by ring. rewrite cos_minus. destruct m; cbn [entry m00 m01 m10 m11]; apply C_eq; cbn; ring.
Qed.
Theorem C68_correlation : forall L ord full its X rnd, 2 <= L -> let D := Dims L 4 ord in proper_items D 6 its ->
  exists nodes, program_nodes D 6 bell_test = Some nodes /\
  exists eps0, (0 < eps0)%R /\ forall eps, (0 < eps <= eps0)%R ->
  let circuit := Circuit D 6 eps full (fresh_keys D) nodes in
  exists out, evaluate_circuit X rnd circuit (coll_of circuit its) = Ok (coll_of circuit out) /\
    forall lab st a b x y z, prepared D its lab st [a; b; x; PI; y; z] (photon_pair entangled) -> s_cum st = 1%R ->
      correlation out lab = cos (4 * (a - b)).
Proof.
  intros L ord full its X rnd HL D Hp. destruct (C68_bell_test L ord full its X rnd HL Hp) as (nodes & B & eps0 & H0 & H). exists nodes. split; [exact B|]. exists eps0. split; [exact H0|]. intros eps He circuit.
  destruct (H eps He) as (out & Eo & HW). exists out. split; [exact Eo|]. intros lab st a b x y z Hpr Hc. unfold correlation.
  pose proof (HW lab st _ _ _ _ _ _ _ Hpr true true) as H1. pose proof (HW lab st _ _ _ _ _ _ _ Hpr false false) as H2. cbn [count] in H1, H2. rewrite H1, H2, Hc, !entangled_same.
  replace (4 * (a - b))%R with (2 * (2 * (a - b)))%R by ring. rewrite (cos_2a_cos (2 * (a - b))). unfold Cnorm2. cbn. set (x0 := cos (2 * (a - b))). transitivity (4 * (/ sqrt 2 * / sqrt 2) * (x0 * x0) - 1)%R; [ring|rewrite sqrt2_inv_sq; field].
Qed.

(** The CHSH inequality: for the entangled state no angles give more than 2 sqrt 2, and the angles of the
    test give exactly this. *)
Lemma unit_dot x y p q : (x * x + y * y = 1 -> (x * p + y * q) * (x * p + y * q) <= p * p + q * q)%R.
Proof. intro H. assert (0 <= (x * q - y * p) * (x * q - y * p))%R by apply Rle_0_sqr. nra. Qed.
Lemma chsh_bound t : (- 2 * sqrt 2 <= t <= 2 * sqrt 2 <-> t * t <= 8)%R.
Proof.
  assert (H0 : (0 < sqrt 2)%R) by (apply sqrt_lt_R0; lra). assert (H1 : (sqrt 2 * sqrt 2 = 2)%R) by (apply sqrt_sqrt; lra). split.
  - intros [H2 H3]. assert (0 <= (2 * sqrt 2 - t) * (t + 2 * sqrt 2))%R by (apply Rmult_le_pos; lra). nra.
  - intro H. split; [apply Rnot_lt_le; intro Hn; assert ((- t - 2 * sqrt 2) * (- t + 2 * sqrt 2) > 0)%R by (apply Rmult_gt_0_compat; lra); nra|apply Rnot_lt_le; intro Hn; assert ((t - 2 * sqrt 2) * (t + 2 * sqrt 2) > 0)%R by (apply Rmult_gt_0_compat; lra); nra].
Qed.
Lemma chsh_angles a a' b b' : (- 2 * sqrt 2 <= cos (a - b) - cos (a - b') + cos (a' - b) + cos (a' - b') <= 2 * sqrt 2)%R.
Proof.
  apply chsh_bound. rewrite !cos_minus.
  pose proof (sin2_cos2 a) as Ha. pose proof (sin2_cos2 a') as Ha'. pose proof (sin2_cos2 b) as Hb. pose proof (sin2_cos2 b') as Hb'. unfold Rsqr in *.
  pose proof (unit_dot (cos a) (sin a) (cos b - cos b') (sin b - sin b') ltac:(lra)) as H1. pose proof (unit_dot (cos a') (sin a') (cos b + cos b') (sin b + sin b') ltac:(lra)) as H2.
  set (s := (cos a * (cos b - cos b') + sin a * (sin b - sin b'))%R) in *. set (t := (cos a' * (cos b + cos b') + sin a' * (sin b + sin b'))%R) in *.
  replace (cos a * cos b + sin a * sin b - (cos a * cos b' + sin a * sin b') + (cos a' * cos b + sin a' * sin b) + (cos a' * cos b' + sin a' * sin b'))%R with (s + t)%R by (unfold s, t; ring).
  assert (0 <= (s - t) * (s - t))%R by apply Rle_0_sqr. nra.
Qed.
Theorem C68_chsh : forall L ord full its X rnd, 2 <= L -> let D := Dims L 4 ord in proper_items D 6 its ->
  exists nodes, program_nodes D 6 bell_test = Some nodes /\
  exists eps0, (0 < eps0)%R /\ forall eps, (0 < eps <= eps0)%R ->
  let circuit := Circuit D 6 eps full (fresh_keys D) nodes in
  exists out, evaluate_circuit X rnd circuit (coll_of circuit its) = Ok (coll_of circuit out) /\
    forall a a' b b' l0 l1 l2 l3 st0 st1 st2 st3 x,
      let settings u v := [u; v; x; PI; 0; 0]%R in
      prepared D its l0 st0 (settings a b) (photon_pair entangled) -> prepared D its l1 st1 (settings a b') (photon_pair entangled) ->
      prepared D its l2 st2 (settings a' b) (photon_pair entangled) -> prepared D its l3 st3 (settings a' b') (photon_pair entangled) ->
      s_cum st0 = 1%R -> s_cum st1 = 1%R -> s_cum st2 = 1%R -> s_cum st3 = 1%R ->
      let S := (correlation out l0 - correlation out l1 + correlation out l2 + correlation out l3)%R in
      (- 2 * sqrt 2 <= S <= 2 * sqrt 2)%R /\
      (a = 0 -> a' = PI / 8 -> b = PI / 16 -> b' = 3 * PI / 16 -> S = 2 * sqrt 2)%R.
Proof.
  intros L ord full its X rnd HL D Hp. destruct (C68_correlation L ord full its X rnd HL Hp) as (nodes & B & eps0 & H0 & H). exists nodes. split; [exact B|]. exists eps0. split; [exact H0|]. intros eps He circuit.
  destruct (H eps He) as (out & Eo & HW). exists out. split; [exact Eo|]. intros a a' b b' l0 l1 l2 l3 st0 st1 st2 st3 x settings P0 P1 P2 P3 C0 C1 C2 C3. cbv zeta.
  rewrite (HW _ _ _ _ _ _ _ P0 C0), (HW _ _ _ _ _ _ _ P1 C1), (HW _ _ _ _ _ _ _ P2 C2), (HW _ _ _ _ _ _ _ P3 C3). split.
  - replace (4 * (a - b))%R with (4 * a - 4 * b)%R by ring. replace (4 * (a - b'))%R with (4 * a - 4 * b')%R by ring. replace (4 * (a' - b))%R with (4 * a' - 4 * b)%R by ring. replace (4 * (a' - b'))%R with (4 * a' - 4 * b')%R by ring. apply chsh_angles.
  - intros -> -> -> ->. replace (4 * (0 - PI / 16))%R with (- (PI / 4))%R by field. replace (4 * (0 - 3 * PI / 16))%R with (- (3 * (PI / 4)))%R by field. replace (4 * (PI / 8 - PI / 16))%R with (PI / 4)%R by field. replace (4 * (PI / 8 - 3 * PI / 16))%R with (- (PI / 4))%R by field.
    rewrite !cos_neg, cos_3PI4, cos_PI4. assert (H1 : (0 < sqrt 2)%R) by (apply sqrt_lt_R0; lra). apply (Rmult_eq_reg_r (sqrt 2)); [|lra]. rewrite Rmult_assoc, sqrt_sqrt by lra. field. lra.
Qed.

(** The four settings of the test in one collection. *)
Definition test_state (lab : nat) (a b : R) : ident * state :=
  ([lab], State [lab] 1 [([1;0;1;0], (RtoC (/ sqrt 2), / 2)%R); ([0;1;0;1], (RtoC (/ sqrt 2), / 2)%R)] [a; b; 0; PI; 0; 0]%R [] []).
Definition test_items : items := [test_state 1 0 (PI / 16); test_state 2 0 (3 * PI / 16); test_state 3 (PI / 8) (PI / 16); test_state 4 (PI / 8) (3 * PI / 16)]%R.
Example C68_case : let D := Dims 2 4 true in proper_items D 6 test_items /\
  (forall n a b, In (test_state n a b) test_items -> prepared D test_items [n] (snd (test_state n a b)) [a; b; 0; PI; 0; 0]%R (photon_pair entangled)).
Proof.
  assert (H2 : Cnorm2 (RtoC (/ sqrt 2)) = (/ 2)%R) by (unfold Cnorm2; cbn; pose proof sqrt2_inv_sq; nra).
  assert (Hs : RtoC (/ sqrt 2) <> RtoC 0). { intro H. apply RtoC_inj in H. apply (Rinv_neq_0_compat (sqrt 2)); [apply Rgt_not_eq, sqrt_lt_R0; lra|exact H]. }
  assert (HP : forall n a b, proper_state (Dims 2 4 true) 6 (snd (test_state n a b))).
  { intros n a b. cbn [snd test_state]. split; [|split; [|split; [|split; [|split; reflexivity]]]].
    - split; [repeat constructor; cbn; intuition discriminate|]. intros nm. cbn. intros [<-|[<-|[]]]; [exists [1;0;1;0]|exists [0;1;0;1]]; (split; [|reflexivity]); repeat constructor.
    - intros nm x p [E|[E|[]]]; injection E as <- <- <-; (split; [exact Hs|now rewrite H2]).
    - unfold state_norm2. cbn. rewrite H2. lra.
    - cbn. lra. }
  split.
  - split; [discriminate|]. split; [repeat constructor; cbn; intuition discriminate|]. repeat (apply Forall_cons; [apply HP|]). apply Forall_nil.
  - intros n a b Hin. split; [now exists [n]|]. split; [reflexivity|]. split; [|split; [reflexivity|]].
    + intros k k' st1 st2 H1 H3 E1 E3. unfold test_items, test_state in H1, H3. repeat (destruct H1 as [H1|H1]; [injection H1 as <- <-|]); try destruct H1; repeat (destruct H3 as [H3|H3]; [injection H3 as <- <-|]); try destruct H3; cbn in E1, E3; congruence.
    + intros f Vf. apply basis_in in Vf. cbn [snd test_state]. vm_compute in Vf. repeat (destruct Vf as [<-|Vf]; [cbn; ring|]). destruct Vf.
Qed.
Print Assumptions C68_bell_test.
Print Assumptions C68_correlation.
Print Assumptions C68_chsh.
