(** C63 to C67 for circuits as users build them. *)
From Coq Require Import Reals List Arith Lia Lra Bool Permutation ZArith.
From Coquelicot Require Import Complex.
From Verif Require Import Prelude NamesModel NamesSpec NamesProofs FockModel FockSpec FockProofs GateProofs
  OpticalModel OpticalProofs StateModel StateSpec StateProofs CollectionModel EvalModel EvalSpec EvalProofs MeasureSpec MeasureProofs PropEval
  InterferenceSpec ArrangementProofs PermanentProofs CustomModel CustomSpec PropCustom PropOptical CircuitSpec CircuitProofs EnsembleProofs PropCircuit ProgramModel ProgramSpec
  ProtocolSpec ProtocolProofs PropCleanup PropProtocol PropDeferred PropProgram ExponentialProofs.
Import ListNotations.

Theorem C63_programs : forall D ncl full S K p q nodes nodes2 its X rnd rnd2, 1 <= dL D -> 2 <= dN D ->
  program_nodes D ncl p = Some nodes -> program_nodes D ncl q = Some nodes2 -> Forall (careful D ncl) p -> Forall (careful D ncl) q ->
  differ_by_alice D ncl S K (flat_map (meaning D) p) (flat_map (meaning D) q) -> proper_items D ncl its ->
  exists eps0, (0 < eps0)%R /\ forall eps, (0 < eps <= eps0)%R ->
    let c := Circuit D ncl eps full (fresh_keys D) nodes in let c2 := Circuit D ncl eps full (fresh_keys D) nodes2 in
    exists out out2, evaluate_circuit X rnd c (coll_of c its) = Ok (coll_of c out) /\ evaluate_circuit X rnd2 c2 (coll_of c2 its) = Ok (coll_of c2 out2) /\
      forall l r, prob_outside K out l r = prob_outside K out2 l r.
Proof.
  intros D ncl full S K p q nodes nodes2 its X rnd rnd2 HL HN Ep Eq Cp Cq HD Hp.
  apply (C63_no_signalling D ncl full S K nodes (flat_map (meaning D) p) nodes2 (flat_map (meaning D) q)); try assumption; now apply program_means.
Qed.

(** A pair of photons shared by Alice (channels 0 and 1) and Bob (channels 2 and 3), entangled in
    polarisation. Alice sets her wave plate and measures, or does something else. *)
Definition shared_dims : dims := Dims 2 4 true.
Definition shared_items : items :=
  [([97], State [97] 1 [([0;1;1;0], (RtoC (/ sqrt 2), (/2)%R)); ([1;0;0;1], (RtoC (- / sqrt 2), (/2)%R))] [0%R; 0%R; 0%R] [] [])].
Definition alice_optical (c : nat) : bool := c <? 2.
Definition alice_classical (c : nat) : bool := c =? 0.
Definition with_plate (theta : R) : list instruction :=
  [Optics (Half_wave_plate 0 1 theta); Detectors [0] [0]; Optics (Half_wave_plate 2 3 (PI / 8)); Plate_by 3 2 1 2; Detectors [2; 3] [1; 2]].
Definition with_nothing : list instruction :=
  [Set_channels [7%R] [0]; Optics (Half_wave_plate 2 3 (PI / 8)); Plate_by 3 2 1 2; Detectors [2; 3] [1; 2]; Optics (Swap 1 0)].
Lemma shared_proper : proper_items shared_dims 3 shared_items.
Proof.
  assert (H2 : Cnorm2 (RtoC (/ sqrt 2)) = (/ 2)%R).
  { unfold Cnorm2. cbn. replace (/ sqrt 2 * / sqrt 2)%R with (/ (sqrt 2 * sqrt 2))%R by (field; apply Rgt_not_eq, sqrt_lt_R0; lra). rewrite sqrt_sqrt by lra. ring. }
  assert (H3 : Cnorm2 (RtoC (- / sqrt 2)) = (/ 2)%R) by (rewrite <- H2; unfold Cnorm2; cbn; ring).
  assert (Hs : (/ sqrt 2 <> 0)%R) by (apply Rinv_neq_0_compat, Rgt_not_eq, sqrt_lt_R0; lra).
  split; [discriminate|]. split; [repeat constructor; cbn; intuition discriminate|]. constructor; [|constructor]; cbn [snd].
  split; [|split; [|split; [|split; [|split; reflexivity]]]].
  - split; [repeat constructor; cbn; intuition discriminate|]. intros nm. cbn. intros [<-|[<-|[]]]; [exists [0;1;1;0]|exists [1;0;0;1]]; (split; [|reflexivity]); repeat constructor.
  - intros nm a p [E|[E|[]]]; injection E as <- <- <-; (split; [intro H; apply RtoC_inj in H; lra|]); now rewrite ?H2, ?H3.
  - unfold state_norm2. cbn. rewrite H2, H3. lra.
  - cbn. lra.
Qed.
Example C63_case : forall theta,
  (exists nodes, program_nodes shared_dims 3 (with_plate theta) = Some nodes) /\ (exists nodes, program_nodes shared_dims 3 with_nothing = Some nodes) /\
  Forall (careful shared_dims 3) (with_plate theta) /\ Forall (careful shared_dims 3) with_nothing /\
  differ_by_alice shared_dims 3 alice_optical alice_classical (flat_map (meaning shared_dims) (with_plate theta)) (flat_map (meaning shared_dims) with_nothing) /\
  proper_items shared_dims 3 shared_items.
Proof.
  intro theta. split; [eexists; vm_compute; reflexivity|]. split; [eexists; vm_compute; reflexivity|].
  split; [unfold with_plate; repeat constructor; unfold in_order; try lia; cbn; intuition discriminate|]. split; [unfold with_nothing; repeat constructor; unfold in_order; try lia; cbn; intuition discriminate|].
  split; [|exact shared_proper]. unfold with_plate, with_nothing. cbn [flat_map meaning optics_meaning app partner Nat.eqb]. unfold crossing. cbn [Nat.min Nat.max].
  assert (HP : forall t, by_bob shared_dims 3 alice_optical alice_classical (plate t PI 2 3)) by (intro t; cbn; repeat split; lia || auto).
  apply differ_first. { cbn. repeat split; try lia; try apply generic_unitary. }
  apply differ_first. { cbn. split; intros c [<-|[]]; reflexivity. }
  apply differ_second. { cbn. intros r Hr. split; [unfold assigned; now rewrite map_length, seq_length|]. intros c Hc. destruct (Nat.lt_ge_cases c (length r)) as [Hlt|Hge].
    - rewrite assigned_nth by exact Hlt. unfold alice_classical in Hc. destruct c; [discriminate|reflexivity].
    - rewrite !nth_overflow; [reflexivity|exact Hge|now rewrite assigned_length]. }
  apply differ_same; [right; apply HP|].
  apply differ_same. { right. cbn. repeat split; try lia. intros r r' Hr [_ H]. now rewrite (H 1 eq_refl), (H 2 eq_refl). }
  apply differ_same. { right. cbn. split; intros c [<-|[<-|[]]]; reflexivity. }
  apply differ_second; [|constructor]. cbn. repeat split; try lia; try apply generic_unitary.
Qed.
(** The hypotheses of C64 to C67 are met by the nodes of this experiment. *)
Example C64_case : forall theta, exists pre post, program_nodes shared_dims 3 (with_plate theta) = Some pre /\ program_nodes shared_dims 3 with_nothing = Some post /\
  Forall2 (means shared_dims 3) pre (flat_map (meaning shared_dims) (with_plate theta)) /\ Forall2 (means shared_dims 3) post (flat_map (meaning shared_dims) with_nothing) /\
  NoDup ([0] ++ [2; 1]) /\ (forall c, In c ([0] ++ [2; 1]) -> c < 3).
Proof.
  intro theta. destruct (C63_case theta) as ((pre & E) & (post & E2) & C1 & C2 & _). exists pre, post. split; [exact E|]. split; [exact E2|].
  split; [apply program_means; auto; cbn; lia|]. split; [apply program_means; auto; cbn; lia|]. split; [repeat constructor; cbn; intuition discriminate|].
  cbn. intros c [<-|[<-|[<-|[]]]]; lia.
Qed.
Example C65_case : forall theta, exists nd1 nd2, nodes_of shared_dims 3 (Optics (Half_wave_plate 0 1 theta)) = Some [nd1] /\ nodes_of shared_dims 3 (Plate_by 3 2 0 1) = Some [nd2] /\
  means shared_dims 3 nd1 (Element (fun _ => generic_matrix theta PI) 0 1) /\
  means shared_dims 3 nd2 (Element (fun reg => generic_matrix (nth 0 reg 0%R) (nth 1 reg 0%R)) 3 2) /\
  means shared_dims 3 (NMeasure [2] [0]) (Detect [2] [0]).
Proof.
  intro theta.
  assert (H1 : Forall2 (means shared_dims 3) [NOptical (generic_matrix theta PI) [0;1;2;3]] (meaning shared_dims (Optics (Half_wave_plate 0 1 theta)))).
  { apply (instruction_means shared_dims 3); cbn; try lia; [reflexivity|unfold in_order; lia]. }
  assert (H2 : Forall2 (means shared_dims 3) [NControlled (PI / 2) 0 [(true, 0); (false, 1)] [3;2;1;0]] (meaning shared_dims (Plate_by 3 2 0 1))).
  { apply (instruction_means shared_dims 3); cbn; try lia; [reflexivity|unfold in_order; repeat split; lia]. }
  eexists _, _. split; [reflexivity|]. split; [reflexivity|]. split; [now inversion H1|]. split; [now inversion H2|].
  constructor; [reflexivity|intros c [<-|[]]; lia|repeat constructor; intros []].
Qed.
Example C66_case : forall theta, Permutation [0;1;2;3] (seq 0 (dN shared_dims)) /\ unitary2 (generic_matrix theta PI).
Proof.
  intro theta. split; [apply Permutation_refl|apply generic_unitary].
Qed.
(** Measuring channel 0 and shifting the phase of channel 3 by the result. *)
Example C67_case : exists nd, nodes_of shared_dims 3 (Phase_by 3 1) = Some [nd] /\
  means shared_dims 3 nd (Element (fun reg => generic_matrix 0 (nth 1 reg 0%R)) 0 3) /\
  (forall r, length r = 3 -> generic_matrix 0 (nth 1 r 0%R) = mat2_tr ((fun x => generic_matrix 0 x) (nth 1 r 0%R))) /\ (forall x, unitary2 (generic_matrix 0 x)) /\
  1 < dN shared_dims /\ 1 <> 0 /\ 1 <> 3.
Proof.
  assert (H2 : Forall2 (means shared_dims 3) [NControlled 0 0 [(false, 1)] [0;3;2;1]] (meaning shared_dims (Phase_by 3 1))).
  { apply (instruction_means shared_dims 3); cbn; try lia; reflexivity. }
  eexists. split; [reflexivity|]. split; [now inversion H2|]. split; [intros r _; symmetry; apply generic_tr|]. split; [intro; apply generic_unitary|]. cbn. lia.
Qed.
Print Assumptions C63_programs.
