(** C69: teleportation. *)
From Coq Require Import Reals List Arith Lia Lra Bool Permutation.
From Coquelicot Require Import Complex.
From Verif Require Import Prelude NamesModel NamesSpec NamesProofs FockModel FockSpec FockProofs
  OpticalModel OpticalProofs StateModel StateSpec StateProofs CollectionModel EvalModel EvalSpec EvalProofs MeasureSpec MeasureProofs
  InterferenceSpec CircuitSpec CircuitProofs EnsembleProofs PropCircuit ProgramModel ProgramSpec
  ProtocolSpec ProtocolProofs PropProtocol PropDeferred PropProgram PropOptical ApplicationSpec SparseProofs PropBell.
Import ListNotations.


Notation companion := (nat * nat)%type.
Definition turned (A : mat2) (c : companion -> bool -> C) (k : companion) (s : bool) : C := Csum both (fun i => entry A s i * c k i)%C.
Ltac compute_list := cbn [flat_map map app pol nth put2 set_nth split_pair fst snd].
Lemma wave_flat {A} (f : A -> list (values * C)) l g : wave_of (flat_map f l) g = Csum l (fun a => wave_of (f a) g).
Proof. unfold wave_of. now rewrite Csum_flat_map. Qed.
Lemma step_flat {A} M h v (f : A -> list (values * C)) l : step M h v (flat_map f l) = flat_map (fun a => step M h v (f a)) l.
Proof. unfold step. induction l as [|a l IH]; [reflexivity|]. cbn [flat_map]. now rewrite flat_map_app, IH. Qed.
Lemma Forall_flat {A B} (P : B -> Prop) (f : A -> list B) l : (forall a, In a l -> Forall P (f a)) -> Forall P (flat_map f l).
Proof. intro H. rewrite Forall_forall. intros x Hx. apply in_flat_map in Hx. destruct Hx as (a & Ha & Hx). specialize (H a Ha). rewrite Forall_forall in H. now apply H. Qed.
Lemma source_turned cs A c g : wave_of (step A 2 3 (source_and_pair cs c)) g = wave_of (source_and_pair cs (turned A c)) g.
Proof.
  unfold source_and_pair. rewrite step_flat, !wave_flat. apply Csum_ext. intros k _. unfold step, both. compute_list. unfold wave_of; rewrite ?Csum_cons, ?Csum_nil; cbn [fst snd].
  unfold turned, both. rewrite ?Csum_cons, ?Csum_nil. cbn [entry]. rewrite !if_scale. ring.
Qed.
(** After the beam splitter. *)
Definition quarter : R := (/ 2 * / sqrt 2)%R.
Definition mixed1 (d : companion -> bool -> C) (k : companion) : list (values * C) :=
  let p := fst k in let q := snd k in [
    ([p;q;2;0;0;0;0;1], (d k true * RtoC (/ 2))%C); ([p;q;0;0;2;0;0;1], (- (d k true * RtoC (/ 2)))%C);
    ([p;q;0;2;0;0;1;0], (- (d k false * RtoC (/ 2)))%C); ([p;q;0;0;0;2;1;0], (d k false * RtoC (/ 2))%C);
    ([p;q;1;1;0;0;1;0], (- (d k true * RtoC quarter))%C); ([p;q;1;1;0;0;0;1], (d k false * RtoC quarter)%C);
    ([p;q;0;0;1;1;1;0], (d k true * RtoC quarter)%C); ([p;q;0;0;1;1;0;1], (- (d k false * RtoC quarter))%C);
    ([p;q;0;1;1;0;1;0], (- (d k true * RtoC quarter))%C); ([p;q;0;1;1;0;0;1], (- (d k false * RtoC quarter))%C);
    ([p;q;1;0;0;1;1;0], (d k true * RtoC quarter)%C); ([p;q;1;0;0;1;0;1], (d k false * RtoC quarter)%C)].
Definition mixed (cs : list companion) (d : companion -> bool -> C) : list (values * C) := flat_map (mixed1 d) cs.
Lemma mixed_ok cs d g : wave_of (step (generic_matrix (PI / 8) PI) 3 5 (step (generic_matrix (PI / 8) PI) 2 4 (source_and_pair cs d))) g = wave_of (mixed cs d) g.
Proof.
  rewrite mix_matrix. set (x := (/ sqrt 2)%R).
  assert (Hx : (RtoC x * RtoC x = RtoC (/ 2))%C) by (rewrite <- RtoC_mult; f_equal; apply sqrt2_inv_sq).
  assert (Hs : (RtoC (sqrt 2) * RtoC x = RtoC 1)%C) by (rewrite <- RtoC_mult; f_equal; apply Rinv_r; apply Rgt_not_eq, sqrt_lt_R0; lra).
  assert (Hq : RtoC quarter = (RtoC x * RtoC x * RtoC x)%C) by (rewrite Hx; unfold quarter; now rewrite RtoC_mult). rewrite RtoC_opp.
  unfold source_and_pair, mixed. rewrite !step_flat, !wave_flat. apply Csum_ext. intros k _. unfold step, both, mixed1. compute_list. cbn [m00 m01 m10 m11]. fold x. rewrite Hq, <- Hx.
  unfold wave_of, both; cbn [flat_map map app pol]; rewrite ?Csum_cons, ?Csum_nil; cbn [fst snd]. rewrite !if_scale.
  generalize (d k true) (d k false). intros d1 d2.
  set (y := RtoC x) in *. set (z := RtoC (sqrt 2)) in *.
  assert (E1 : (z * (y * y) = y)%C) by (rewrite Cmult_assoc, Hs; ring).
  assert (E2 : (z * (y * (- y)) = - y)%C) by (replace (z * (y * (- y)))%C with (- (z * (y * y)))%C by ring; now rewrite E1).
  rewrite E1, E2. ring.
Qed.
(** What the receiver has once the sender has read [o]. *)
Definition target (o : nat * nat * nat * nat) (cs : list companion) (x : companion -> bool -> C) : list (values * C) :=
  flat_map (fun k => map (fun t => (let '(o2, o3, o4, o5) := o in fst k :: snd k :: o2 :: o3 :: o4 :: o5 :: pol t, x k t)) both) cs.
Lemma target_turned o cs A x g : wave_of (step A 6 7 (target o cs x)) g = wave_of (target o cs (turned A x)) g.
Proof.
  destruct o as [[[o2 o3] o4] o5]. unfold target. rewrite step_flat, !wave_flat. apply Csum_ext. intros k _. unfold step, both. compute_list. unfold wave_of; rewrite ?Csum_cons, ?Csum_nil; cbn [fst snd].
  unfold turned, both. rewrite ?Csum_cons, ?Csum_nil. cbn [entry]. rewrite !if_scale. ring.
Qed.
Lemma target_ext o cs x y g : (forall k t, In k cs -> x k t = y k t) -> wave_of (target o cs x) g = wave_of (target o cs y) g.
Proof. intro H. unfold target. rewrite !wave_flat. apply Csum_ext. intros k Hk. unfold both. cbn [map]. now rewrite !H. Qed.

Section Teleportation.
Variables (L : nat) (ord : bool).
Hypothesis HL : 3 <= L.
Let D := Dims L 8 ord.
Variable cs : list companion.
Hypothesis Hcs : forall k, In k cs -> fst k < L /\ snd k < L.
Hypothesis Hnd : NoDup cs.
Ltac fl := apply Forall_flat; intros k Hk; pose proof (Hcs k Hk).
Lemma source_small c : Forall (small D 2 3) (source_and_pair cs c) /\ Forall (small D 2 4) (source_and_pair cs c).
Proof. split; fl; unfold both; compute_list; smalls. Qed.
Lemma mix_small A c : Forall (small D 3 5) (step A 2 4 (source_and_pair cs c)).
Proof. unfold source_and_pair. rewrite step_flat. fl. unfold step, both. compute_list. smalls. Qed.
Lemma mixed_valid d : Forall (fun p => valid D (fst p)) (mixed cs d).
Proof. fl. unfold mixed1. cbv zeta. valids. Qed.
Definition bounded (o : nat * nat * nat * nat) : Prop := let '(o2, o3, o4, o5) := o in o2 < L /\ o3 < L /\ o4 < L /\ o5 < L.
Lemma target_small o x : bounded o -> Forall (small D 6 7) (target o cs x) /\ Forall (fun p => valid D (fst p)) (target o cs x).
Proof. destruct o as [[[o2 o3] o4] o5]. intro Ho. cbn in Ho. split; fl; unfold both; compute_list; [smalls|valids]. Qed.
(** Reading the target photon and the companion. *)
Lemma target_read o x lab reg P : bounded o ->
  chance D [Detect [6; 7] [10; 11]; Detect [0; 1] [0; 1]] lab reg (wave_of (target o cs x)) P
  = Csum both (fun t => Csum cs (fun k => if P lab (noted [0; 1] [fst k; snd k] (noted [10; 11] (pol t) reg)) then RtoC (Cnorm2 (x k t)) else RtoC 0)).
Proof.
  intro Ho. destruct o as [[[o2 o3] o4] o5]. assert (Hb : o2 < L /\ o3 < L /\ o4 < L /\ o5 < L) by exact Ho.
  rewrite (chance_detect D _ _ _ _ _ _ _ (map pol both)).
  - rewrite Csum_map. apply Csum_ext. intros t _.
    assert (Ep : part [6; 7] (pol t) (target (o2, o3, o4, o5) cs x) = map (fun k => (fst k :: snd k :: o2 :: o3 :: o4 :: o5 :: pol t, x k t)) cs).
    { unfold target. clear. induction cs as [|k l IH]; [reflexivity|]. unfold part in *. cbn [flat_map]. rewrite filter_app. etransitivity; [exact (f_equal2 (@app _) eq_refl IH)|]. destruct t; reflexivity. }
    rewrite Ep. rewrite (chance_detect D _ _ _ _ _ _ _ (map (fun k => [fst k; snd k]) cs)).
    + rewrite Csum_map. apply Csum_ext. intros k Hk.
      assert (Eq : part [0; 1] [fst k; snd k] (map (fun k => (fst k :: snd k :: o2 :: o3 :: o4 :: o5 :: pol t, x k t)) cs) = [(fst k :: snd k :: o2 :: o3 :: o4 :: o5 :: pol t, x k t)]).
      { unfold part. clear - Hk Hnd. induction cs as [|k0 l IH]; [destruct Hk|]. apply NoDup_cons_iff in Hnd. destruct Hnd as [Hn Hnd0]. cbn [map filter fst]. destruct Hk as [->|Hk].
        - cbn [readout map nth leqb]. rewrite !Nat.eqb_refl. cbn [andb]. f_equal. clear IH Hnd. induction l as [|k1 l IH]; [reflexivity|]. cbn [map filter fst readout nth leqb].
          destruct ((fst k1 =? fst k) && ((snd k1 =? snd k) && true)) eqn:E; [|apply IH; first [intro; apply Hn; now right|now apply NoDup_cons_iff in Hnd0]].
          exfalso. apply Hn. left. apply andb_prop in E. destruct E as [E1 E2]. rewrite andb_true_r in E2. apply Nat.eqb_eq in E1, E2. destruct k, k1; cbn in *; congruence.
        - rewrite IH by assumption. cbn [readout map nth leqb]. destruct ((fst k0 =? fst k) && ((snd k0 =? snd k) && true)) eqn:E; [|reflexivity].
          exfalso. apply Hn. apply andb_prop in E. destruct E as [E1 E2]. rewrite andb_true_r in E2. apply Nat.eqb_eq in E1, E2. assert (k0 = k) by (destruct k, k0; cbn in *; congruence). now subst. }
      rewrite Eq. rewrite chance_end.
      * rewrite Rsum_cons, Rsum_nil, Rplus_0_r. reflexivity.
      * pose proof (Hcs k Hk). destruct t; valids.
      * repeat constructor. intros [].
    + rewrite Forall_forall. intros p Hp. apply in_map_iff in Hp. destruct Hp as (k & <- & Hk). pose proof (Hcs k Hk). cbn [fst]. destruct t; valid_tuple.
    + apply FinFun.Injective_map_NoDup; [|exact Hnd]. intros [a b] [a' b'] E. cbn in E. congruence.
    + intros p Hp. apply in_map_iff in Hp. destruct Hp as (k & <- & Hk). cbn [fst readout map nth]. apply (in_map (fun k => [fst k; snd k])). exact Hk.
    + intros o Hk. apply in_map_iff in Hk. destruct Hk as (k & <- & Hk). pose proof (Hcs k Hk). exists [fst k; snd k; 0; 0; 0; 0; 0; 0]. split; [valid_tuple|reflexivity].
  - apply (target_small (o2, o3, o4, o5)). exact Ho.
  - repeat constructor; cbn; intuition discriminate.
  - intros p Hp. unfold target in Hp. apply in_flat_map in Hp. destruct Hp as (k & _ & Hp). apply in_map_iff in Hp. destruct Hp as (t & <- & Ht). cbn [fst]. destruct t; cbn; tauto.
  - intros o Ho'. apply in_map_iff in Ho'. destruct Ho' as (t & <- & _). destruct t; [exists [0;0;0;0;0;0;1;0]|exists [0;0;0;0;0;0;0;1]]; (split; [valid_tuple|reflexivity]).
Qed.

(** The receiver turns the photon back. *)
Lemma plate_back theta phi c (z : C) k t : turned (generic_matrix theta (- phi)) (fun k t => z * turned (generic_matrix theta phi) c k t)%C k t = (z * c k t)%C.
Proof.
  assert (E : generic_matrix theta (- phi) = mat2_adj (generic_matrix theta phi)).
  { unfold generic_matrix, mat2_adj. cbv zeta. cbn [m00 m01 m10 m11]. rewrite cos_neg, sin_neg. f_equal; apply C_eq; cbn; ring. }
  destruct (generic_unitary theta phi) as [_ H]. rewrite <- E in H. unfold mat2_mul, mat2_id in H. injection H as H1 H2 H3 H4 H5 H6 H7 H8.
  set (A := generic_matrix theta phi) in *. set (B := generic_matrix theta (- phi)) in *.
  assert (G1 : (m00 B * m00 A + m01 B * m10 A = RtoC 1)%C) by (apply C_eq; assumption). assert (G2 : (m00 B * m01 A + m01 B * m11 A = RtoC 0)%C) by (apply C_eq; assumption).
  assert (G3 : (m10 B * m00 A + m11 B * m10 A = RtoC 0)%C) by (apply C_eq; assumption). assert (G4 : (m10 B * m01 A + m11 B * m11 A = RtoC 1)%C) by (apply C_eq; assumption).
  unfold turned, both. rewrite !Csum_cons, !Csum_nil. destruct t; cbn [entry].
  - transitivity (z * ((m00 B * m00 A + m01 B * m10 A) * c k true + (m00 B * m01 A + m01 B * m11 A) * c k false))%C; [ring|]. rewrite G1, G2. ring.
  - transitivity (z * ((m10 B * m00 A + m11 B * m10 A) * c k true + (m10 B * m01 A + m11 B * m11 A) * c k false))%C; [ring|]. rewrite G3, G4. ring.
Qed.
Lemma quarter_norm (e : R) (a : C) : (e * e = 1)%R -> Cnorm2 (RtoC (e * quarter) * a)%C = (/ 8 * Cnorm2 a)%R.
Proof.
  intro He. rewrite Cnorm2_mult. f_equal. unfold Cnorm2, quarter. cbn. transitivity ((e * e) * (/ 4 * (/ sqrt 2 * / sqrt 2)))%R; [field; apply Rgt_not_eq, sqrt_lt_R0; lra|]. rewrite He, sqrt2_inv_sq. field.
Qed.
(** From the moment the sender has read [o]; [flip]: the receiver has to correct the sign. *)
Lemma receiver o (flip : bool) (e : R) theta phi (c : companion -> bool -> C) (x : companion -> bool -> C) lab reg P : bounded o -> (e * e = 1)%R -> length reg = 14 ->
  (forall k t, In k cs -> x k t = (RtoC (if flip then if t then e else - e else e)%R * RtoC quarter * turned (generic_matrix theta phi) c k t)%C) ->
  nth 12 reg 0%R = theta -> nth 13 reg 0%R = phi -> nth 7 reg 0%R = (if flip then 0 else 1)%R -> nth 8 reg 0%R = 0%R -> nth 6 reg 0%R = 0%R ->
  chance D [Compute (fun r => determine_wave_plate_settings r [] []); Element (fun r => generic_matrix (nth 8 r 0%R) (nth 9 r 0%R)) 6 7;
            Compute (fun r => reverse_angles r [] []); Element (fun r => generic_matrix (nth 12 r 0%R) (nth 13 r 0%R)) 6 7;
            Detect [6; 7] [10; 11]; Detect [0; 1] [0; 1]] lab reg (wave_of (target o cs x))
    (fun l r => leqb l lab && (shows 6 0 r && P (nth 0 r 0) (nth 1 r 0) (nth 10 r 0) (nth 11 r 0))%R)
  = RtoC (/ 8 * Rsum both (fun t => Rsum cs (fun k => if P (INR (fst k)) (INR (snd k)) (count t) (count (negb t)) then Cnorm2 (c k t) else 0)))%R.
Proof.
  intros Ho He Hl Hx Hth Hph H7 H8 H6.
  do 14 (destruct reg as [|?r reg]; [discriminate|]). destruct reg; [|discriminate]. cbn [nth] in Hth, Hph, H7, H8, H6. subst.
  rewrite chance_compute. unfold determine_wave_plate_settings. cbv zeta. cbn [map nth set_nth].
  assert (Hd : (if is_list [if flip then 0 else 1; 0]%R [0; 0]%R then [r;r0;r1;r2;r3;r4;0;if flip then 0 else 1;0;PI;r9;r10;theta;phi] else [r;r0;r1;r2;r3;r4;0;if flip then 0 else 1;0;0;r9;r10;theta;phi])%R
    = [r;r0;r1;r2;r3;r4;0;if flip then 0 else 1;0;if flip then PI else 0;r9;r10;theta;phi]%R).
  { unfold is_list. destruct (list_eq_dec _ _ _) as [E|E], flip; try reflexivity; [injection E; lra|congruence]. }
  etransitivity; [exact (f_equal (fun q => chance D _ lab q _ _) Hd)|]. clear Hd.
  rewrite chance_element by (try (cbn; lia); now apply target_small). cbn [nth].
  rewrite (chance_ext D _ lab _ _ (wave_of (target o cs (fun k t => RtoC (e * quarter) * turned (generic_matrix theta phi) c k t)%C))).
  2:{ intros g _. rewrite target_turned. apply target_ext. intros k t Hk. unfold turned at 1, both. rewrite !Csum_cons, !Csum_nil, !Hx, phase_matrix by exact Hk. rewrite !RtoC_mult.
      assert (Ep : (cos PI, sin PI) = (- RtoC 1)%C) by (rewrite cos_PI, sin_PI; apply C_eq; cbn; ring). assert (Ez : (cos 0, sin 0) = RtoC 1) by (rewrite cos_0, sin_0; reflexivity).
      destruct flip, t; cbn [entry m00 m01 m10 m11]; rewrite ?Ep, ?Ez, ?RtoC_opp; ring. }
  rewrite chance_compute. unfold reverse_angles. cbn [nth set_nth].
  rewrite chance_element by (try (cbn; lia); now apply target_small). cbn [nth].
  rewrite (chance_ext D _ lab _ _ (wave_of (target o cs (fun k t => RtoC (e * quarter) * c k t)%C))).
  2:{ intros g _. rewrite target_turned. apply target_ext. intros k t Hk. apply plate_back. }
  rewrite target_read by exact Ho. rewrite (RtoC_mult (/ 8)), <- Csum_RtoC, <- Csum_scal_l. apply Csum_ext. intros t _. rewrite <- Csum_RtoC, <- Csum_scal_l. apply Csum_ext. intros k Hk.
  rewrite leqb_refl. destruct t; cbn [noted noted_at length seq map nth Nat.eqb pol andb negb count]; unfold shows; cbn [nth INR].
  all: (destruct (Req_EM_T 0 0) as [_|n]; [|now contradiction n]); cbn [andb].
  all: (match goal with |- (if ?b then _ else _) = _ => destruct b end); [rewrite quarter_norm by exact He; now rewrite (RtoC_mult (/ 8))|ring].
Qed.
End Teleportation.


(** What the sender reads, and the two bits the sender derives. *)
Definition reading : Type := nat * nat * nat * nat.
Definition as_list (o : reading) : list nat := let '(o2, o3, o4, o5) := o in [o2; o3; o4; o5].
Definition good_reading (flip : bool) (e : bool) : reading :=
  match flip, e with true, true => (0, 0, 1, 1) | true, false => (1, 1, 0, 0) | false, true => (1, 0, 0, 1) | false, false => (0, 1, 1, 0) end.
Definition sign (e : bool) : R := if e then 1%R else (- 1)%R.
Definition sent_on (flip e : bool) (d : companion -> bool -> C) (k : companion) (t : bool) : C :=
  if Bool.eqb e (if flip then t else true) then (d k t * RtoC quarter)%C else (- (d k t * RtoC quarter))%C.
Lemma part_good cs flip e d : part [2; 3; 4; 5] (as_list (good_reading flip e)) (mixed cs d) = target (good_reading flip e) cs (sent_on flip e d).
Proof.
  unfold mixed, target, part. induction cs as [|k l IH]; [reflexivity|]. cbn [flat_map]. rewrite filter_app, IH. f_equal. unfold mixed1, both. cbv zeta. destruct flip, e; reflexivity.
Qed.
Lemma sent_on_ok flip e d k t : sent_on flip e d k t = (RtoC (if flip then if t then sign e else - sign e else sign e)%R * RtoC quarter * d k t)%C.
Proof. unfold sent_on, sign. destruct flip, e, t; cbn [Bool.eqb]; apply C_eq; cbn; ring. Qed.
Definition bad_readings : list (list nat) := [[2;0;0;0]; [0;0;2;0]; [0;2;0;0]; [0;0;0;2]].
Definition all_readings : list (list nat) := bad_readings ++ flat_map (fun flip => map (fun e => as_list (good_reading flip e)) both) both.
Ltac decide_lists := unfold is_list; repeat (destruct (list_eq_dec Req_EM_T _ _) as [?E|?E]; [try (exfalso; match goal with H : @eq (list R) _ _ |- _ => injection H; intros; lra end)|try (match goal with H : ?x <> ?x |- _ => now contradiction H end)]).
Lemma bits_good flip e reg : length reg = 14 -> let reg' := define_communication_bits (noted [2; 3; 4; 5] (as_list (good_reading flip e)) reg) [] [] in
  length reg' = 14 /\ nth 6 reg' 0%R = 0%R /\ nth 7 reg' 0%R = (if flip then 0 else 1)%R /\ (forall i, 8 <= i -> nth i reg' 0%R = nth i reg 0%R).
Proof.
  intro Hl. do 14 (destruct reg as [|?r reg]; [discriminate|]). destruct reg; [|discriminate].
  assert (G : forall x y i, 8 <= i -> nth i (set_nth (set_nth (noted [2; 3; 4; 5] (as_list (good_reading flip e)) [r; r0; r1; r2; r3; r4; r5; r6; r7; r8; r9; r10; r11; r12]) 6 x) 7 y) 0%R = nth i [r; r0; r1; r2; r3; r4; r5; r6; r7; r8; r9; r10; r11; r12] 0%R).
  { intros x y i Hi. do 8 (destruct i as [|i]; [lia|]). destruct flip, e; cbn [good_reading as_list noted noted_at length seq map nth Nat.eqb set_nth]; reflexivity. }
  unfold define_communication_bits. cbv zeta. destruct flip, e; cbn [good_reading as_list noted noted_at length seq map nth Nat.eqb INR] in *; decide_lists;
    (split; [reflexivity|split; [reflexivity|split; [reflexivity|intros i Hi; now apply G]]]).
Qed.
Lemma bits_bad o reg : length reg = 14 -> In o bad_readings -> let reg' := define_communication_bits (noted [2; 3; 4; 5] o reg) [] [] in length reg' = 14 /\ nth 6 reg' 0%R = 1%R.
Proof.
  intros Hl Ho. do 14 (destruct reg as [|?r reg]; [discriminate|]). destruct reg; [|discriminate].
  unfold define_communication_bits. cbv zeta. unfold bad_readings in Ho. repeat (destruct Ho as [<-|Ho]; [cbn [noted noted_at length seq map nth Nat.eqb INR]; decide_lists; (split; reflexivity)|]). destruct Ho.
Qed.

Lemma all_readings_ok cs d p : In p (mixed cs d) -> In (readout [2; 3; 4; 5] (fst p)) all_readings.
Proof.
  intro Hp. unfold mixed in Hp. apply in_flat_map in Hp. destruct Hp as (k & _ & Hp). unfold mixed1 in Hp. cbv zeta in Hp.
  repeat (destruct Hp as [<-|Hp]; [cbn; tauto|]). destruct Hp.
Qed.

(** ** C69 *)
(** For every polarisation of the source photon, also entangled with any photons [k] in the channels 0 and
    1, and all angles of the plate in front of it (turned back at the receiver): whatever is asked about the
    readings of the companion and of the receiver's photon, together with the sender reporting success, has
    half the probability it would have had for the source photon itself. *)
Theorem C69_teleportation : forall L ord full its X rnd, 3 <= L -> let D := Dims L 8 ord in proper_items D 14 its ->
  exists nodes, program_nodes D 14 teleportation = Some nodes /\
  exists eps0, (0 < eps0)%R /\ forall eps, (0 < eps <= eps0)%R ->
  let circuit := Circuit D 14 eps full (fresh_keys D) nodes in
  exists out, evaluate_circuit X rnd circuit (coll_of circuit its) = Ok (coll_of circuit out) /\
    forall lab st reg cs c, prepared D its lab st reg (source_and_pair cs c) -> length reg = 14 -> nth 8 reg 0%R = 0%R ->
      NoDup cs -> (forall k, In k cs -> fst k < L /\ snd k < L) -> forall P : R -> R -> R -> R -> bool,
      weight_where out lab (fun r => shows 6 0 r && P (nth 0 r 0) (nth 1 r 0) (nth 10 r 0) (nth 11 r 0))%R
      = (s_cum st * (/ 2 * Rsum both (fun t => Rsum cs (fun k => if P (INR (fst k)) (INR (snd k)) (count t) (count (negb t)) then Cnorm2 (c k t) else 0))))%R.
Proof.
  intros L ord full its X rnd HL D Hp.
  assert (B : exists nodes, program_nodes D 14 teleportation = Some nodes) by (eexists; reflexivity). destruct B as (nodes & B). exists nodes. split; [exact B|].
  assert (HC : Forall (careful D 14) teleportation).
  { unfold teleportation. repeat (apply Forall_cons || apply Forall_nil); cbn [careful]; unfold in_order; repeat split; cbn; try lia.
    1,5,6: repeat (apply NoDup_cons; [cbn; intuition discriminate|]); apply NoDup_nil.
    - intros reg Hr. unfold define_communication_bits. cbv zeta. repeat (match goal with |- context [if ?b then _ else _] => destruct b end); now rewrite !set_nth_length.
    - intros reg Hr. unfold determine_wave_plate_settings. cbv zeta. repeat (match goal with |- context [if ?b then _ else _] => destruct b end); now rewrite !set_nth_length.
    - intros reg Hr. unfold reverse_angles. now rewrite !set_nth_length. }
  destruct (program_chance D 14 full teleportation nodes its X rnd) as (eps0 & H0 & H); try assumption; [cbn; lia|cbn; lia|]. exists eps0. split; [exact H0|]. intros eps He circuit.
  destruct (H eps He) as (out & Eo & Hpo & HW). exists out. split; [exact Eo|]. intros lab st reg cs c Hpr Hl H8 Hnd Hcs P. apply RtoC_inj. rewrite (HW lab st _ _ _ Hpr), RtoC_mult. f_equal. clear HW H0 H Eo Hpo B He.
  unfold teleportation. cbn [flat_map meaning app].
  set (Q := fun (l' : ident) (r : list R) => leqb l' lab && (shows 6 0 r && P (nth 0 r 0) (nth 1 r 0) (nth 10 r 0) (nth 11 r 0))%R).
  etransitivity; [apply (chance_element D); try (cbn; lia); now apply (source_small L ord HL cs Hcs)|]. cbn [nth].
  etransitivity; [apply (chance_ext D); intros g _; apply source_turned|].
  etransitivity; [apply (chance_element D); try (cbn; lia); now apply (source_small L ord HL cs Hcs)|].
  etransitivity; [apply (chance_element D); try (cbn; lia); now apply (mix_small L ord HL cs Hcs)|].
  etransitivity; [apply (chance_ext D); intros g _; apply mixed_ok|].
  set (d := turned (generic_matrix (nth 12 reg 0%R) (nth 13 reg 0%R)) c). set (Z := Rsum both _).
  etransitivity; [apply (chance_detect D _ _ _ _ _ _ _ all_readings)|].
  - apply (mixed_valid L ord HL cs Hcs).
  - unfold all_readings, bad_readings, both. cbn [flat_map map app as_list good_reading]. repeat (apply NoDup_cons; [cbn; intuition discriminate|]); apply NoDup_nil.
  - intros p. apply all_readings_ok.
  - intros o Ho. unfold all_readings, bad_readings, both in Ho. cbn [flat_map map app as_list good_reading] in Ho.
    repeat (destruct Ho as [<-|Ho]; [eexists [0; 0; _; _; _; _; 0; 0]; (split; [|reflexivity]); valid_tuple|]). destruct Ho.
  - unfold all_readings. rewrite Csum_app.
    match goal with |- (Csum bad_readings ?f + _ = _)%C => assert (EB : Csum bad_readings f = RtoC 0) end.
    { apply Csum_zero. intros o Ho. destruct (bits_bad o reg Hl Ho) as [G1 G2]. rewrite chance_compute. apply (chance_dead D 14 6); [exact G1| |].
      - repeat (apply Forall_cons || apply Forall_nil); cbn [keeps]; try exact I.
        + intros r Hr. unfold determine_wave_plate_settings. cbv zeta. split; [repeat (match goal with |- context [if ?b then _ else _] => destruct b end); now rewrite !set_nth_length|].
          repeat (match goal with |- context [if ?b then _ else _] => destruct b end); rewrite !nth_set_nth_R, ?set_nth_length, Hr; reflexivity.
        + intros r Hr. unfold reverse_angles. split; [now rewrite !set_nth_length|rewrite !nth_set_nth_R, ?set_nth_length, Hr; reflexivity].
        + cbn. lia.
        + cbn. lia.
      - intros r Hr. unfold Q. unfold shows. rewrite Hr, G2. destruct (Req_EM_T 1 0) as [E|_]; [lra|]. apply andb_false_r. }
    rewrite EB, Cplus_0_l. clear EB.
    rewrite Csum_flat_map. rewrite (Csum_ext both _ (fun _ => RtoC (/ 8 * Z) + RtoC (/ 8 * Z))%C).
    + unfold both. rewrite !Csum_cons, !Csum_nil. apply C_eq; cbn; field.
    + intros flip _. rewrite Csum_map. assert (G : forall e, chance D
     [Compute (fun reg0 => define_communication_bits reg0 [] []); Compute (fun reg0 => determine_wave_plate_settings reg0 [] []);
      Element (fun reg0 => generic_matrix (nth 8 reg0 0%R) (nth 9 reg0 0%R)) 6 7; Compute (fun reg0 => reverse_angles reg0 [] []);
      Element (fun reg0 => generic_matrix (nth 12 reg0 0%R) (nth 13 reg0 0%R)) 6 7; Detect [6; 7] [10; 11]; Detect [0; 1] [0; 1]] lab (noted [2; 3; 4; 5] (as_list (good_reading flip e)) reg)
      (wave_of (part [2; 3; 4; 5] (as_list (good_reading flip e)) (mixed cs d))) Q = RtoC (/ 8 * Z)).
      { intro e. rewrite chance_compute, part_good. destruct (bits_good flip e reg Hl) as (G1 & G2 & G3 & G4). set (reg' := define_communication_bits _ _ _) in *.
        etransitivity; [apply (receiver L ord HL cs Hcs Hnd (good_reading flip e) flip (sign e) (nth 12 reg 0%R) (nth 13 reg 0%R) c)|].
        - destruct flip, e; cbn; lia.
        - destruct e; unfold sign; lra.
        - exact G1.
        - intros k t _. apply sent_on_ok.
        - apply G4; lia.
        - apply G4; lia.
        - exact G3.
        - rewrite G4 by lia. exact H8.
        - exact G2.
        - reflexivity. }
      unfold both at 1. rewrite !Csum_cons, Csum_nil, !G. ring.
Qed.
(** The sender reports success in half of the cases, and in these the readings have the distribution of the
    source photon and its companion. *)
Theorem C69_success : forall L ord full its X rnd, 3 <= L -> let D := Dims L 8 ord in proper_items D 14 its ->
  exists nodes, program_nodes D 14 teleportation = Some nodes /\
  exists eps0, (0 < eps0)%R /\ forall eps, (0 < eps <= eps0)%R ->
  let circuit := Circuit D 14 eps full (fresh_keys D) nodes in
  exists out, evaluate_circuit X rnd circuit (coll_of circuit its) = Ok (coll_of circuit out) /\
    forall lab st reg cs c, prepared D its lab st reg (source_and_pair cs c) -> length reg = 14 -> nth 8 reg 0%R = 0%R ->
      NoDup cs -> (forall k, In k cs -> fst k < L /\ snd k < L) -> Rsum cs (fun k => Cnorm2 (c k true) + Cnorm2 (c k false))%R = 1%R ->
      weight_where out lab (shows 6 0) = (s_cum st * / 2)%R /\
      forall k t, In k cs ->
        weight_where out lab (fun r => shows 6 0 r && (shows 0 (INR (fst k)) r && shows 1 (INR (snd k)) r && shows 10 (count t) r && shows 11 (count (negb t)) r))
        = (weight_where out lab (shows 6 0) * Cnorm2 (c k t))%R.
Proof.
  intros L ord full its X rnd HL D Hp. destruct (C69_teleportation L ord full its X rnd HL Hp) as (nodes & B & eps0 & H0 & H). exists nodes. split; [exact B|]. exists eps0. split; [exact H0|]. intros eps He circuit.
  destruct (H eps He) as (out & Eo & HW). exists out. split; [exact Eo|]. intros lab st reg cs c Hpr Hl H8 Hnd Hcs Hn.
  assert (E : weight_where out lab (shows 6 0) = (s_cum st * / 2)%R).
  { pose proof (HW lab st reg cs c Hpr Hl H8 Hnd Hcs (fun _ _ _ _ => true)) as E. cbv beta in E. etransitivity; [|etransitivity; [exact E|]].
    - unfold weight_where. apply Rsum_ext. intros it _. now rewrite andb_true_r.
    - f_equal. unfold both. rewrite !Rsum_cons, Rsum_nil, Rplus_0_r, <- Rsum_plus, Hn. ring. }
  split; [exact E|]. intros k t Hk. rewrite E.
  set (q := fun x y : R => if Req_EM_T x y then true else false).
  pose proof (HW lab st reg cs c Hpr Hl H8 Hnd Hcs (fun x y u v => q x (INR (fst k)) && q y (INR (snd k)) && q u (count t) && q v (count (negb t)))) as G. cbv beta in G.
  etransitivity; [exact G|]. rewrite Rmult_assoc. f_equal. f_equal.
  assert (Q1 : forall a b, q (INR a) (INR b) = (a =? b)) by (intros a b; unfold q; destruct (Req_EM_T _ _) as [E1|E1]; symmetry; [apply Nat.eqb_eq; now apply INR_eq|apply Nat.eqb_neq; intros ->; now apply E1]).
  assert (Q2 : forall a b, q (count a) (count b) = Bool.eqb a b) by (intros a b; unfold q; destruct (Req_EM_T _ _) as [E1|E1], a, b; cbn in *; try reflexivity; try lra; now contradiction E1).
  transitivity (Rsum both (fun t' => if Bool.eqb t' t then Rsum cs (fun k' => if (fst k' =? fst k) && (snd k' =? snd k) then Cnorm2 (c k' t') else 0) else 0)%R).
  { apply Rsum_ext. intros t' _. destruct (Bool.eqb t' t) eqn:Et.
    - apply Rsum_ext. intros k' _. rewrite !Q1, !Q2, Et. apply eqb_prop in Et. subst. rewrite eqb_reflx, !andb_true_r. reflexivity.
    - apply Rsum_zero. intros k' _. rewrite !Q2, Et, andb_false_r. reflexivity. }
  assert (GK : forall t', Rsum cs (fun k' => if (fst k' =? fst k) && (snd k' =? snd k) then Cnorm2 (c k' t') else 0)%R = Cnorm2 (c k t')).
  { intro t'. clear - Hnd Hk. induction cs as [|k0 l IH]; [destruct Hk|]. apply NoDup_cons_iff in Hnd. destruct Hnd as [Hn Hd]. rewrite Rsum_cons. destruct Hk as [->|Hk].
    - rewrite !Nat.eqb_refl. cbn [andb]. rewrite Rsum_zero; [ring|]. intros k' Hk'. destruct ((fst k' =? fst k) && (snd k' =? snd k)) eqn:E; [|reflexivity]. exfalso. apply Hn. apply andb_prop in E. destruct E as [E1 E2]. apply Nat.eqb_eq in E1, E2. assert (k' = k) by (destruct k, k'; cbn in *; congruence). now subst.
    - rewrite IH by assumption. destruct ((fst k0 =? fst k) && (snd k0 =? snd k)) eqn:E; [|ring]. exfalso. apply Hn. apply andb_prop in E. destruct E as [E1 E2]. apply Nat.eqb_eq in E1, E2. assert (k0 = k) by (destruct k, k0; cbn in *; congruence). now subst. }
  unfold both. rewrite !Rsum_cons, Rsum_nil, !GK. destruct t; cbn [Bool.eqb]; ring.
Qed.

(** One horizontal photon and the pair, with a plate at some angles. *)
Definition one_source (k : nat * nat) (s : bool) : C := if s then RtoC 1 else RtoC 0.
Definition case_state (theta phi : R) : state :=
  State [7] 1 [([0;0;1;0;1;0;0;1], (RtoC (/ sqrt 2), / 2)%R); ([0;0;1;0;0;1;1;0], ((- RtoC (/ sqrt 2))%C, (/ 2)%R))] [0; 0; 0; 0; 0; 0; 0; 0; 0; 0; 0; 0; theta; phi]%R [] [].
Example C69_case : forall theta phi, let D := Dims 3 8 true in let its := [([7], case_state theta phi)] in
  proper_items D 14 its /\ prepared D its [7] (case_state theta phi) (s_classical (case_state theta phi)) (source_and_pair [(0, 0)] one_source).
Proof.
  intros theta phi D its.
  assert (H2 : Cnorm2 (RtoC (/ sqrt 2)) = (/ 2)%R) by (unfold Cnorm2; cbn; pose proof sqrt2_inv_sq; nra).
  assert (H3 : Cnorm2 (- RtoC (/ sqrt 2))%C = (/ 2)%R) by (rewrite <- H2; unfold Cnorm2; cbn; ring).
  assert (Hs : (/ sqrt 2 <> 0)%R) by (apply Rinv_neq_0_compat, Rgt_not_eq, sqrt_lt_R0; lra).
  split; [split; [discriminate|split; [repeat constructor; intros []|]]; apply Forall_cons; [|apply Forall_nil]|].
  - split; [|split; [|split; [|split; [|split; reflexivity]]]].
    + split; [repeat constructor; cbn; intuition discriminate|]. intros nm. cbn. intros [<-|[<-|[]]]; [exists [0;0;1;0;1;0;0;1]|exists [0;0;1;0;0;1;1;0]]; (split; [|reflexivity]); valid_tuple.
    + intros nm x p [E|[E|[]]]; injection E as <- <- <-; (split; [|now rewrite ?H2, ?H3]); intro E; apply Hs; [apply RtoC_inj; exact E|]. apply (f_equal fst) in E. cbn in E. lra.
    + unfold state_norm2. cbn. rewrite H2, H3. lra.
    + cbn. lra.
  - split; [exists [7]; now left|]. split; [reflexivity|]. split; [intros k k' st1 st2 [E1|[]] [E3|[]] _ _; injection E1 as <- _; now injection E3 as <- _|]. split; [reflexivity|].
    assert (HB : forallb (fun f => Bool.eqb (leqb (name_string D f) [0;0;1;0;1;0;0;1]) (leqb f [0;0;1;0;1;0;0;1]) && Bool.eqb (leqb (name_string D f) [0;0;1;0;0;1;1;0]) (leqb f [0;0;1;0;0;1;1;0])) (basis D) = true) by (vm_compute; reflexivity).
    intros f Vf. apply basis_in in Vf. rewrite forallb_forall in HB. specialize (HB f Vf). apply andb_prop in HB. destruct HB as [HB1 HB2]. apply eqb_prop in HB1, HB2.
    unfold amp_of, amplitude. generalize dependent (name_string D f). intros nm HB1 HB2.
    unfold case_state. cbn [s_comps dget]. rewrite HB1, HB2. unfold wave_of, source_and_pair, both, one_source. cbn [flat_map map app pol fst snd]. rewrite !Csum_cons, Csum_nil. cbn [fst snd].
    destruct (leqb f [0;0;1;0;1;0;0;1]) eqn:E1; [apply leqb_spec in E1; subst f; cbn [leqb Nat.eqb andb]; apply C_eq; cbn; ring|].
    destruct (leqb f [0;0;1;0;0;1;1;0]) eqn:E2; [apply leqb_spec in E2; subst f; cbn [leqb Nat.eqb andb]; apply C_eq; cbn; ring|].
    destruct (leqb f [0;0;0;1;1;0;0;1]), (leqb f [0;0;0;1;0;1;1;0]); cbn [fst]; apply C_eq; cbn; ring.
Qed.
Print Assumptions C69_teleportation.
Print Assumptions C69_success.
