(** C74: a circuit can be undone. *)
From Coq Require Import Reals List Arith Lia Lra Bool Permutation ZArith FunctionalExtensionality.
From Coquelicot Require Import Complex.
From Verif Require Import Prelude NamesModel NamesSpec NamesProofs FockModel FockSpec FockProofs GateProofs
  OpticalModel OpticalProofs StateModel StateSpec StateProofs CollectionModel EvalModel EvalSpec EvalProofs MeasureSpec MeasureProofs PropEval
  InterferenceSpec ArrangementProofs PermanentProofs CustomModel CustomSpec PropCustom PropOptical CircuitSpec CircuitProofs EnsembleProofs PropCircuit
  ProtocolSpec ProtocolProofs PropProtocol ProgramModel ProgramSpec PropProgram BuildSpec PropBuild UndoSpec.
Import ListNotations.

Definition same_b (D : dims) (b b' : branch) : Prop := b_label b = b_label b' /\ b_reg b = b_reg b' /\ forall f, valid D f -> b_wave b f = b_wave b' f.
Definition go (D : dims) (op : operation) (b : branch) : branch := match perform D op b with b' :: _ => b' | [] => b end.
Definition go_all (D : dims) (ops : list operation) (b : branch) : branch := fold_left (fun b op => go D op b) ops b.
Definition quiet (ncl : nat) (op : operation) : Prop := match op with Detect _ _ => False | Compute F => forall r, length r = ncl -> length (F r) = ncl | _ => True end.
Lemma go_perform D ncl op b : quiet ncl op -> perform D op b = [go D op b].
Proof. destruct op; cbn; try reflexivity. intros []. Qed.
Lemma go_run D ncl ops : forall E, Forall (quiet ncl) ops -> run D ops E = map (go_all D ops) E.
Proof.
  induction ops as [|op ops IH]; intros E HF; [cbn; now rewrite map_id|]. inversion HF; subst. change (run D (op :: ops) E) with (run D ops (flat_map (perform D op) E)). rewrite IH by assumption.
  replace (flat_map (perform D op) E) with (map (go D op) E); [rewrite map_map; reflexivity|]. clear - H1. induction E as [|b E IH]; [reflexivity|]. cbn [map flat_map]. now rewrite (go_perform D ncl op b H1), IH.
Qed.
Lemma same_b_refl D b : same_b D b b. Proof. now repeat split. Qed.
Lemma same_b_trans D a b c : same_b D a b -> same_b D b c -> same_b D a c.
Proof. intros (H1 & H2 & H3) (H4 & H5 & H6). split; [congruence|]. split; [congruence|]. intros f V. now rewrite H3, H6. Qed.
Lemma evolve_ext D T w w' g : (forall f, valid D f -> w f = w' f) -> evolve D T w g = evolve D T w' g.
Proof. intro H. apply Csum_ext. intros f Hf. apply basis_in in Hf. now rewrite H. Qed.
Lemma go_same D ncl op b b' : quiet ncl op -> same_b D b b' -> same_b D (go D op b) (go D op b').
Proof.
  intros Hq (H1 & H2 & H3). destruct op as [A h v|T|F|opt cl]; [| | |destruct Hq]; unfold go; cbn [perform]; split; cbn [b_label b_reg b_wave]; try assumption; (split; [congruence|]); intros f V; try rewrite H2; try now apply evolve_ext. now apply H3.
Qed.
Lemma go_all_same D ncl ops : forall b b', Forall (quiet ncl) ops -> same_b D b b' -> same_b D (go_all D ops b) (go_all D ops b').
Proof. induction ops as [|op ops IH]; intros b b' HF H; [exact H|]. inversion HF; subst. apply IH; [assumption|]. now apply (go_same D ncl). Qed.
Lemma go_len D ncl op b : quiet ncl op -> length (b_reg b) = ncl -> length (b_reg (go D op b)) = ncl.
Proof. destruct op; cbn; auto. intros []. Qed.
Lemma go_all_len D ncl ops : forall b, Forall (quiet ncl) ops -> length (b_reg b) = ncl -> length (b_reg (go_all D ops b)) = ncl.
Proof. induction ops as [|op ops IH]; intros b HF H; [exact H|]. inversion HF; subst. apply IH; [assumption|]. now apply go_len. Qed.
Lemma go_all_app D a b x : go_all D (a ++ b) x = go_all D b (go_all D a x).
Proof. unfold go_all. apply fold_left_app. Qed.

Definition undoes (D : dims) (ncl : nat) (ops ops' : list operation) : Prop :=
  Forall (quiet ncl) ops /\ Forall (quiet ncl) ops' /\ forall b, length (b_reg b) = ncl -> same_b D (go_all D (ops ++ ops') b) b.
Lemma undoes_nest D ncl a a' b b' : undoes D ncl a a' -> undoes D ncl b b' -> undoes D ncl (a ++ b) (b' ++ a').
Proof.
  intros (Q1 & Q1' & H1) (Q2 & Q2' & H2). split; [now apply Forall_app|]. split; [now apply Forall_app|]. intros x Hx.
  replace ((a ++ b) ++ b' ++ a') with (a ++ (b ++ b') ++ a') by (now rewrite !app_assoc). rewrite !go_all_app.
  apply same_b_trans with (go_all D a' (go_all D a x)); [|rewrite <- go_all_app; now apply H1]. apply (go_all_same D ncl); [exact Q1'|]. rewrite <- go_all_app. apply H2. now apply go_all_len.
Qed.
Lemma undoes_nil D ncl : undoes D ncl [] [].
Proof. split; [constructor|]. split; [constructor|]. intros. apply same_b_refl. Qed.

Definition delta (f g : values) : C := if leqb f g then RtoC 1 else RtoC 0.
Lemma evolve_evolve D T T' w g : (forall f g, valid D f -> valid D g -> Csum (basis D) (fun k => T f k * T' k g)%C = delta f g) -> valid D g -> evolve D T' (evolve D T w) g = w g.
Proof.
  intros H V. unfold evolve. transitivity (Csum (basis D) (fun f => Csum (basis D) (fun k => T f k * T' k g)%C * w f)%C).
  - transitivity (Csum (basis D) (fun k => Csum (basis D) (fun f => T f k * T' k g * w f)%C)); [|rewrite Csum_swap; apply Csum_ext; intros f _; now rewrite <- Csum_scal_r].
    apply Csum_ext. intros k _. rewrite <- Csum_scal_l. apply Csum_ext. intros f _. ring.
  - rewrite (Csum_single _ g); [|apply basis_nodup|now apply basis_in|].
    + rewrite H by assumption. unfold delta. rewrite leqb_refl. ring.
    + intros f Hf Hn. apply basis_in in Hf. rewrite H by assumption. unfold delta. destruct (leqb f g) eqn:E; [apply leqb_spec in E; congruence|]. ring.
Qed.
Lemma generic_opposite t p : generic_matrix t (- p) = mat2_adj (generic_matrix t p).
Proof.
  unfold generic_matrix, mat2_adj. rewrite cos_neg, sin_neg. cbn [m00 m01 m10 m11]. f_equal; apply C_eq; cbn; ring.
Qed.
Lemma generic_half t : generic_matrix t (- PI) = generic_matrix t PI.
Proof. unfold generic_matrix. rewrite cos_neg, sin_neg, sin_PI, Ropp_0. reflexivity. Qed.
Lemma generic_cancel t p : mat2_mul (generic_matrix t (- p)) (generic_matrix t p) = mat2_id.
Proof. rewrite generic_opposite. apply (proj2 (generic_unitary t p)). Qed.
Lemma pair_undone D t p h v f g : h <> v -> h < dN D -> v < dN D -> valid D f -> valid D g ->
  Csum (basis D) (fun k => pair_amp D (generic_matrix t p) h v f k * pair_amp D (generic_matrix t (- p)) h v k g)%C = delta f g.
Proof. intros. rewrite pair_compose by assumption. rewrite generic_cancel. now apply pair_id. Qed.
Lemma undoes_plate D ncl t p h v : two_channels D h v -> undoes D ncl [plate t p h v] [plate t (- p) h v].
Proof.
  intros (H1 & H2 & H3). split; [repeat constructor|]. split; [repeat constructor|]. intros b Hb. unfold go_all, go. cbn. split; [reflexivity|]. split; [reflexivity|]. intros f V. cbn [b_wave]. apply evolve_evolve; [|exact V]. intros. now apply pair_undone.
Qed.
Lemma undoes_half D ncl t h v : two_channels D h v -> undoes D ncl [plate t PI h v] [plate t PI h v].
Proof. intro H. pose proof (undoes_plate D ncl t PI h v H) as X. unfold plate in X at 2. rewrite generic_half in X. exact X. Qed.
Lemma undoes_optics D ncl call : 2 <= dN D -> accepted D ncl (Optics call) -> undoes D ncl (optics_meaning call) (optics_meaning (undo_optics call)).
Proof.
  intros HN H. assert (crossed : forall a b, two_channels D a b -> two_channels D (Nat.min a b) (Nat.max a b)) by (intros a b; unfold two_channels; lia).
  destruct call; cbn [accepted valid_call optics_meaning undo_optics] in *; try (apply undoes_plate; exact H); try (apply undoes_half; exact H).
  - apply undoes_plate. unfold two_channels, partner. destruct (Nat.eqb_spec c 0); lia.
  - apply undoes_half. now apply crossed.
  - apply undoes_half. apply H.
  - apply undoes_half. now apply crossed.
  - apply (undoes_nest D ncl [_] [_] [_] [_]); apply undoes_half; apply H.
  - apply (undoes_nest D ncl [_] [_] [_] [_]); apply undoes_half; apply H.
Qed.

(** Relabelling and back. *)
Lemma evolve_relabel D (F G : values -> values) w g : (forall f, valid D f -> valid D (F f)) -> (forall f, valid D f -> F (G f) = f) -> (forall f, valid D f -> G (F f) = f) -> (forall f, valid D f -> valid D (G f)) -> valid D g ->
  evolve D (fun f g => if leqb g (F f) then RtoC 1 else RtoC 0) w g = w (G g).
Proof.
  intros VF FG GF VG V. unfold evolve. rewrite (Csum_single _ (G g)); [|apply basis_nodup|apply basis_in; now apply VG|].
  - rewrite FG, leqb_refl by exact V. ring.
  - intros f Hf Hn. apply basis_in in Hf. destruct (leqb g (F f)) eqn:E; [|ring]. apply leqb_spec in E. exfalso. apply Hn. rewrite E. now rewrite GF.
Qed.
Fixpoint iter_v (n : nat) (F : values -> values) (f : values) : values := match n with 0 => f | S n => iter_v n F (F f) end.
Lemma relabel_step D (F G : values -> values) b g : (forall f, valid D f -> valid D (F f)) -> (forall f, valid D f -> F (G f) = f) -> (forall f, valid D f -> G (F f) = f) -> (forall f, valid D f -> valid D (G f)) -> valid D g ->
  b_wave (go D (relabel F) b) g = b_wave b (G g).
Proof. intros. unfold go, relabel. cbn. now apply evolve_relabel. Qed.
Lemma relabel_kept D F b : b_label (go D (relabel F) b) = b_label b /\ b_reg (go D (relabel F) b) = b_reg b.
Proof. split; reflexivity. Qed.
Lemma undoes_relabel D ncl F G : (forall f, valid D f -> valid D (F f)) -> (forall f, valid D f -> F (G f) = f) -> (forall f, valid D f -> G (F f) = f) -> (forall f, valid D f -> valid D (G f)) -> undoes D ncl [relabel F] [relabel G].
Proof.
  intros VF FG GF VG. split; [repeat constructor|]. split; [repeat constructor|]. intros b Hb. split; [reflexivity|]. split; [reflexivity|]. intros f V.
  change (b_wave (go D (relabel G) (go D (relabel F) b)) f = b_wave b f). rewrite (relabel_step D G F) by assumption. rewrite (relabel_step D F G) by auto. now rewrite GF.
Qed.
Lemma relabel_repeat D (F G : values -> values) n : (forall f, valid D f -> valid D (F f)) -> (forall f, valid D f -> F (G f) = f) -> (forall f, valid D f -> G (F f) = f) -> (forall f, valid D f -> valid D (G f)) ->
  forall b, let b' := go_all D (repeat (relabel F) n) b in b_label b' = b_label b /\ b_reg b' = b_reg b /\ forall g, valid D g -> b_wave b' g = b_wave b (iter_v n G g).
Proof.
  intros VF FG GF VG. induction n as [|n IH]; intros b; [now repeat split|]. cbn [repeat]. change (go_all D (relabel F :: repeat (relabel F) n) b) with (go_all D (repeat (relabel F) n) (go D (relabel F) b)).
  destruct (IH (go D (relabel F) b)) as (H1 & H2 & H3). cbv zeta. split; [exact H1|]. split; [exact H2|]. intros g V. rewrite H3 by exact V. 
  assert (VI : forall m g, valid D g -> valid D (iter_v m G g)) by (induction m; intros; cbn; auto). rewrite (relabel_step D F G) by auto.
  f_equal. clear. revert g. induction n as [|n IH]; intro g; [reflexivity|]. cbn [iter_v]. exact (IH (G g)).
Qed.

(** Shifts. *)
Lemma shift_valid D pairs f : 1 <= dL D -> valid D f -> valid D (shift_of (dL D) pairs f).
Proof.
  intros HL [Hl HF]. split; [unfold shift_of; now rewrite map_length, seq_length|]. unfold shift_of. apply Forall_forall. intros x Hx. apply in_map_iff in Hx. destruct Hx as (c & <- & _).
  pose proof (Z.mod_pos_bound (Z.of_nat (nth c f 0) + total_shift pairs c) (Z.of_nat (dL D)) ltac:(lia)). lia.
Qed.
Lemma nth_seq_map (F : nat -> nat) n c : c < n -> nth c (map F (seq 0 n)) 0 = F c.
Proof. intro H. rewrite (nth_indep _ 0 (F 0)) by (now rewrite map_length, seq_length). rewrite (map_nth F), seq_nth by exact H. reflexivity. Qed.
Lemma total_shift_opp pairs c : total_shift (map (fun p => (Z.opp (fst p), snd p)) pairs) c = Z.opp (total_shift pairs c).
Proof. induction pairs as [|[s t] r IH]; [reflexivity|]. cbn [map total_shift fst snd]. rewrite IH. destruct (t =? c); lia. Qed.
Lemma shift_back D pairs f (t : nat -> Z) : 1 <= dL D -> valid D f -> (forall c, t c = Z.opp (total_shift pairs c)) ->
  forall pairs', (forall c, total_shift pairs' c = t c) -> shift_of (dL D) pairs' (shift_of (dL D) pairs f) = f.
Proof.
  intros HL [Hl HF] Ht pairs' Ht'. apply (nth_ext _ _ 0 0); [unfold shift_of; now rewrite !map_length, !seq_length|]. unfold shift_of. rewrite !map_length, !seq_length. intros c Hc. rewrite nth_seq_map by exact Hc. rewrite nth_seq_map by exact Hc.
  rewrite Ht', Ht. pose proof (Z.mod_pos_bound (Z.of_nat (nth c f 0) + total_shift pairs c) (Z.of_nat (dL D)) ltac:(lia)). rewrite Z2Nat.id by lia. rewrite Zplus_mod_idemp_l.
  replace (Z.of_nat (nth c f 0%nat) + total_shift pairs c + - total_shift pairs c)%Z with (Z.of_nat (nth c f 0%nat)) by lia.
  assert (nth c f 0 < dL D) by (rewrite Forall_forall in HF; apply HF, nth_In; exact Hc). rewrite Z.mod_small by lia. apply Nat2Z.id.
Qed.
Lemma combine_map_l {A B C} (F : A -> C) (l : list A) : forall (m : list B), combine (map F l) m = map (fun p => (F (fst p), snd p)) (combine l m).
Proof. induction l as [|x l IH]; intros [|y m]; cbn; try reflexivity. now rewrite IH. Qed.
Lemma undoes_shift D ncl targets shifts : 1 <= dL D ->
  undoes D ncl [relabel (shift_of (dL D) (combine shifts targets))] [relabel (shift_of (dL D) (combine (map Z.opp shifts) targets))].
Proof.
  intro HL. rewrite combine_map_l. apply undoes_relabel; intros f V; try now apply shift_valid.
  - apply (shift_back D _ f (total_shift (combine shifts targets))); try assumption; [|reflexivity]. intro c. rewrite total_shift_opp. lia.
  - apply (shift_back D _ f (fun c => Z.opp (total_shift (combine shifts targets) c))); try assumption; [reflexivity|]. intro c. apply total_shift_opp.
Qed.

(** Controlled shifts. *)
Section Controlled.
Variables (D : dims) (pairs : list (nat * nat)).
Hypothesis (HL : 1 <= dL D) (HS : forall p q, In p pairs -> In q pairs -> fst p <> snd q).
Definition plus_times (n : nat) (f : values) : values := map (fun c => (nth c f 0 + n * total_control pairs f c) mod dL D) (seq 0 (length f)).
Lemma plus_valid n f : valid D f -> valid D (plus_times n f).
Proof.
  intros [Hl HF]. split; [unfold plus_times; now rewrite map_length, seq_length|]. unfold plus_times. apply Forall_forall. intros x Hx. apply in_map_iff in Hx. destruct Hx as (c & <- & _). apply Nat.mod_upper_bound. lia.
Qed.
Lemma total_zero ps f c : (forall p, In p ps -> snd p <> c) -> total_control ps f c = 0.
Proof. induction ps as [|p ps IH]; intro H; [reflexivity|]. cbn [total_control]. rewrite IH by (intros q Hq; apply H; now right). destruct (Nat.eqb_spec (snd p) c) as [E|]; [|reflexivity]. exfalso. apply (H p); [now left|exact E]. Qed.
Lemma total_same ps f g c : (forall p, In p ps -> nth (fst p) f 0 = nth (fst p) g 0) -> total_control ps f c = total_control ps g c.
Proof. induction ps as [|p ps IH]; intro H; [reflexivity|]. cbn [total_control]. rewrite IH by (intros q Hq; apply H; now right). now rewrite (H p) by (now left). Qed.
Lemma plus_control n f : valid D f -> forall p, In p pairs -> nth (fst p) (plus_times n f) 0 = nth (fst p) f 0.
Proof.
  intros [Hl HF] p Hp. destruct (Nat.lt_ge_cases (fst p) (length f)) as [Hlt|Hge].
  - unfold plus_times. rewrite nth_seq_map by exact Hlt. rewrite total_zero by (intros q Hq E; now apply (HS p q Hp Hq)). rewrite Nat.mul_0_r, Nat.add_0_r. apply Nat.mod_small. rewrite Forall_forall in HF. apply HF, nth_In; exact Hlt.
  - rewrite !nth_overflow; [reflexivity|exact Hge|unfold plus_times; now rewrite map_length, seq_length].
Qed.
Lemma plus_plus n m f : valid D f -> plus_times n (plus_times m f) = plus_times (n + m) f.
Proof.
  intro V. assert (Hl : length (plus_times m f) = length f) by (unfold plus_times; now rewrite map_length, seq_length). unfold plus_times at 1 3. rewrite Hl. apply map_ext_in. intros c Hc. apply in_seq in Hc.
  rewrite (total_same pairs (plus_times m f) f) by (now apply plus_control). unfold plus_times. rewrite nth_seq_map by lia. rewrite Nat.add_mod_idemp_l by lia. f_equal. lia.
Qed.
Lemma plus_full n f : valid D f -> plus_times (n * dL D) f = f.
Proof.
  intros [Hl HF]. apply (nth_ext _ _ 0 0); [unfold plus_times; now rewrite map_length, seq_length|]. unfold plus_times. rewrite map_length, seq_length. intros c Hc. rewrite nth_seq_map by exact Hc.
  replace (nth c f 0 + n * dL D * total_control pairs f c) with (nth c f 0 + (n * total_control pairs f c) * dL D) by lia. rewrite Nat.mod_add by lia. apply Nat.mod_small. rewrite Forall_forall in HF. apply HF, nth_In; exact Hc.
Qed.
Lemma plus_one f : sum_of (dL D) pairs f = plus_times 1 f.
Proof. unfold sum_of, plus_times. apply map_ext. intro c. now rewrite Nat.mul_1_l. Qed.
Lemma undoes_control ncl : undoes D ncl [relabel (sum_of (dL D) pairs)] (repeat (relabel (sum_of (dL D) pairs)) (dL D - 1)).
Proof.
  split; [repeat constructor|]. split; [apply Forall_forall; intros x Hx; apply repeat_spec in Hx; subst; exact I|]. intros b Hb.
  change ([relabel (sum_of (dL D) pairs)] ++ repeat (relabel (sum_of (dL D) pairs)) (dL D - 1)) with (repeat (relabel (sum_of (dL D) pairs)) (S (dL D - 1))). replace (S (dL D - 1)) with (dL D) by lia.
  destruct (relabel_repeat D (sum_of (dL D) pairs) (plus_times (dL D - 1)) (dL D)) with (b := b) as (H1 & H2 & H3).
  - intros f V. rewrite plus_one. now apply plus_valid.
  - intros f V. rewrite plus_one, plus_plus by exact V. replace (1 + (dL D - 1)) with (1 * dL D) by lia. now apply plus_full.
  - intros f V. rewrite plus_one, plus_plus by exact V. replace (dL D - 1 + 1) with (1 * dL D) by lia. now apply plus_full.
  - intros f V. now apply plus_valid.
  - split; [exact H1|]. split; [exact H2|]. intros f V. rewrite H3 by exact V. f_equal.
    assert (EI : forall n g, valid D g -> iter_v n (plus_times (dL D - 1)) g = plus_times (n * (dL D - 1)) g).
    { induction n as [|n IH]; intros g Vg; [cbn [iter_v Nat.mul]; symmetry; exact (plus_full 0 g Vg)|]. cbn [iter_v]. rewrite IH by (now apply plus_valid). rewrite plus_plus by exact Vg. f_equal. lia. }
    rewrite EI by exact V. rewrite Nat.mul_comm. now apply plus_full.
Qed.
End Controlled.

(** Controlled elements. *)
Definition negated (cl : nat) (reg : list R) : list R := map (fun c => if c =? cl then (- nth c reg 0)%R else nth c reg 0%R) (seq 0 (length reg)).
Lemma negated_length cl reg : length (negated cl reg) = length reg.
Proof. unfold negated. now rewrite map_length, seq_length. Qed.
Lemma negated_nth cl reg c : nth c (negated cl reg) 0%R = if c =? cl then (- nth c reg 0)%R else nth c reg 0%R.
Proof.
  destruct (Nat.lt_ge_cases c (length reg)) as [Hlt|Hge].
  - unfold negated. set (F := fun c => _). rewrite (nth_indep _ 0%R (F 0)) by (now rewrite map_length, seq_length). rewrite (map_nth F), seq_nth by exact Hlt. reflexivity.
  - rewrite !nth_overflow; [destruct (c =? cl); ring|exact Hge|now rewrite negated_length].
Qed.
Lemma negated_twice cl reg : negated cl (negated cl reg) = reg.
Proof. apply (nth_ext _ _ 0%R 0%R); [now rewrite !negated_length|]. intros c _. rewrite !negated_nth. destruct (c =? cl); ring. Qed.
Lemma undoes_controlled D ncl (th ph : list R -> R) cl h v : two_channels D h v ->
  (forall reg, th (negated cl reg) = th reg) -> (forall reg, ph (negated cl reg) = (- ph reg)%R) ->
  undoes D ncl [Element (fun reg => generic_matrix (th reg) (ph reg)) h v]
    [Compute (negated cl); Element (fun reg => generic_matrix (th reg) (ph reg)) h v; Compute (negated cl)].
Proof.
  intros (H1 & H2 & H3) Ht Hp. split; [repeat constructor|]. split; [repeat constructor; cbn; intros r Hr; now rewrite negated_length|]. intros b Hb. unfold go_all, go. cbn. split; [reflexivity|]. cbn [b_reg b_wave].
  split; [apply negated_twice|]. intros f V. fold (negated cl (b_reg b)). rewrite Ht, Hp. apply evolve_evolve; [|exact V]. intros. now apply pair_undone.
Qed.
(** Matrices given by the user. *)
Lemma undoes_element D ncl A h v : two_channels D h v -> unitary2 A -> undoes D ncl [Element (fun _ => mat2_tr A) h v] [Element (fun _ => mat2_tr (mat2_adj A)) h v].
Proof.
  intros (H1 & H2 & H3) [HU _]. split; [repeat constructor|]. split; [repeat constructor|]. intros b Hb. unfold go_all, go. cbn. split; [reflexivity|]. split; [reflexivity|]. intros f V. cbn [b_wave]. apply evolve_evolve; [|exact V].
  intros k g Vk Vg. rewrite pair_compose by assumption. replace (mat2_mul (mat2_tr (mat2_adj A)) (mat2_tr A)) with mat2_id; [now apply pair_id|].
  pose proof (f_equal m00 HU) as E1. pose proof (f_equal m01 HU) as E2. pose proof (f_equal m10 HU) as E3. pose proof (f_equal m11 HU) as E4. unfold mat2_mul, mat2_id, mat2_adj, mat2_tr in *. cbn [m00 m01 m10 m11] in *.
  f_equal; [rewrite <- E1|rewrite <- E3|rewrite <- E2|rewrite <- E4]; ring.
Qed.
Lemma undoes_matrix D ncl M : 1 <= dL D -> unitary_mat (size_of_basis D) M ->
  undoes D ncl [Transform (fun f g => M (index_of_values D g) (index_of_values D f))] [Transform (fun f g => Cconj (M (index_of_values D f) (index_of_values D g)))].
Proof.
  intros HL HU. split; [repeat constructor|]. split; [repeat constructor|]. intros b Hb. unfold go_all, go. cbn. split; [reflexivity|]. split; [reflexivity|]. intros f V. cbn [b_wave]. apply evolve_evolve; [|exact V].
  intros k g Vk Vg. exact (unitary_isometric D M (fun f g => M (index_of_values D g) (index_of_values D f)) k g HL HU ltac:(reflexivity) Vk Vg).
Qed.
Lemma adjoint_unitary2 A : unitary2 A -> unitary2 (mat2_adj A).
Proof. intros [H1 H2]. unfold unitary2. replace (mat2_adj (mat2_adj A)) with A; [now split|]. destruct A as [a b c d]. unfold mat2_adj. cbn. now rewrite !Cconj_invol. Qed.
Lemma adjoint_unitary d (M : mat) : unitary_mat d M -> unitary_mat d (fun i j => Cconj (M j i)).
Proof.
  intros H i j Hi Hj. destruct (H i j Hi Hj) as [H1 H2]. split.
  - rewrite <- H2. apply Csum_ext. intros k _. now rewrite Cconj_invol.
  - rewrite <- H1. apply Csum_ext. intros k _. now rewrite Cconj_invol.
Qed.
Lemma undoes_call D ncl i : 1 <= dL D -> 2 <= dN D -> reversible i -> careful D ncl i -> accepted D ncl i ->
  undoes D ncl (meaning D i) (flat_map (meaning D) (undo_call D i)).
Proof.
  intros HL HN HR HC HA. destruct i as [call|c cl|h v ct cp|vals chs|fn nv chs|opt cl|targets shifts|controls targets|A h v|M]; cbn [reversible meaning undo_call flat_map] in *; try contradiction.
  - rewrite app_nil_r. now apply (undoes_optics D ncl).
  - cbn [accepted] in HA. change (undoes D ncl [Element (fun reg => generic_matrix 0 (nth cl reg 0%R)) (partner c) c] [Compute (negated cl); Element (fun reg => generic_matrix 0 (nth cl reg 0%R)) (partner c) c; Compute (negated cl)]).
    apply (undoes_controlled D ncl (fun _ => 0%R) (fun reg => nth cl reg 0%R)); [unfold two_channels, partner; destruct (Nat.eqb_spec c 0); lia|reflexivity|]. intro reg. rewrite negated_nth, Nat.eqb_refl. reflexivity.
  - cbn [accepted] in HA. change (undoes D ncl [Element (fun reg => generic_matrix (nth ct reg 0%R) (nth cp reg 0%R)) h v] [Compute (negated cp); Element (fun reg => generic_matrix (nth ct reg 0%R) (nth cp reg 0%R)) h v; Compute (negated cp)]).
    apply (undoes_controlled D ncl (fun reg => nth ct reg 0%R) (fun reg => nth cp reg 0%R)); [apply HA| |]; intro reg; rewrite negated_nth; [destruct (Nat.eqb_spec ct cp); [contradiction|reflexivity]|now rewrite Nat.eqb_refl].
  - cbn [app]. now apply undoes_shift.
  - replace (flat_map (meaning D) (repeat (Control_shift controls targets) (dL D - 1))) with (repeat (relabel (sum_of (dL D) (combine controls targets))) (dL D - 1)); [now apply undoes_control|].
    generalize (dL D - 1). intro n. induction n as [|n IH]; [reflexivity|]. cbn [repeat flat_map meaning app]. now rewrite IH.
  - cbn [app careful accepted valid_call] in *. now apply (undoes_element D ncl A h v).
  - cbn [app careful] in *. now apply undoes_matrix.
Qed.
Lemma undo_cons D i p : undo D (i :: p) = undo D p ++ undo_call D i.
Proof. unfold undo. cbn [rev]. rewrite flat_map_app. cbn [flat_map]. now rewrite app_nil_r. Qed.
Lemma undoes_program D ncl p : 1 <= dL D -> 2 <= dN D -> Forall reversible p -> Forall (careful D ncl) p -> Forall (accepted D ncl) p ->
  undoes D ncl (flat_map (meaning D) p) (flat_map (meaning D) (undo D p)).
Proof.
  intros HL HN HR HC HA. induction p as [|i p IH]; [apply undoes_nil|]. inversion HR; inversion HC; inversion HA; subst. cbn [flat_map]. rewrite undo_cons, flat_map_app.
  apply undoes_nest; [cbn [flat_map]|now apply IH]. now apply undoes_call.
Qed.
Lemma undo_fine D ncl i : 1 <= dL D -> 2 <= dN D -> reversible i -> careful D ncl i -> accepted D ncl i -> Forall (careful D ncl) (undo_call D i) /\ Forall (accepted D ncl) (undo_call D i).
Proof.
  intros HL HN HR HC HA. destruct i as [call|c cl|h v ct cp|vals chs|fn nv chs|opt cl|targets shifts|controls targets|A h v|M]; cbn [reversible undo_call] in *; try contradiction.
  - destruct call; cbn [careful accepted valid_call undo_optics] in *; (split; [constructor; [cbn [careful]; tauto|constructor]|constructor; [cbn [accepted valid_call]; tauto|constructor]]).
  - assert (forall r, length (negated cl r) = length r) by (apply negated_length).
    split; repeat (apply Forall_cons || apply Forall_nil); try assumption; try exact I; cbn [negate careful]; intros r Hr; fold (negated cl r); now rewrite negated_length.
  - split; repeat (apply Forall_cons || apply Forall_nil); try assumption; try exact I; cbn [negate careful]; intros r Hr; fold (negated cp r); now rewrite negated_length.
  - split; (apply Forall_cons; [|apply Forall_nil]); [exact I|]. cbn [accepted] in *. cbv zeta in *. now rewrite map_length.
  - split; apply Forall_forall; intros x Hx; apply repeat_spec in Hx; now subst.
  - cbn [careful accepted valid_call] in *. split; (apply Forall_cons; [|apply Forall_nil]); [|exact HA]. split; [|apply HC]. now apply (adjoint_unitary2 A).
  - cbn [careful accepted valid_call] in *. split; (apply Forall_cons; [|apply Forall_nil]); [|exact I]. now apply adjoint_unitary.
Qed.
Lemma program_accepted D ncl p nodes : 2 <= dN D -> program_nodes D ncl p = Some nodes -> Forall (accepted D ncl) p.
Proof.
  intros HN E. apply Forall_forall. intros i Hi. destruct (nodes_of D ncl i) as [a|] eqn:Ea; [apply C73_accepted; [exact HN|now exists a]|]. exfalso.
  enough (program_nodes D ncl p = None) by congruence. apply C73_refused; [exact HN|]. exists i. split; [exact Hi|]. intro H. apply C73_accepted in H; [|exact HN]. destruct H as [a H]. congruence.
Qed.
Lemma accepted_program D ncl p : 2 <= dN D -> Forall (accepted D ncl) p -> exists nodes, program_nodes D ncl p = Some nodes.
Proof.
  intros HN HF. destruct (program_nodes D ncl p) as [nodes|] eqn:E; [now exists nodes|]. exfalso. apply C73_refused in E; [|exact HN]. destruct E as (i & Hi & Hn). rewrite Forall_forall in HF. now apply Hn, HF.
Qed.
Lemma undo_builds D ncl p : 1 <= dL D -> 2 <= dN D -> Forall reversible p -> Forall (careful D ncl) p -> Forall (accepted D ncl) p -> Forall (careful D ncl) (undo D p) /\ Forall (accepted D ncl) (undo D p).
Proof.
  intros HL HN HR HC HA. induction p as [|i p IH]; [split; constructor|]. inversion HR; inversion HC; inversion HA; subst. rewrite undo_cons. destruct IH as [I1 I2]; try assumption. destruct (undo_fine D ncl i) as [J1 J2]; try assumption. split; now apply Forall_app.
Qed.
Lemma program_app D ncl p q a b : program_nodes D ncl p = Some a -> program_nodes D ncl q = Some b -> program_nodes D ncl (p ++ q) = Some (a ++ b).
Proof.
  revert a. induction p as [|i p IH]; intros a Ea Eb; [cbn in Ea; injection Ea as <-; exact Eb|]. cbn [program_nodes app] in *. destruct (nodes_of D ncl i) as [x|]; [|discriminate]. destruct (program_nodes D ncl p) as [y|]; [|discriminate]. injection Ea as <-. rewrite (IH y eq_refl Eb). now rewrite app_assoc.
Qed.
Lemma expect1_same D b b' o : same_b D b b' -> expect1 D o b = expect1 D o b'.
Proof. intros (H1 & H2 & H3). unfold expect1. rewrite H1, H2. apply Csum_ext. intros f Hf. apply Csum_ext. intros g Hg. apply basis_in in Hf, Hg. now rewrite !H3. Qed.
Lemma nonzero_branches D ncl its : 1 <= dL D -> proper_items D ncl its -> forall b, In b (branches_of D its) -> nonzero D b = true.
Proof.
  intros HL (_ & _ & HF) b Hb. unfold branches_of in Hb. apply in_map_iff in Hb. destruct Hb as (it & <- & Hit). rewrite Forall_forall in HF. specialize (HF it Hit). unfold nonzero. rewrite (branch_weight D ncl (snd it) HL HF).
  destruct HF as (_ & _ & _ & Hc & _). destruct (Req_EM_T _ _); [lra|reflexivity].
Qed.

(** ** C74 *)
(** A circuit without measurements and assignments can be followed by the calls that undo it, and every
    state comes back exactly. *)
Theorem C74_undo : forall D ncl full p nodes its X rnd, 1 <= dL D -> 2 <= dN D ->
  program_nodes D ncl p = Some nodes -> Forall (careful D ncl) p -> Forall reversible p -> proper_items D ncl its ->
  exists back, program_nodes D ncl (undo D p) = Some back /\
  exists eps0, (0 < eps0)%R /\ forall eps, (0 < eps <= eps0)%R ->
  let c := Circuit D ncl eps full (fresh_keys D) (nodes ++ back) in
  exists its', evaluate_circuit X rnd c (coll_of c its) = Ok (coll_of c its') /\ same_branches D (branches_of D its') (branches_of D its).
Proof.
  intros D ncl full p nodes its X rnd HL HN E HC HR Hp. pose proof (program_accepted D ncl p nodes HN E) as HA.
  destruct (undo_builds D ncl p HL HN HR HC HA) as [UC UA]. destruct (accepted_program D ncl _ HN UA) as [back Eb]. exists back. split; [exact Eb|].
  destruct (C62_program D ncl full (p ++ undo D p) (nodes ++ back) its X rnd HL HN) as (e & He & H); try assumption; [now apply program_app|now apply Forall_app|].
  exists e. split; [exact He|]. intros eps Heps c. destruct (H eps Heps) as (its' & Ev & Pi & Hs). exists its'. split; [exact Ev|].
  destruct (undoes_program D ncl p HL HN HR HC HA) as (Q1 & Q2 & Hu). rewrite flat_map_app, (go_run D ncl) in Hs by (now apply Forall_app).
  pose proof (proper_registers D ncl its Hp) as Hreg. pose proof (nonzero_branches D ncl its HL Hp) as Hnz. revert Hreg Hnz Hs. generalize (branches_of D its') as E'. generalize (branches_of D its). clear - Hu.
  set (G := go_all D (flat_map (meaning D) p ++ flat_map (meaning D) (undo D p))) in *. intros Es E' Hreg Hnz (E1 & HP & HF).
  assert (EF : filter (nonzero D) (map G Es) = map G Es).
  { clear HP HF. induction Es as [|b Es IH]; [reflexivity|]. cbn [map filter]. rewrite IH by (intros x Hx; first [apply Hreg|apply Hnz]; now right).
    enough (nonzero D (G b) = true) as -> by reflexivity. rewrite <- (Hnz b (or_introl eq_refl)). unfold nonzero. replace (weight D (G b)) with (weight D b); [reflexivity|]. unfold weight. apply Rsum_ext. intros f Hf. apply basis_in in Hf. f_equal. symmetry. apply Hu; [now apply Hreg; left|exact Hf]. }
  rewrite EF in HP. clear EF.
  apply Permutation_map_inv in HP. destruct HP as (Es2 & -> & HP). exists Es2. split; [now apply Permutation_sym|].
  assert (HR2 : forall b, In b Es2 -> length (b_reg b) = ncl) by (intros b Hb; apply Hreg; eapply Permutation_in; [apply Permutation_sym; exact HP|exact Hb]).
  clear - HF Hu HR2. revert E' HF. induction Es2 as [|b Es2 IH]; intros E' HF; inversion HF as [|x y ? ? H1 H2]; subst; constructor.
  - destruct H1 as (A1 & A2 & A3). destruct (Hu b (HR2 b (or_introl eq_refl))) as (B1 & B2 & B3). fold (G b) in B1, B2, B3. split; [congruence|]. split; [congruence|]. intros f V. rewrite A3, <- B3 by exact V. reflexivity.
  - apply IH; [intros c Hc; apply HR2; now right|assumption].
Qed.

(** The same inside a larger circuit: what is done and undone in the middle leaves no trace. *)
Theorem C74_inside : forall D ncl full pre p post n1 n2 n3 its X rnd rnd2, 1 <= dL D -> 2 <= dN D ->
  program_nodes D ncl pre = Some n1 -> program_nodes D ncl p = Some n2 -> program_nodes D ncl post = Some n3 ->
  Forall (careful D ncl) pre -> Forall (careful D ncl) p -> Forall (careful D ncl) post -> Forall reversible p -> proper_items D ncl its ->
  exists back, program_nodes D ncl (undo D p) = Some back /\
  exists eps0, (0 < eps0)%R /\ forall eps, (0 < eps <= eps0)%R ->
    let c := Circuit D ncl eps full (fresh_keys D) (n1 ++ (n2 ++ back) ++ n3) in let c2 := Circuit D ncl eps full (fresh_keys D) (n1 ++ n3) in
    exists out out2, evaluate_circuit X rnd c (coll_of c its) = Ok (coll_of c out) /\ evaluate_circuit X rnd2 c2 (coll_of c2 its) = Ok (coll_of c2 out2) /\ indistinguishable D out out2.
Proof.
  intros D ncl full pre p post n1 n2 n3 its X rnd rnd2 HL HN E1 E2 E3 C1 C2 C3 HR Hp. pose proof (program_accepted D ncl p n2 HN E2) as HA.
  destruct (undo_builds D ncl p HL HN HR C2 HA) as [UC UA]. destruct (accepted_program D ncl _ HN UA) as [back Eb]. exists back. split; [exact Eb|].
  pose proof (program_means D ncl HL HN pre n1 E1 C1) as M1. pose proof (program_means D ncl HL HN post n3 E3 C3) as M3.
  pose proof (Forall2_app (program_means D ncl HL HN p n2 E2 C2) (program_means D ncl HL HN _ back Eb UC)) as M2.
  destruct (undoes_program D ncl p HL HN HR C2 HA) as (Q1 & Q2 & Hu). set (ops := flat_map (meaning D) p ++ flat_map (meaning D) (undo D p)) in *.
  apply (two_circuits D ncl full _ (flat_map (meaning D) pre ++ ops ++ flat_map (meaning D) post) _ (flat_map (meaning D) pre ++ [] ++ flat_map (meaning D) post)); try assumption;
    [apply Forall2_app; [exact M1|]; apply Forall2_app; [exact M2|exact M3]|apply Forall2_app; [exact M1|exact M3]|].
  intros out out2 P1 P2 F1 F2. apply (indistinguishable_expect D ncl); try assumption. intro o. rewrite F1, F2, !before_all_app. rewrite <- !(expect_run D (flat_map (meaning D) pre)).
  assert (HI : registers ncl (run D (flat_map (meaning D) pre) (branches_of D its))) by (apply registers_run; [exact (means_all D ncl n1 _ HL HN M1)|exact (proper_registers D ncl its Hp)]).
  set (E := run D (flat_map (meaning D) pre) (branches_of D its)) in *. change (before_all D [] (before_all D (flat_map (meaning D) post) o)) with (before_all D (flat_map (meaning D) post) o).
  rewrite <- (expect_run D ops). rewrite (go_run D ncl ops) by (now apply Forall_app). unfold expect. rewrite Csum_map. apply Csum_ext. intros b Hb. apply expect1_same. apply Hu. now apply HI.
Qed.

(** A circuit with elements, a controlled plate, shifts and matrices given by the user: a matrix that is not
    symmetric for two channels, and a phase that depends on the photon numbers for the whole state. *)
Definition user_element : mat2 := Mat2 (RtoC 0) Ci (RtoC 1) (RtoC 0).
Definition user_matrix : mat := fun i j => if i =? j then (if i =? 4 then Ci else RtoC 1) else RtoC 0.
Lemma user_element_unitary : unitary2 user_element.
Proof. unfold unitary2, user_element, mat2_mul, mat2_adj, mat2_id. cbn [m00 m01 m10 m11]. split; f_equal; apply C_eq; cbn; ring. Qed.
Lemma user_matrix_unitary d : unitary_mat d user_matrix.
Proof.
  assert (HX : forall i, (user_matrix i i * Cconj (user_matrix i i) = RtoC 1)%C) by (intro i; unfold user_matrix; rewrite Nat.eqb_refl; destruct (i =? 4); apply C_eq; cbn; ring).
  assert (Z : forall i k, i <> k -> user_matrix i k = RtoC 0) by (intros i k Hn; unfold user_matrix; destruct (Nat.eqb_spec i k); [contradiction|reflexivity]).
  assert (CZ : Cconj (RtoC 0) = RtoC 0) by (apply C_eq; cbn; ring).
  intros i j Hi Hj. split; (rewrite (Csum_single _ i); [|apply seq_NoDup|apply in_seq; lia|intros k _ Hn]).
  - destruct (Nat.eqb_spec i j) as [->|Hn]; [apply HX|]. rewrite (Z j i) by auto. rewrite CZ. ring.
  - rewrite (Z i k) by auto. ring.
  - destruct (Nat.eqb_spec i j) as [->|Hn]; [rewrite Cmult_comm; apply HX|]. rewrite (Z i j) by auto. ring.
  - rewrite (Z k i) by auto. rewrite CZ. ring.
Qed.
Definition undo_program : list instruction :=
  [Optics (Mix_50_50 0 1); Plate_by 1 0 0 1; Optics (Quarter_wave_plate 0 1 (PI / 3)); Shift_by [1] [2%Z]; Control_shift [0] [1]; Phase_by 0 1; Custom_element user_element 1 0; Custom_matrix user_matrix].
Example C74_case : (exists nodes, program_nodes case_dims 2 undo_program = Some nodes) /\ Forall (careful case_dims 2) undo_program /\ Forall reversible undo_program /\
  proper_items case_dims 2 case_items /\ length (undo case_dims undo_program) = 13.
Proof.
  split; [eexists; vm_compute; reflexivity|]. destruct C73_case as (_ & _ & H3). split; [|split; [|split; [exact H3|reflexivity]]].
  - unfold undo_program. repeat (apply Forall_cons || apply Forall_nil); cbn [careful]; unfold in_order; try lia; try exact I; [cbn; intros p q [<-|[]] [<-|[]]; cbn; lia|split; [exact user_element_unitary|lia]|apply user_matrix_unitary].
  - unfold undo_program. repeat (apply Forall_cons || apply Forall_nil); cbn; try exact I; lia.
Qed.
Print Assumptions C74_undo.
Print Assumptions C74_inside.
