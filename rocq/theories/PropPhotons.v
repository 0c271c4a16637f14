(** C75: circuits of optical elements, measurements and feed-forward conserve the number of photons. *)
From Coq Require Import Reals List Arith Lia Lra Bool Permutation ZArith.
From Coquelicot Require Import Complex.
From Verif Require Import Prelude NamesModel NamesSpec NamesProofs FockModel FockSpec FockProofs GateProofs
  OpticalModel OpticalProofs StateModel StateSpec StateProofs CollectionModel EvalModel EvalSpec EvalProofs MeasureSpec MeasureProofs PropEval
  InterferenceSpec ArrangementProofs PermanentProofs CustomModel CustomSpec PropCustom PropOptical CircuitSpec CircuitProofs EnsembleProofs PropCircuit
  ProtocolSpec ProtocolProofs PropProtocol ProgramModel ProgramSpec PropProgram BuildSpec PropBuild PropUndo PhotonSpec.
Import ListNotations.

Lemma list_sum_perm l m : Permutation l m -> list_sum l = list_sum m.
Proof. unfold list_sum; induction 1; cbn [fold_right]; lia. Qed.
Lemma sub_perm (l m : list nat) : NoDup l -> (forall x, In x l -> In x m) -> exists rest, Permutation (l ++ rest) m.
Proof.
  revert m. induction l as [|x l IH]; intros m ND Hi; [exists m; apply Permutation_refl|]. inversion ND; subst. destruct (in_split x m) as (a & b & ->); [apply Hi; now left|].
  destruct (IH (a ++ b)) as (rest & HP); [assumption| |exists rest; cbn; now apply Permutation_cons_app].
  intros y Hy. assert (y <> x) by (intros ->; contradiction). specialize (Hi y (or_intror Hy)). rewrite in_app_iff in *. cbn in Hi. intuition congruence.
Qed.
Lemma photons_seq D f : valid D f -> photons f = list_sum (map (fun c => nth c f 0) (seq 0 (dN D))).
Proof. intros [Hl _]. unfold photons. f_equal. rewrite <- Hl. clear. induction f as [|x f IH]; [reflexivity|]. cbn [length seq map nth]. f_equal. rewrite <- seq_shift, map_map. exact IH. Qed.
Lemma pair_photons D A h v f g : h <> v -> h < dN D -> v < dN D -> valid D f -> valid D g -> pair_amp D A h v f g <> RtoC 0 -> photons f = photons g.
Proof.
  intros Hn Hh Hv Vf Vg Ha. pose proof (pair_amp_elsewhere D A h v f g Ha) as He.
  destruct (sub_perm [h; v] (seq 0 (dN D))) as (rest & HP); [repeat constructor; cbn; intuition congruence|intros x [<-|[<-|[]]]; apply in_seq; lia|].
  rewrite (photons_seq D f Vf), (photons_seq D g Vg), <- (list_sum_perm _ _ (Permutation_map (fun c => nth c f 0) HP)), <- (list_sum_perm _ _ (Permutation_map (fun c => nth c g 0) HP)). cbn [app map list_sum fold_right].
  assert (nth h f 0 + nth v f 0 = nth h g 0 + nth v g 0).
  { destruct (Nat.eq_dec (nth h g 0 + nth v g 0) (nth h f 0 + nth v f 0)) as [E|E]; [auto|]. exfalso. apply Ha. unfold pair_amp. destruct (forallb _ _); [|reflexivity]. now apply gate_amp_zero. }
  assert (map (fun c => nth c f 0) rest = map (fun c => nth c g 0) rest) as ->; [|lia].
  apply map_ext_in. intros c Hc. assert (NoDup ([h; v] ++ rest)) as ND by (eapply Permutation_NoDup; [apply Permutation_sym; exact HP|apply seq_NoDup]). cbn in ND. inversion ND as [|? ? N1 ND1]; subst. inversion ND1 as [|? ? N2 _]; subst.
  apply He; [|intros ->; apply N1; now right|intros ->; contradiction]. assert (In c (seq 0 (dN D))) as Hi by (eapply Permutation_in; [exact HP|apply in_or_app; now right]). apply in_seq in Hi. lia.
Qed.
Lemma readout_photons D opt f : valid D f -> NoDup opt -> (forall c, In c opt -> c < dN D) -> list_sum (readout opt f) <= photons f.
Proof.
  intros V ND Ho. destruct (sub_perm opt (seq 0 (dN D)) ND) as (rest & HP); [intros x Hx; apply in_seq; specialize (Ho x Hx); lia|]. rewrite (photons_seq D f V). rewrite <- (list_sum_perm _ _ (Permutation_map _ HP)). rewrite map_app, list_sum_app. unfold readout. lia.
Qed.

Definition keeps (D : dims) (ncl : nat) (op : operation) : Prop :=
  match op with
  | Element _ h v => two_channels D h v
  | Transform _ => False
  | _ => True
  end.
Lemma program_keeps D ncl p nodes : 2 <= dN D -> program_nodes D ncl p = Some nodes -> Forall no_shift p -> Forall (keeps D ncl) (flat_map (meaning D) p).
Proof.
  intros HN E HS. pose proof (program_accepted D ncl p nodes HN E) as HA. clear E. induction HS as [|i p Hi HS IH]; [constructor|]. inversion HA; subst. cbn [flat_map]. apply Forall_app. split; [|now apply IH].
  assert (part : forall c, c < dN D -> two_channels D (partner c) c) by (intros c Hc; unfold two_channels, partner; destruct (Nat.eqb_spec c 0); lia).
  assert (crossed : forall a b, two_channels D a b -> two_channels D (Nat.min a b) (Nat.max a b)) by (intros a b; unfold two_channels; lia).
  destruct i as [call|c cl|h v ct cp|vals chs|fn nv chs|opt cl|targets shifts|controls targets|A h v|M]; cbn [no_shift accepted meaning] in *; try contradiction; try (repeat constructor; fail).
  - destruct call; cbn [accepted valid_call optics_meaning] in *; repeat (apply Forall_cons || apply Forall_nil); cbn [keeps plate crossing mixing]; intuition.
  - constructor; [|constructor]. cbn. apply part. tauto.
  - constructor; [|constructor]. cbn. tauto.
  - constructor; [|constructor]. cbn. exact H1.
Qed.

(** Every amplitude comes from one with as many photons. *)
Lemma perform_photons D ncl op b b' f : keeps D ncl op -> In b' (perform D op b) -> valid D f -> b_wave b' f <> RtoC 0 ->
  b_label b' = b_label b /\ exists f0, valid D f0 /\ b_wave b f0 <> RtoC 0 /\ photons f0 = photons f.
Proof.
  intros HK Hb V Hn. destruct op as [A h v|T|F|opt cl]; cbn [keeps perform] in *; [|contradiction| |].
  - destruct Hb as [<-|[]]. split; [reflexivity|]. cbn [b_wave] in Hn. unfold evolve in Hn.
    assert (exists f0, In f0 (basis D) /\ (pair_amp D (A (b_reg b)) h v f0 f * b_wave b f0)%C <> RtoC 0) as (f0 & H0 & Hz).
    { clear - Hn. induction (basis D) as [|k ks IH]; [now destruct Hn|]. cbn [Csum fold_right] in Hn. destruct (C_eq_dec (pair_amp D (A (b_reg b)) h v k f * b_wave b k)%C (RtoC 0)) as [E|E]; [|exists k; split; [now left|exact E]].
      destruct IH as (f0 & H0 & Hz); [|exists f0; split; [now right|exact Hz]]. intro Hs. apply Hn. change (pair_amp D (A (b_reg b)) h v k f * b_wave b k + Csum ks (fun f0 => pair_amp D (A (b_reg b)) h v f0 f * b_wave b f0) = RtoC 0)%C. rewrite E, Hs. ring. }
    apply basis_in in H0. exists f0. split; [exact H0|]. split; [intro Z; apply Hz; rewrite Z; ring|]. destruct HK as (K1 & K2 & K3). apply (pair_photons D (A (b_reg b)) h v); try assumption. intro Z; apply Hz; rewrite Z; ring.
  - destruct Hb as [<-|[]]. split; [reflexivity|]. exists f. auto.
  - apply in_map_iff in Hb. destruct Hb as (o & <- & _). split; [reflexivity|]. exists f. split; [exact V|]. split; [|reflexivity]. cbn in Hn. intro Z. apply Hn. destruct (leqb _ _); auto.
Qed.
Lemma run_photons D ncl ops : forall E b' f, Forall (keeps D ncl) ops -> In b' (run D ops E) -> valid D f -> b_wave b' f <> RtoC 0 ->
  exists b f0, In b E /\ b_label b' = b_label b /\ valid D f0 /\ b_wave b f0 <> RtoC 0 /\ photons f0 = photons f.
Proof.
  induction ops as [|op ops IH]; intros E b' f HF Hb V Hn; [exists b', f; repeat split; auto; apply V|]. inversion HF; subst. change (run D (op :: ops) E) with (run D ops (flat_map (perform D op) E)) in Hb.
  destruct (IH _ b' f H2 Hb V Hn) as (b1 & f1 & Hb1 & L1 & V1 & N1 & P1). apply in_flat_map in Hb1. destruct Hb1 as (b0 & Hb0 & Hb1). destruct (perform_photons D ncl op b0 b1 f1 H1 Hb1 V1 N1) as (L0 & f0 & V0 & N0 & P0).
  exists b0, f0. repeat split; try assumption; try apply V0; congruence.
Qed.
Lemma scaled_amp D ncl st f : proper_state D ncl st -> (b_wave (branch_of D st) f <> RtoC 0 <-> amp_of D st f <> RtoC 0).
Proof.
  intros (_ & _ & _ & Hc & _). cbn. split; intros H Z; apply H; [rewrite Z; ring|]. destruct (C_eq_dec (amp_of D st f) (RtoC 0)) as [E|E]; [exact E|]. exfalso.
  assert (RtoC (sqrt (s_cum st)) <> RtoC 0) by (intro K; apply RtoC_inj in K; pose proof (sqrt_lt_R0 (s_cum st) (proj1 Hc)); lra). revert Z. now apply Cmult_neq_0.
Qed.
(** What every branch of the result comes from. *)
Lemma result_branch D ncl (its its' : items) E it' : proper_items D ncl its' -> same_branches D (branches_of D its') (filter (nonzero D) E) -> In it' its' ->
  exists b, In b E /\ b_label b = s_init (snd it') /\ b_reg b = s_classical (snd it') /\ forall f, valid D f -> b_wave b f = b_wave (branch_of D (snd it')) f.
Proof.
  intros _ (E1 & HP & HF) Hit. assert (Hb : In (branch_of D (snd it')) (branches_of D its')) by (unfold branches_of; apply in_map_iff; now exists it').
  revert Hb HF. generalize (branches_of D its') as B. intros B Hb HF.
  assert (exists b, In b E1 /\ b_label (branch_of D (snd it')) = b_label b /\ b_reg (branch_of D (snd it')) = b_reg b /\ forall f, valid D f -> b_wave (branch_of D (snd it')) f = b_wave b f) as (b & Hb1 & L & Rg & W).
  { clear HP. induction HF as [|x y B E1 Hxy HF IH]; [destruct Hb|]. destruct Hb as [->|Hb]; [exists y; split; [now left|exact Hxy]|]. destruct (IH Hb) as (b & H1 & H2). exists b. split; [now right|exact H2]. }
  exists b. split; [|split; [symmetry; exact L|split; [symmetry; exact Rg|intros f V; symmetry; now apply W]]]. apply (Permutation_in _ HP) in Hb1. apply filter_In in Hb1. tauto.
Qed.

(** ** C75 *)
(** Every component of a result has as many photons as a component of an input state with the same label. *)
Theorem C75_no_new_photons : forall D ncl full p nodes its X rnd, 1 <= dL D -> 2 <= dN D ->
  program_nodes D ncl p = Some nodes -> Forall (careful D ncl) p -> Forall no_shift p -> proper_items D ncl its ->
  exists eps0, (0 < eps0)%R /\ forall eps, (0 < eps <= eps0)%R ->
  let c := Circuit D ncl eps full (fresh_keys D) nodes in
  exists out, evaluate_circuit X rnd c (coll_of c its) = Ok (coll_of c out) /\
    forall it f, In it out -> valid D f -> amp_of D (snd it) f <> RtoC 0 -> exists f0, comes_from D its (s_init (snd it)) f0 /\ photons f0 = photons f.
Proof.
  intros D ncl full p nodes its X rnd HL HN E HC HS Hp. destruct (C62_program D ncl full p nodes its X rnd HL HN E HC Hp) as (e & He & H). exists e. split; [exact He|]. intros eps Heps c.
  destruct (H eps Heps) as (out & Ev & Po & Hs). exists out. split; [exact Ev|]. intros it f Hit V Ha. destruct (result_branch D ncl its out _ it Po Hs Hit) as (b & Hb & L & _ & W).
  assert (Ps : proper_state D ncl (snd it)) by (destruct Po as (_ & _ & HF); rewrite Forall_forall in HF; now apply HF).
  destruct (run_photons D ncl _ _ b f (program_keeps D ncl p nodes HN E HS) Hb V) as (b0 & f0 & Hb0 & L0 & V0 & N0 & P0); [rewrite W by exact V; now apply (scaled_amp D ncl)|].
  unfold branches_of in Hb0. apply in_map_iff in Hb0. destruct Hb0 as (it0 & <- & Hit0). exists f0. split; [|exact P0]. exists it0. split; [exact Hit0|]. split; [cbn in L0; congruence|]. split; [exact V0|].
  apply (scaled_amp D ncl); [|exact N0]. destruct Hp as (_ & _ & HF). rewrite Forall_forall in HF. now apply HF.
Qed.

(** The detectors at the end of a circuit never count more photons than there were in the input state. *)
Lemma sum_noted : forall cl o reg, NoDup cl -> length cl = length o -> (forall c, In c cl -> c < length reg) -> sum_in cl (noted cl o reg) = INR (list_sum o).
Proof.
  intros cl o reg ND Hl Hc. unfold sum_in.
  assert (G : forall cl' o', length cl' = length o' -> NoDup cl' -> (forall c, In c cl' -> c < length reg) -> forall G : nat -> R, (forall c x, noted_at cl' o' c = Some x -> G c = INR x) -> fold_right Rplus 0%R (map G cl') = INR (list_sum o')).
  { induction cl' as [|c cl' IH]; intros [|x o'] Hl' ND' Hc' G HG; try discriminate; [reflexivity|]. inversion ND'; subst. cbn [map fold_right list_sum]. change (list_sum (x :: o')) with (x + list_sum o'). rewrite plus_INR. f_equal.
    - apply HG. cbn. now rewrite Nat.eqb_refl.
    - apply IH; [now injection Hl'|assumption|intros y Hy; apply Hc'; now right|]. intros y z Hy. apply HG. cbn. destruct (Nat.eqb_spec c y) as [->|]; [|exact Hy]. exfalso. assert (noted_at cl' o' y = None) as Z by (now apply noted_at_none). congruence. }
  apply G; try assumption. intros c x Hx.
  assert (In c cl) as Hin. { destruct (in_dec Nat.eq_dec c cl) as [|Hn]; [assumption|]. rewrite noted_at_none in Hx by exact Hn. discriminate. }
  rewrite noted_nth by (now apply Hc). now rewrite Hx.
Qed.
Theorem C75_detected : forall D ncl full p opt cl nodes its X rnd, 1 <= dL D -> 2 <= dN D ->
  program_nodes D ncl (p ++ [Detectors opt cl]) = Some nodes -> Forall (careful D ncl) p -> NoDup cl -> NoDup opt -> Forall no_shift p -> proper_items D ncl its ->
  exists eps0, (0 < eps0)%R /\ forall eps, (0 < eps <= eps0)%R ->
  let c := Circuit D ncl eps full (fresh_keys D) nodes in
  exists out, evaluate_circuit X rnd c (coll_of c its) = Ok (coll_of c out) /\
    forall it, In it out -> exists f0, comes_from D its (s_init (snd it)) f0 /\ (sum_in cl (s_classical (snd it)) <= INR (photons f0))%R.
Proof.
  intros D ncl full p opt cl nodes its X rnd HL HN E HC ND1 ND2 HS Hp.
  assert (HC' : Forall (careful D ncl) (p ++ [Detectors opt cl])) by (apply Forall_app; split; [exact HC|constructor; [exact ND1|constructor]]).
  assert (HS' : Forall no_shift (p ++ [Detectors opt cl])) by (apply Forall_app; split; [exact HS|constructor; [exact I|constructor]]).
  pose proof (program_accepted D ncl _ nodes HN E) as HA. apply Forall_app in HA. destruct HA as [_ HA]. inversion HA as [|? ? HA1 _]; subst. cbn [accepted valid_call] in HA1. destruct HA1 as (A1 & A2 & A3).
  destruct (C62_program D ncl full _ nodes its X rnd HL HN E HC' Hp) as (e & He & H). exists e. split; [exact He|]. intros eps Heps c.
  destruct (H eps Heps) as (out & Ev & Po & Hs). exists out. split; [exact Ev|]. intros it Hit. destruct (result_branch D ncl its out _ it Po Hs Hit) as (b & Hb & L & Rg & W).
  assert (Ps : proper_state D ncl (snd it)) by (destruct Po as (_ & _ & HF); rewrite Forall_forall in HF; now apply HF).
  (* a component of the result *)
  assert (exists f, valid D f /\ amp_of D (snd it) f <> RtoC 0) as (f & V & Ha).
  { destruct (Req_EM_T (weight D (branch_of D (snd it))) 0) as [Z|Z]; [rewrite (branch_weight D ncl _ HL Ps) in Z; destruct Ps as (_ & _ & _ & Hc & _); lra|].
    assert (HX : forall ks, Rsum ks (fun f => Cnorm2 (b_wave (branch_of D (snd it)) f)) <> 0%R -> exists f, In f ks /\ b_wave (branch_of D (snd it)) f <> RtoC 0).
    { induction ks as [|k ks IH]; intro Hk; [cbn in Hk; lra|]. destruct (C_eq_dec (b_wave (branch_of D (snd it)) k) (RtoC 0)) as [E0|E0]; [|exists k; split; [now left|exact E0]].
      destruct IH as (f & Hf & Hn); [|exists f; split; [now right|exact Hn]]. intro Hz. apply Hk. change (Cnorm2 (b_wave (branch_of D (snd it)) k) + Rsum ks (fun f => Cnorm2 (b_wave (branch_of D (snd it)) f)) = 0)%R. rewrite Hz, E0. unfold Cnorm2. cbn. ring. }
    destruct (HX _ Z) as (f & Hf & Hn). apply basis_in in Hf. exists f. split; [exact Hf|]. now apply (scaled_amp D ncl) in Hn. }
  assert (Hn : b_wave b f <> RtoC 0) by (rewrite W by exact V; now apply (scaled_amp D ncl)).
  destruct (run_photons D ncl _ _ b f (program_keeps D ncl _ nodes HN E HS') Hb V Hn) as (b0 & f0 & Hb0 & L0 & V0 & N0 & P0).
  unfold branches_of in Hb0. apply in_map_iff in Hb0. destruct Hb0 as (it0 & <- & Hit0). exists f0. split.
  { exists it0. split; [exact Hit0|]. split; [cbn in L0; congruence|]. split; [exact V0|]. apply (scaled_amp D ncl); [|exact N0]. destruct Hp as (_ & _ & HF). rewrite Forall_forall in HF. now apply HF. }
  rewrite P0. rewrite flat_map_app in Hb. cbn [flat_map meaning app] in Hb. unfold run in Hb. rewrite fold_left_app in Hb. cbn [fold_left] in Hb. apply in_flat_map in Hb. destruct Hb as (b1 & Hb1 & Hb). cbn [perform] in Hb. apply in_map_iff in Hb. destruct Hb as (o & <- & Ho).
  cbn [reading b_wave b_reg] in *. rewrite <- Rg. destruct (leqb (readout opt f) o) eqn:Eo; [|congruence]. apply leqb_spec in Eo. subst o.
  rewrite sum_noted; [|exact ND1|unfold readout; rewrite map_length; congruence|].
  - apply le_INR. now apply (readout_photons D).
  - assert (length (noted cl (readout opt f) (b_reg b1)) = ncl) as Hr by (rewrite Rg; apply Ps). rewrite noted_length in Hr. rewrite Hr. exact A3.
Qed.

(** The distribution of the number of photons is conserved. *)
Definition number_of (l0 : ident) (n : nat) : observable := fun l r f g => if leqb l l0 then if leqb f g then if photons f =? n then RtoC 1 else RtoC 0 else RtoC 0 else RtoC 0.
Lemma before_number D ncl op l0 n : keeps D ncl op -> isometric D ncl op -> agree D ncl (before D op (number_of l0 n)) (number_of l0 n).
Proof.
  intros HK HI l r f g Hr Vf Vg. destruct op as [A h v|T|F|opt cl]; cbn [keeps before] in *; [|contradiction|reflexivity|].
  - unfold number_of. destruct (leqb l l0); [|apply Csum_zero; intros; apply Csum_zero; intros; ring].
    transitivity (if photons f =? n then Csum (basis D) (fun k => pair_amp D (A r) h v f k * Cconj (pair_amp D (A r) h v g k))%C else RtoC 0).
    + transitivity (Csum (basis D) (fun k => if photons k =? n then pair_amp D (A r) h v f k * Cconj (pair_amp D (A r) h v g k) else RtoC 0)%C).
      * apply Csum_ext. intros k Hk. rewrite (Csum_single _ k); [|apply basis_nodup|exact Hk|].
        -- rewrite leqb_refl. destruct (photons k =? n); ring.
        -- intros k' _ Hne. destruct (leqb k k') eqn:Ek; [apply leqb_spec in Ek; congruence|]. ring.
      * assert (EQ : forall k, In k (basis D) -> (if photons k =? n then pair_amp D (A r) h v f k * Cconj (pair_amp D (A r) h v g k) else RtoC 0)%C = if photons f =? n then (pair_amp D (A r) h v f k * Cconj (pair_amp D (A r) h v g k))%C else RtoC 0).
        { intros k Hk. apply basis_in in Hk. destruct (C_eq_dec (pair_amp D (A r) h v f k) (RtoC 0)) as [Z|Z]; [rewrite Z; destruct (photons k =? n), (photons f =? n); ring|]. destruct HK as (K1 & K2 & K3). now rewrite (pair_photons D (A r) h v f k). }
        rewrite (Csum_ext _ _ _ EQ). destruct (photons f =? n); [reflexivity|]. now apply Csum_zero.
    + cbn [isometric] in HI. rewrite (HI r Hr f g Vf Vg). destruct (photons f =? n), (leqb f g); reflexivity.
  - unfold number_of. destruct (leqb (readout opt f) (readout opt g)) eqn:E; [reflexivity|]. destruct (leqb l l0); [|reflexivity]. destruct (leqb f g) eqn:Ef; [|reflexivity]. apply leqb_spec in Ef. subst g. rewrite leqb_refl in E. discriminate.
Qed.
Lemma before_all_number D ncl ops l0 n : Forall (keeps D ncl) ops -> Forall (isometric D ncl) ops -> agree D ncl (before_all D ops (number_of l0 n)) (number_of l0 n).
Proof.
  intros HK HI. induction ops as [|op ops IH]; [intros l r f g _ _ _; reflexivity|]. inversion HK; inversion HI; subst. intros l r f g Hr Vf Vg.
  rewrite <- (before_number D ncl op l0 n) by assumption. revert l r f g Hr Vf Vg. apply (before_all_agree D ncl [op]); [now constructor|]. now apply IH.
Qed.
Lemma number_expect D ncl its l n : proper_items D ncl its -> expect D (branches_of D its) (number_of l n) = RtoC (photon_prob D its l n).
Proof.
  intros (_ & _ & HF). unfold expect, branches_of, photon_prob. rewrite Csum_map.
  induction its as [|it its IH]; [reflexivity|]. inversion HF as [|? ? Hs HF']; subst. change (expect1 D (number_of l n) (branch_of D (snd it)) + Csum its (fun x => expect1 D (number_of l n) (branch_of D (snd x))) =
    RtoC ((if leqb (s_init (snd it)) l then s_cum (snd it) * Rsum (basis D) (fun f => if photons f =? n then Cnorm2 (amp_of D (snd it) f) else 0) else 0) + Rsum its (fun it => if leqb (s_init (snd it)) l then s_cum (snd it) * Rsum (basis D) (fun f => if photons f =? n then Cnorm2 (amp_of D (snd it) f) else 0) else 0))%R)%C.
  rewrite RtoC_plus. f_equal; [|now apply IH]. unfold expect1. cbn [b_label b_reg branch_of b_wave]. unfold number_of. destruct (leqb (s_init (snd it)) l); [|apply Csum_zero; intros; apply Csum_zero; intros; ring].
  destruct Hs as (_ & _ & _ & Hc & _). rewrite RtoC_mult, <- Csum_RtoC, <- Csum_scal_l. apply Csum_ext. intros f Hf. rewrite (Csum_single _ f); [|apply basis_nodup|exact Hf|].
  - rewrite leqb_refl. destruct (photons f =? n); [|ring]. rewrite Cconj_mult, Cconj_RtoC.
    replace (RtoC 1 * (RtoC (sqrt (s_cum (snd it))) * amp_of D (snd it) f * (RtoC (sqrt (s_cum (snd it))) * Cconj (amp_of D (snd it) f))))%C with ((RtoC (sqrt (s_cum (snd it))) * RtoC (sqrt (s_cum (snd it)))) * (amp_of D (snd it) f * Cconj (amp_of D (snd it) f)))%C by ring.
    rewrite <- RtoC_mult, sqrt_sqrt by lra. rewrite (Cmult_comm (amp_of D (snd it) f)); now rewrite Cconj_mult_norm2.
  - intros g _ Hne. destruct (leqb f g) eqn:Ef; [apply leqb_spec in Ef; congruence|]. ring.
Qed.
Theorem C75_photon_number : forall D ncl full p nodes its X rnd, 1 <= dL D -> 2 <= dN D ->
  program_nodes D ncl p = Some nodes -> Forall (careful D ncl) p -> Forall no_shift p -> proper_items D ncl its ->
  exists eps0, (0 < eps0)%R /\ forall eps, (0 < eps <= eps0)%R ->
  let c := Circuit D ncl eps full (fresh_keys D) nodes in
  exists out, evaluate_circuit X rnd c (coll_of c its) = Ok (coll_of c out) /\ forall l n, photon_prob D out l n = photon_prob D its l n.
Proof.
  intros D ncl full p nodes its X rnd HL HN E HC HS Hp. pose proof (program_means D ncl HL HN p nodes E HC) as HM. destruct (C62_exact D ncl full nodes _ its X rnd HL HN HM Hp) as (e & He & H). exists e. split; [exact He|]. intros eps Heps c.
  destruct (H eps Heps) as (out & Ev & Po & Hs). exists out. split; [exact Ev|]. intros l n. apply RtoC_inj. rewrite <- !(number_expect D ncl) by assumption. rewrite (ensemble_result D ncl its _ out Po Hs). rewrite expect_run.
  apply (expect_agree D ncl); [|exact (proper_registers D ncl its Hp)]. apply before_all_number; [exact (program_keeps D ncl p nodes HN E HS)|exact (means_all D ncl nodes _ HL HN HM)].
Qed.

(** Phases between components with different numbers of photons cannot be seen. *)
Definition blocks (D : dims) (ncl : nat) (o : observable) : Prop := forall l r f g, length r = ncl -> valid D f -> valid D g -> photons f <> photons g -> o l r f g = RtoC 0.
Lemma before_blocks D ncl op o : keeps D ncl op -> isometric D ncl op -> blocks D ncl o -> blocks D ncl (before D op o).
Proof.
  intros HK HI HB l r f g Hr Vf Vg Hne. destruct op as [A h v|T|F|opt cl]; cbn [keeps before] in *; [|contradiction| |].
  - apply Csum_zero. intros f' Hf'. apply Csum_zero. intros g' Hg'. apply basis_in in Hf', Hg'. destruct HK as (K1 & K2 & K3).
    destruct (C_eq_dec (pair_amp D (A r) h v f f') (RtoC 0)) as [Z|Z]; [rewrite Z; ring|]. destruct (C_eq_dec (pair_amp D (A r) h v g g') (RtoC 0)) as [Z'|Z']; [rewrite Z', Cconj_RtoC; ring|].
    rewrite (HB l r f' g'); try assumption; [ring|]. rewrite <- (pair_photons D (A r) h v f f'), <- (pair_photons D (A r) h v g g') by assumption. exact Hne.
  - apply HB; try assumption. now apply HI.
  - destruct (leqb _ _); [|reflexivity]. apply HB; try assumption. now rewrite noted_length.
Qed.
Lemma before_all_blocks D ncl ops o : Forall (keeps D ncl) ops -> Forall (isometric D ncl) ops -> blocks D ncl o -> blocks D ncl (before_all D ops o).
Proof. intros HK HI HB. induction ops as [|op ops IH]; [exact HB|]. inversion HK; inversion HI; subst. apply before_blocks; try assumption. now apply IH. Qed.
Theorem C75_phases_between_numbers : forall D ncl full p nodes its its2 X rnd rnd2, 1 <= dL D -> 2 <= dN D ->
  program_nodes D ncl p = Some nodes -> Forall (careful D ncl) p -> Forall no_shift p -> proper_items D ncl its -> proper_items D ncl its2 ->
  same_within_numbers D its its2 ->
  exists eps0, (0 < eps0)%R /\ forall eps, (0 < eps <= eps0)%R ->
  let c := Circuit D ncl eps full (fresh_keys D) nodes in
  exists out out2, evaluate_circuit X rnd c (coll_of c its) = Ok (coll_of c out) /\ evaluate_circuit X rnd2 c (coll_of c its2) = Ok (coll_of c out2) /\
    forall l r, prob_of_values out l r = prob_of_values out2 l r.
Proof.
  intros D ncl full p nodes its its2 X rnd rnd2 HL HN E HC HS Hp Hp2 Hsame. pose proof (program_means D ncl HL HN p nodes E HC) as HM.
  destruct (C62_exact D ncl full nodes _ its X rnd HL HN HM Hp) as (e & He & H). destruct (C62_exact D ncl full nodes _ its2 X rnd2 HL HN HM Hp2) as (e2 & He2 & H2).
  exists (Rmin e e2). split; [now apply Rmin_glb_lt|]. intros eps [H0 Hle] c.
  destruct (H eps) as (out & Ev & Po & Hs); [split; [exact H0|eapply Rle_trans; [exact Hle|apply Rmin_l]]|]. destruct (H2 eps) as (out2 & Ev2 & Po2 & Hs2); [split; [exact H0|eapply Rle_trans; [exact Hle|apply Rmin_r]]|].
  exists out, out2. split; [exact Ev|]. split; [exact Ev2|]. intros l r.
  set (P := fun l' r' => leqb l' l && if list_eq_dec Req_EM_T r' r then true else false).
  assert (EP : forall o, proper_items D ncl o -> RtoC (prob_of_values o l r) = expect D (branches_of D o) (trace_of P)).
  { intros o Ho. rewrite (expect_branches D ncl) by assumption. f_equal. unfold prob_of_values. apply Rsum_ext. intros it _. unfold P. destruct (leqb _ l); [|reflexivity]. cbn [andb]. now destruct (list_eq_dec _ _ _). }
  apply RtoC_inj. rewrite !EP by assumption. rewrite (ensemble_result D ncl its _ out Po Hs), (ensemble_result D ncl its2 _ out2 Po2 Hs2), !expect_run.
  pose proof (program_keeps D ncl p nodes HN E HS) as HK. pose proof (means_all D ncl nodes _ HL HN HM) as HI.
  assert (HB : blocks D ncl (before_all D (flat_map (meaning D) p) (trace_of P))).
  { apply before_all_blocks; try assumption. intros l' r' f g _ _ _ Hne. unfold trace_of. destruct (P l' r'); [|reflexivity]. destruct (leqb f g) eqn:Ef; [apply leqb_spec in Ef; congruence|reflexivity]. }
  set (o := before_all D (flat_map (meaning D) p) (trace_of P)) in *. clearbody o.
  (* drop the entries between different numbers *)
  set (o2 := fun l r f g => if (length r =? ncl) && (photons f =? photons g) then o l r f g else RtoC 0).
  assert (Ho : agree D ncl o o2).
  { intros l' r' f g Hr Vf Vg. unfold o2. rewrite Hr, Nat.eqb_refl. cbn [andb]. destruct (Nat.eqb_spec (photons f) (photons g)); [reflexivity|]. now apply HB. }
  rewrite !(expect_agree D ncl o o2) by (assumption || (eapply proper_registers; eassumption)).
  set (K := nodup key_dec (map (fun b => (b_label b, b_reg b)) (branches_of D its ++ branches_of D its2))).
  assert (HKey : forall b, In b (branches_of D its ++ branches_of D its2) -> In (b_label b, b_reg b) K) by (intros b Hb; unfold K; apply nodup_In; apply in_map_iff; now exists b).
  rewrite !(expect_density D _ K) by (apply NoDup_nodup || (intros b Hb; apply HKey; apply in_or_app; auto)).
  apply Csum_ext. intros k _. apply Csum_ext. intros f Hf. apply Csum_ext. intros g Hg. apply basis_in in Hf, Hg. unfold o2. destruct (Nat.eqb_spec (photons f) (photons g)) as [En|]; [|rewrite andb_false_r; ring].
  rewrite !density_branches by (eapply proper_cum; eassumption). now rewrite Hsame.
Qed.

(** A photon and a pair of photons in superposition, with two different phases between them, in an
    interferometer with feed-forward. *)
Definition number_program : list instruction :=
  [Optics (Mix_50_50 0 1); Detectors [0] [0]; Phase_by 1 0; Optics (Mix_50_50 0 1)].
Definition with_sign (s : R) : items :=
  [([98], State [98] (/ 2) [([0;2], (RtoC (/ sqrt 2), (/2)%R)); ([1;0], (RtoC (s * / sqrt 2), (/2)%R))] [0%R; 5%R] [] [])].
Lemma with_sign_proper s : (s * s = 1)%R -> proper_items case_dims 2 (with_sign s).
Proof.
  intro Hs. assert (Hq : (/ sqrt 2 * / sqrt 2 = / 2)%R) by (rewrite <- Rinv_mult, sqrt_sqrt by lra; reflexivity).
  assert (H2 : Cnorm2 (RtoC (/ sqrt 2)) = (/ 2)%R) by (unfold Cnorm2; cbn; lra).
  assert (H3 : Cnorm2 (RtoC (s * / sqrt 2)) = (/ 2)%R). { unfold Cnorm2. cbn. replace (s * / sqrt 2 * (s * / sqrt 2))%R with ((s * s) * (/ sqrt 2 * / sqrt 2))%R by ring. rewrite Hs, Hq. ring. }
  assert (Hz : (/ sqrt 2 <> 0)%R) by (apply Rinv_neq_0_compat, Rgt_not_eq, sqrt_lt_R0; lra).
  split; [discriminate|]. split; [repeat constructor; cbn; intuition discriminate|]. constructor; [|constructor]; cbn [snd].
  split; [|split; [|split; [|split; [|split; reflexivity]]]].
  - split; [repeat constructor; cbn; intuition discriminate|]. intros nm. cbn. intros [<-|[<-|[]]]; [exists [0;2]|exists [1;0]]; (split; [|reflexivity]); repeat constructor.
  - intros nm a p [E|[E|[]]]; injection E as <- <- <-; (split; [intro H; apply RtoC_inj in H; first [lra|apply Rmult_integral in H; destruct H as [H|H]; [rewrite H in Hs|]; lra]|now rewrite ?H2, ?H3]).
  - unfold state_norm2. cbn. rewrite H2, H3. lra.
  - cbn. lra.
Qed.
Example C75_case : (exists nodes, program_nodes case_dims 2 (number_program ++ [Detectors [0; 1] [0; 1]]) = Some nodes) /\
  Forall (careful case_dims 2) (number_program ++ [Detectors [0; 1] [0; 1]]) /\ Forall no_shift (number_program ++ [Detectors [0; 1] [0; 1]]) /\
  proper_items case_dims 2 (with_sign 1) /\ proper_items case_dims 2 (with_sign (-1)) /\ same_within_numbers case_dims (with_sign 1) (with_sign (-1)) /\
  ~ indistinguishable case_dims (with_sign 1) (with_sign (-1)).
Proof.
  split; [eexists; vm_compute; reflexivity|]. split; [unfold number_program; repeat (apply Forall_cons || apply Forall_nil); cbn [careful]; unfold in_order; try lia; repeat constructor; cbn; intuition discriminate|].
  split; [unfold number_program; repeat (apply Forall_cons || apply Forall_nil); exact I|]. split; [apply with_sign_proper; ring|]. split; [apply with_sign_proper; ring|].
  assert (HA : forall s f, valid case_dims f -> amp_of case_dims (snd (nth 0 (with_sign s) ([], State [] 0 [] [] [] []))) f = if leqb f [0;2] then RtoC (/ sqrt 2) else if leqb f [1;0] then RtoC (s * / sqrt 2) else RtoC 0).
  { intros s f [Hl HF]. destruct f as [|x [|y [|z f]]]; try discriminate. inversion HF as [|? ? Hx HF']; subst. inversion HF' as [|? ? Hy _]; subst. cbn in Hx, Hy.
    destruct x as [|[|[|x]]]; [| | |lia]; (destruct y as [|[|[|y]]]; [| | |lia]); reflexivity. }
  assert (HD : forall s l r f g, density_matrix case_dims (with_sign s) l r f g = if leqb [98] l then if list_eq_dec Req_EM_T [0%R; 5%R] r then (RtoC (/ 2) * amp_of case_dims (snd (nth 0 (with_sign s) ([], State [] 0 [] [] [] []))) f * Cconj (amp_of case_dims (snd (nth 0 (with_sign s) ([], State [] 0 [] [] [] []))) g))%C else RtoC 0 else RtoC 0).
  { intros s l r f g. unfold density_matrix. cbn [with_sign Csum fold_right snd nth s_init s_classical s_cum]. destruct (leqb [98] l); [|apply Cplus_0_r]. destruct (list_eq_dec _ _ _); apply Cplus_0_r. }
  split.
  - intros l r f g Vf Vg Hn. rewrite !HD, !HA by assumption. destruct (leqb [98] l); [|reflexivity]. destruct (list_eq_dec _ _ _); [|reflexivity].
    destruct (leqb f [0;2]) eqn:F1; [apply leqb_spec in F1; subst f|destruct (leqb f [1;0]) eqn:F2; [apply leqb_spec in F2; subst f|ring]];
    (destruct (leqb g [0;2]) eqn:G1; [apply leqb_spec in G1; subst g|destruct (leqb g [1;0]) eqn:G2; [apply leqb_spec in G2; subst g|]]); try discriminate; apply C_eq; cbn; ring.
  - intro H. assert (V1 : valid case_dims [0;2]) by (split; [reflexivity|repeat constructor]). assert (V2 : valid case_dims [1;0]) by (split; [reflexivity|repeat constructor]).
    specialize (H [98] [0%R; 5%R] [0;2] [1;0] V1 V2). rewrite !HD, !HA in H by assumption. cbn [leqb] in H. destruct (list_eq_dec Req_EM_T [0%R; 5%R] [0%R; 5%R]) as [_|C]; [|now apply C].
    assert (Hq : (/ sqrt 2 * / sqrt 2 = / 2)%R) by (rewrite <- Rinv_mult, sqrt_sqrt by lra; reflexivity). apply (f_equal fst) in H. vm_compute leqb in H. cbn in H. nra.
Qed.
Print Assumptions C75_no_new_photons.
Print Assumptions C75_detected.
Print Assumptions C75_photon_number.
Print Assumptions C75_phases_between_numbers.
