(** Property theorems C82: local operations and classical communication create no entanglement. *)
From Coq Require Import Reals List Arith Lia Lra Bool Permutation ZArith.
From Coquelicot Require Import Complex.
From Verif Require Import Prelude NamesModel NamesSpec NamesProofs FockModel FockSpec FockProofs GateProofs PropFock
  OpticalModel OpticalProofs StateModel StateSpec CollectionModel EvalModel MeasureSpec MeasureProofs
  InterferenceSpec CircuitSpec CircuitProofs EnsembleProofs PropCircuit ProtocolSpec ProtocolProofs ProgramModel ProgramSpec PropProgram
  CustomSpec PropCustom SeparableProofs EntangleSpec.
From Verif Require PropSignal PropCustomNodes PropMeasure.
Import ListNotations.

Section Local.
Variables (D : dims) (here : nat -> bool).
Definition terms := list ((values -> C) * (values -> C)).
Definition wave_terms (k : nat) (w : values -> C) : Prop :=
  exists ts : terms, length ts <= k /\ Forall (fun t => looks_at D here (fst t) /\ looks_at D (others here) (snd t)) ts /\
    forall f, valid D f -> w f = Csum ts (fun t => fst t f * snd t f)%C.

Lemma acts_factor S T u v g : acts_in D S T -> looks_at D (others S) v -> valid D g ->
  Csum (basis D) (fun f => T f g * (u f * v f))%C = (Csum (basis D) (fun f => T f g * u f) * v g)%C.
Proof.
  intros [HZ _] Hv Vg. rewrite <- Csum_scal_r. apply Csum_ext. intros f Hf. apply basis_in in Hf.
  destruct (agree_off D S f g) eqn:E.
  - rewrite (Hv f g Hf Vg); [ring|]. intros c Hc Ho. apply (proj1 (agree_off_spec D S f g) E c Hc). unfold others in Ho. now destruct (S c).
  - assert (E' : exists c, c < dN D /\ S c = false /\ nth c f 0 <> nth c g 0).
    { unfold agree_off in E. unfold agree_on in E.
      assert (exists c, In c (seq 0 (dN D)) /\ negb (negb (S c)) || (nth c f 0 =? nth c g 0) = false) as (c & Hin & H).
      { clear - E. induction (seq 0 (dN D)) as [|x l IH]; [discriminate|]. cbn [forallb] in E. apply andb_false_iff in E. destruct E as [E|E]; [exists x; split; [now left|exact E]|].
        destruct (IH E) as (c & Hc & H). exists c. split; [now right|exact H]. }
      apply in_seq in Hin. apply orb_false_iff in H. destruct H as [H1 H2]. exists c. split; [lia|]. split; [now destruct (S c)|now apply Nat.eqb_neq]. }
    destruct E' as (c & Hc & HS & Hne). rewrite (HZ f g c Hf Vg Hc HS Hne). ring.
Qed.
Lemma acts_looks S T u : acts_in D S T -> looks_at D S u -> looks_at D S (fun g => Csum (basis D) (fun f => T f g * u f)%C).
Proof.
  intros [HZ HE] Hu. refine (fibre_sum D S (fun f g => T f g * u f)%C _ _).
  - intros f f' k k' Vf Vf' Vk Vk' A A' Hf Hk. f_equal.
    + apply HE; try assumption.
      * intros c Hc HS. split; [now apply Hf|now apply Hk].
      * intros c Hc HS. split; [now apply (proj1 (agree_off_spec D S f k) A)|now apply (proj1 (agree_off_spec D S f' k') A')].
    + now apply Hu.
  - intros f k Vf Vk A.
    assert (exists c, c < dN D /\ S c = false /\ nth c f 0 <> nth c k 0) as (c & Hc & HS & Hne).
    { unfold agree_off, agree_on in A.
      assert (exists c, In c (seq 0 (dN D)) /\ negb (negb (S c)) || (nth c f 0 =? nth c k 0) = false) as (c & Hin & H).
      { clear - A. induction (seq 0 (dN D)) as [|x l IH]; [discriminate|]. cbn [forallb] in A. apply andb_false_iff in A. destruct A as [E|E]; [exists x; split; [now left|exact E]|].
        destruct (IH E) as (c & Hc & H). exists c. split; [now right|exact H]. }
      apply in_seq in Hin. apply orb_false_iff in H. destruct H as [H1 H2]. exists c. split; [lia|]. split; [now destruct (S c)|now apply Nat.eqb_neq]. }
    rewrite (HZ f k c Vf Vk Hc HS Hne). ring.
Qed.
Lemma others_others u : looks_at D (others (others here)) u <-> looks_at D here u.
Proof. unfold looks_at, others. split; intros H f g Vf Vg E; apply H; try assumption; intros c Hc Ho; apply E; try assumption; now destruct (here c). Qed.
Lemma evolve_terms k T w : acts_in D here T \/ acts_in D (others here) T -> wave_terms k w -> wave_terms k (evolve D T w).
Proof.
  intros HT (ts & Hl & HF & Hw).
  assert (E : forall g, valid D g -> evolve D T w g = Csum ts (fun t => Csum (basis D) (fun f => T f g * (fst t f * snd t f))%C)).
  { intros g Vg. unfold evolve. rewrite Csum_swap. apply Csum_ext. intros f Hf. apply basis_in in Hf. rewrite Hw by exact Hf. now rewrite <- Csum_scal_l. }
  destruct HT as [HT|HT].
  - exists (map (fun t => (fun g => Csum (basis D) (fun f => T f g * fst t f)%C, snd t)) ts). split; [now rewrite map_length|]. split.
    + apply Forall_map. eapply Forall_impl; [|exact HF]. intros t [H1 H2]. cbn [fst snd]. split; [now apply acts_looks|exact H2].
    + intros g Vg. rewrite E by exact Vg. rewrite Csum_map. cbn [fst snd]. apply Csum_ext. intros t Ht. rewrite Forall_forall in HF. destruct (HF t Ht) as [H1 H2]. now apply (acts_factor here).
  - exists (map (fun t => (fst t, fun g => Csum (basis D) (fun f => T f g * snd t f)%C)) ts). split; [now rewrite map_length|]. split.
    + apply Forall_map. eapply Forall_impl; [|exact HF]. intros t [H1 H2]. cbn [fst snd]. split; [exact H1|now apply acts_looks].
    + intros g Vg. rewrite E by exact Vg. rewrite Csum_map. cbn [fst snd]. apply Csum_ext. intros t Ht. rewrite Forall_forall in HF. destruct (HF t Ht) as [H1 H2].
      transitivity (Csum (basis D) (fun f => T f g * (snd t f * fst t f))%C); [apply Csum_ext; intros; ring|].
      rewrite (acts_factor (others here)) by (try assumption; now apply others_others). ring.
Qed.
(** The readings of one side. *)
Definition side (S : nat -> bool) (opt o : list nat) (f : values) : bool :=
  forallb (fun p => negb (S (fst p)) || (nth (fst p) f 0 =? snd p)) (combine opt o).
Lemma side_split S opt : forall o f, length o = length opt -> leqb (readout opt f) o = side S opt o f && side (others S) opt o f.
Proof.
  induction opt as [|c opt IH]; intros [|x o] f Hl; try discriminate; [reflexivity|]. cbn [readout map leqb].
  change (map (fun c0 => nth c0 f 0) opt) with (readout opt f). unfold side. cbn [combine forallb fst snd]. injection Hl as Hl.
  rewrite IH by exact Hl. unfold side, others. destruct (S c); cbn [negb orb andb]; destruct (nth c f 0 =? x); cbn [andb]; try reflexivity; now rewrite andb_false_r.
Qed.
Lemma readout_length opt f : length (readout opt f) = length opt.
Proof. unfold readout. apply map_length. Qed.
Lemma side_looks S opt o u : looks_at D S u -> looks_at D S (fun f => if side S opt o f then u f else RtoC 0).
Proof.
  intros Hu f g Vf Vg H. assert (E : side S opt o f = side S opt o g).
  { unfold side. assert (G : forall l : list (nat * nat), forallb (fun p => negb (S (fst p)) || (nth (fst p) f 0 =? snd p)) l = forallb (fun p => negb (S (fst p)) || (nth (fst p) g 0 =? snd p)) l).
    { induction l as [|[c x] l IH]; [reflexivity|]. cbn [forallb fst snd]. rewrite IH. f_equal. destruct (S c) eqn:E; [|reflexivity]. cbn [negb orb].
      destruct (Nat.lt_ge_cases c (dN D)) as [Hc|Hc]; [now rewrite (H c Hc E)|]. destruct Vf as [Lf _], Vg as [Lg _]. rewrite !nth_overflow by lia. reflexivity. }
    apply G. }
  rewrite E. destruct (side S opt o g); [now apply Hu|reflexivity].
Qed.
Lemma reading_terms k opt o w : length o = length opt -> wave_terms k w -> wave_terms k (fun f => if leqb (readout opt f) o then w f else RtoC 0).
Proof.
  intros Hl (ts & Hk & HF & Hw).
  exists (map (fun t => (fun f => if side here opt o f then fst t f else RtoC 0, fun f => if side (others here) opt o f then snd t f else RtoC 0)) ts).
  split; [now rewrite map_length|]. split.
  - apply Forall_map. eapply Forall_impl; [|exact HF]. intros t [H1 H2]. cbn [fst snd]. split; now apply side_looks.
  - intros f Vf. rewrite Csum_map. cbn [fst snd]. rewrite (side_split here) by exact Hl. destruct (side here opt o f); cbn [andb].
    + destruct (side (others here) opt o f); [now apply Hw|]. symmetry. apply Csum_zero. intros; ring.
    + symmetry. apply Csum_zero. intros; ring.
Qed.

Definition at_most (l : ident) (k : nat) (b : branch) : Prop := b_label b = l -> wave_terms k (b_wave b).
Lemma perform_terms l k op b : local_operation D here op -> at_most l k b -> Forall (at_most l k) (perform D op b).
Proof.
  intros HL Hb. destruct op as [A h v|T|F|opt cl]; cbn [perform local_operation] in *.
  - constructor; [|constructor]. intros El. cbn [b_label b_wave] in *. specialize (Hb El). destruct HL as (E & Hne & Hh & Hv). apply evolve_terms; [|exact Hb].
    destruct (here h) eqn:Eh; [left|right]; apply pair_acts; try assumption; try (now symmetry); unfold others; [now rewrite Eh|now rewrite <- E].
  - constructor; [|constructor]. intros El. cbn [b_label b_wave] in *. apply evolve_terms; [exact HL|now apply Hb].
  - constructor; [|constructor]. exact Hb.
  - apply Forall_map, Forall_forall. intros o Ho. intros El. cbn [reading b_label b_wave] in *. apply reading_terms; [|now apply Hb].
    unfold all_readings in Ho. apply nodup_In in Ho. apply in_map_iff in Ho. destruct Ho as (f & <- & _). apply readout_length.
Qed.
Lemma run_terms l k ops : Forall (local_operation D here) ops -> forall E, Forall (at_most l k) E -> Forall (at_most l k) (run D ops E).
Proof.
  intros HF. induction HF as [|op ops H HF IH]; intros E HE; [exact HE|]. unfold run. cbn [fold_left]. apply IH.
  apply Forall_flat_map. eapply Forall_impl; [|exact HE]. intros b Hb. now apply perform_terms.
Qed.
Lemma scale_terms k c w : wave_terms k w -> wave_terms k (fun f => c * w f)%C.
Proof.
  intros (ts & Hk & HF & Hw). exists (map (fun t => (fun f => c * fst t f, snd t)%C) ts). split; [now rewrite map_length|]. split.
  - apply Forall_map. eapply Forall_impl; [|exact HF]. intros t [H1 H2]. cbn [fst snd]. split; [|exact H2]. intros f g Vf Vg H. now rewrite (H1 f g Vf Vg H).
  - intros f Vf. rewrite Csum_map, Hw by exact Vf. rewrite <- Csum_scal_l. apply Csum_ext. intros t _. cbn [fst snd]. ring.
Qed.
Lemma ext_terms k w w' : (forall f, valid D f -> w f = w' f) -> wave_terms k w -> wave_terms k w'.
Proof. intros H (ts & Hk & HF & Hw). exists ts. split; [exact Hk|]. split; [exact HF|]. intros f Vf. rewrite <- H by exact Vf. now apply Hw. Qed.
End Local.

Lemma outputs_terms D ncl here ops its out l k : proper_items D ncl its -> proper_items D ncl out -> Forall (local_operation D here) ops ->
  same_branches D (branches_of D out) (filter (nonzero D) (run D ops (branches_of D its))) ->
  (forall it, In it its -> s_init (snd it) = l -> sum_of_products D here k (snd it)) ->
  forall it, In it out -> s_init (snd it) = l -> sum_of_products D here k (snd it).
Proof.
  intros Hp Hp' HL (E1 & HP & HF) Hin it Hit El.
  assert (H0 : Forall (at_most D here l k) (branches_of D its)).
  { unfold branches_of. apply Forall_map, Forall_forall. intros it0 Hi Hl. cbn [branch_of b_label b_wave] in *.
    apply scale_terms. exact (Hin it0 Hi Hl). }
  apply (run_terms D here l k ops HL) in H0.
  assert (H1 : Forall (at_most D here l k) E1).
  { apply Forall_forall. intros b Hb. apply (Permutation_in _ HP) in Hb. apply filter_In in Hb. rewrite Forall_forall in H0. now apply H0. }
  assert (Hb : In (branch_of D (snd it)) (branches_of D out)) by (unfold branches_of; now apply (in_map (fun it => branch_of D (snd it)))).
  assert (H2 : wave_terms D here k (b_wave (branch_of D (snd it)))).
  { clear - HF Hb H1 El. revert H1 Hb. induction HF as [|b b' l1 l2 (A1 & A2 & A3) HF IH]; intros H1 Hb; [destruct Hb|].
    inversion H1 as [|? ? B1 B2]; subst. destruct Hb as [->|Hb].
    - apply (ext_terms D here k (b_wave b')); [intros f Vf; symmetry; now apply A3|]. apply B1. rewrite <- A1. reflexivity.
    - now apply IH. }
  destruct Hp' as (_ & _ & HF'). rewrite Forall_forall in HF'. destruct (HF' it Hit) as (_ & _ & _ & [Hc _] & _).
  apply (scale_terms D here k (RtoC (/ sqrt (s_cum (snd it))))) in H2.
  assert (H3 : wave_terms D here k (amp_of D (snd it))).
  { refine (ext_terms D here k _ _ _ H2). intros f Vf. cbn [branch_of b_wave]. rewrite Cmult_assoc, <- RtoC_mult, Rinv_l by (apply Rgt_not_eq, sqrt_lt_R0; exact Hc). apply Cmult_1_l. }
  exact H3.
Qed.

(** Local operations and classical communication: whatever two groups of channels hold, every state of the
    result is a sum of no more products than the states it comes from; a measurement may be made and its
    result may decide what is done on the other side. *)
Theorem C82_no_more_products : forall D ncl eps full nodes ops its X rnd here l k, 1 <= dL D -> 2 <= dN D -> (0 < eps)%R ->
  Forall2 (means D ncl) nodes ops -> Forall (local_operation D here) ops -> proper_items D ncl its -> clear_throughout D eps ops (branches_of D its) ->
  (forall it, In it its -> s_init (snd it) = l -> sum_of_products D here k (snd it)) ->
  let c := Circuit D ncl eps full (fresh_keys D) nodes in
  exists out, evaluate_circuit X rnd c (coll_of c its) = Ok (coll_of c out) /\ proper_items D ncl out /\
    forall it, In it out -> s_init (snd it) = l -> sum_of_products D here k (snd it).
Proof.
  intros D ncl eps full nodes ops its X rnd here l k HL HN He HM HO Hp Hc Hin c.
  destruct (C62_branches D ncl eps full nodes ops its X rnd HL HN He HM Hp Hc) as (out & E & Hp' & HS).
  exists out. split; [exact E|]. split; [exact Hp'|]. now apply (outputs_terms D ncl here ops its).
Qed.
Print Assumptions C82_no_more_products.

(** For the programs of C62 the statement holds at every small threshold. *)
Theorem C82_program : forall D ncl full p nodes its X rnd, 1 <= dL D -> 2 <= dN D ->
  program_nodes D ncl p = Some nodes -> Forall (careful D ncl) p -> proper_items D ncl its ->
  exists eps0, (0 < eps0)%R /\ forall eps, (0 < eps <= eps0)%R ->
  let c := Circuit D ncl eps full (fresh_keys D) nodes in
  exists out, evaluate_circuit X rnd c (coll_of c its) = Ok (coll_of c out) /\ proper_items D ncl out /\
    forall here l k, Forall (local_operation D here) (flat_map (meaning D) p) ->
    (forall it, In it its -> s_init (snd it) = l -> sum_of_products D here k (snd it)) ->
    forall it, In it out -> s_init (snd it) = l -> sum_of_products D here k (snd it).
Proof.
  intros D ncl full p nodes its X rnd HL HN Ep HC Hp.
  destruct (C62_program D ncl full p nodes its X rnd HL HN Ep HC Hp) as (eps0 & He & H). exists eps0. split; [exact He|].
  intros eps Heps c. destruct (H eps Heps) as (out & E & Hp' & HS). exists out. split; [exact E|]. split; [exact Hp'|].
  intros here l k HO Hin. now apply (outputs_terms D ncl here (flat_map (meaning D) p) its).
Qed.
Print Assumptions C82_program.

Lemma with_here_valid D here f g : valid D f -> valid D g -> valid D (with_here D here f g).
Proof.
  intros Vf Vg. split; [unfold with_here; now rewrite map_length, seq_length|]. apply Forall_forall. intros x Hx. apply in_map_iff in Hx.
  destruct Hx as (c & <- & Hc). apply in_seq in Hc. destruct (here c); apply valid_nth_lt; try assumption; lia.
Qed.
Lemma with_here_nth D here f g c : c < dN D -> nth c (with_here D here f g) 0 = if here c then nth c g 0 else nth c f 0.
Proof. intros Hc. unfold with_here. rewrite ApplyProofs.nth_map0 by now rewrite seq_length. now rewrite seq_nth. Qed.
(** What a product state cannot have: amplitudes that change when two tuples exchange the photon numbers
    of one side. *)
Theorem C82_exchange : forall D here st, sum_of_products D here 1 st -> forall f g, valid D f -> valid D g ->
  (amp_of D st f * amp_of D st g = amp_of D st (with_here D here f g) * amp_of D st (with_here D here g f))%C.
Proof.
  intros D here st (ts & Hl & HF & Hw) f g Vf Vg. pose proof (with_here_valid D here f g Vf Vg) as V1. pose proof (with_here_valid D here g f Vg Vf) as V2.
  rewrite !Hw by assumption. destruct ts as [|t [|? ?]]; [rewrite !Csum_nil; ring| |cbn in Hl; lia].
  inversion HF as [|? ? [Hu Hv] _]; subst. rewrite !Csum_cons, !Csum_nil.
  assert (E1 : fst t (with_here D here f g) = fst t g) by (apply Hu; try assumption; intros c Hc Hh; rewrite with_here_nth by exact Hc; now rewrite Hh).
  assert (E2 : fst t (with_here D here g f) = fst t f) by (apply Hu; try assumption; intros c Hc Hh; rewrite with_here_nth by exact Hc; now rewrite Hh).
  assert (E3 : snd t (with_here D here f g) = snd t f) by (apply Hv; try assumption; intros c Hc Hh; unfold others in Hh; rewrite with_here_nth by exact Hc; now destruct (here c)).
  assert (E4 : snd t (with_here D here g f) = snd t g) by (apply Hv; try assumption; intros c Hc Hh; unfold others in Hh; rewrite with_here_nth by exact Hc; now destruct (here c)).
  rewrite E1, E2, E3, E4. ring.
Qed.
Print Assumptions C82_exchange.

(** ** Which calls are local *)
Lemma leqb_iff (a b a' b' : list nat) : (a = b <-> a' = b') -> leqb a b = leqb a' b'.
Proof.
  intros H. destruct (leqb a b) eqn:E.
  - symmetry. apply leqb_spec. apply H. now apply leqb_spec.
  - destruct (leqb a' b') eqn:E'; [|reflexivity]. exfalso. apply leqb_spec in E'. apply H in E'. subst. now rewrite leqb_refl in E.
Qed.
Lemma relabel_acts D S (F : values -> values) : (forall f, valid D f -> valid D (F f)) ->
  (forall f c, valid D f -> c < dN D -> S c = false -> nth c (F f) 0 = nth c f 0) ->
  (forall f f' c, valid D f -> valid D f' -> (forall c, c < dN D -> S c = true -> nth c f 0 = nth c f' 0) -> c < dN D -> S c = true -> nth c (F f) 0 = nth c (F f') 0) ->
  acts_in D S (fun f g => if leqb g (F f) then RtoC 1 else RtoC 0).
Proof.
  intros HV H0 H1. split.
  - intros f g c Vf Vg Hc HS Hne. destruct (leqb g (F f)) eqn:E; [|reflexivity]. exfalso. apply leqb_spec in E. subst g. apply Hne. symmetry. now apply H0.
  - intros f g f' g' Vf Vg Vf' Vg' A B. replace (leqb g (F f)) with (leqb g' (F f')); [reflexivity|].
    assert (HF : forall c, c < dN D -> S c = true -> nth c (F f) 0 = nth c (F f') 0) by (intros c Hc HS; apply H1; try assumption; intros c' Hc' HS'; now apply A).
    apply leqb_iff. split; intros E.
    + apply (values_ext D); [assumption|now apply HV|]. intros c Hc. destruct (S c) eqn:HS.
      * destruct (A c Hc HS) as [_ ->]. rewrite E. symmetry. now apply HF.
      * destruct (B c Hc HS) as [<- _]. symmetry. now apply H0.
    + apply (values_ext D); [assumption|now apply HV|]. intros c Hc. destruct (S c) eqn:HS.
      * destruct (A c Hc HS) as [_ <-]. rewrite E. now apply HF.
      * destruct (B c Hc HS) as [_ <-]. symmetry. now apply H0.
Qed.
Lemma shift_zero pairs c : (forall p : Z * nat, In p pairs -> snd p <> c) -> total_shift pairs c = 0%Z.
Proof.
  induction pairs as [|[s t] r IH]; intros H; [reflexivity|]. cbn [total_shift]. rewrite IH by (intros p Hp; apply H; now right).
  destruct (Nat.eqb_spec t c) as [->|]; [|reflexivity]. exfalso. now apply (H (s, c) (or_introl eq_refl)).
Qed.
Lemma control_zero pairs f c : (forall p : nat * nat, In p pairs -> snd p <> c) -> total_control pairs f c = 0.
Proof.
  induction pairs as [|p r IH]; intros H; [reflexivity|]. cbn [total_control]. rewrite IH by (intros q Hq; apply H; now right).
  destruct (Nat.eqb_spec (snd p) c) as [E|]; [|reflexivity]. exfalso. now apply (H p (or_introl eq_refl)).
Qed.
Lemma map_seq_nth (F : nat -> nat) n c : c < n -> nth c (map F (seq 0 n)) 0 = F c.
Proof. intros Hc. rewrite ApplyProofs.nth_map0 by now rewrite seq_length. now rewrite seq_nth. Qed.
Lemma shift_acts D S pairs : 1 <= dL D -> (forall p : Z * nat, In p pairs -> S (snd p) = true) -> acts_in D S (fun f g => if leqb g (shift_of (dL D) pairs f) then RtoC 1 else RtoC 0).
Proof.
  intros HL HS. apply relabel_acts.
  - intros f [Lf Vf]. split; [unfold shift_of; now rewrite map_length, seq_length|]. apply Forall_forall. intros x Hx. unfold shift_of in Hx. apply in_map_iff in Hx. destruct Hx as (c & <- & _).
    pose proof (Z.mod_pos_bound (Z.of_nat (nth c f 0) + total_shift pairs c) (Z.of_nat (dL D))). lia.
  - intros f c Vf Hc Hn. pose proof (valid_nth_lt D f c Vf Hc) as Hlt. destruct Vf as [Lf _]. unfold shift_of. rewrite map_seq_nth by lia. rewrite shift_zero.
    + rewrite Z.add_0_r, Z.mod_small by lia. apply Nat2Z.id.
    + intros p Hp E. specialize (HS p Hp). rewrite E, Hn in HS. discriminate.
  - intros f f' c [Lf _] [Lf' _] H Hc Hs. unfold shift_of. rewrite !map_seq_nth by lia. cbv beta. now rewrite (H c Hc Hs).
Qed.
Lemma control_acts D S pairs : 1 <= dL D -> (forall p : nat * nat, In p pairs -> S (fst p) = true /\ S (snd p) = true) -> acts_in D S (fun f g => if leqb g (sum_of (dL D) pairs f) then RtoC 1 else RtoC 0).
Proof.
  intros HL HS. apply relabel_acts.
  - intros f [Lf Vf]. split; [unfold sum_of; now rewrite map_length, seq_length|]. apply Forall_forall. intros x Hx. unfold sum_of in Hx. apply in_map_iff in Hx. destruct Hx as (c & <- & _).
    apply Nat.mod_upper_bound. lia.
  - intros f c Vf Hc Hn. pose proof (valid_nth_lt D f c Vf Hc) as Hlt. destruct Vf as [Lf _]. unfold sum_of. rewrite map_seq_nth by lia. rewrite control_zero.
    + rewrite Nat.add_0_r. now apply Nat.mod_small.
    + intros p Hp E. destruct (HS p Hp) as [_ Hs]. rewrite E, Hn in Hs. discriminate.
  - intros f f' c [Lf _] [Lf' _] H Hc Hs. unfold sum_of. rewrite !map_seq_nth by lia. cbv beta. rewrite (H c Hc Hs). f_equal. f_equal. apply total_control_ext.
    intros p Hp. destruct (HS p Hp) as [Hs1 _]. destruct (Nat.lt_ge_cases (fst p) (dN D)) as [Hlt|Hge]; [now apply H|]. rewrite !nth_overflow by lia. reflexivity.
Qed.
Lemma element_sides D here ncl nd A h v : means D ncl nd (Element A h v) -> here h = here v -> local_operation D here (Element A h v).
Proof.
  intros H E. split; [exact E|].
  assert (exists rest, Permutation (h :: v :: rest) (seq 0 (dN D))) as (rest & HP) by (inversion H; subst; eexists; eassumption).
  assert (ND : NoDup (h :: v :: rest)) by (apply (Permutation_NoDup (Permutation_sym HP)), seq_NoDup).
  split; [inversion ND as [|? ? Hn _]; subst; intros ->; apply Hn; now left|].
  split; [assert (Hin : In h (seq 0 (dN D))) by (apply (Permutation_in _ HP); now left)|assert (Hin : In v (seq 0 (dN D))) by (apply (Permutation_in _ HP); right; now left)]; apply in_seq in Hin; lia.
Qed.
(** Calls that work on one side are local operations. *)
Theorem C82_calls : forall D ncl here i nds, 1 <= dL D -> 2 <= dN D -> nodes_of D ncl i = Some nds -> careful D ncl i -> on_one_side D here i ->
  Forall (local_operation D here) (meaning D i).
Proof.
  intros D ncl here i nds HL HN E Hc [Hs HT]. pose proof (instruction_means D ncl HL HN i nds E Hc) as HM.
  assert (HE : forall a b, In a (instruction_channels i) -> In b (instruction_channels i) -> here a = here b) by (intros a b Ha Hb; destruct Hs as [Hs|Hs]; now rewrite (Hs a Ha), (Hs b Hb)).
  assert (G : forall nds ops, Forall2 (means D ncl) nds ops -> (forall op, In op ops -> match op with Element _ h v => In h (instruction_channels i) /\ In v (instruction_channels i) | op => local_operation D here op end) ->
    Forall (local_operation D here) ops).
  { clear - HE. intros nds ops HM. induction HM as [|nd op l l' H HM IH]; intros HI; [constructor|]. constructor; [|apply IH; intros; apply HI; now right].
    pose proof (HI op (or_introl eq_refl)) as HI0. destruct op as [A h v|T|F|opt cl]; try exact HI0. destruct HI0 as [Hh Hv]. apply (element_sides D here ncl nd A h v H). now apply HE. }
  apply (G nds (meaning D i) HM). clear G HM. intros op Hop.
  destruct i as [call|c cl|h v ct cp|vals chs|fn nv chs|opt cl|targets shifts|controls targets|A h v|M]; cbn [meaning instruction_channels] in *.
  - destruct call; cbn [optics_meaning optics_channels In] in *; unfold plate, crossing, mixing, plate in Hop; repeat (destruct Hop as [<-|Hop]; [split; cbn [In]; try tauto|]); try destruct Hop;
      try (destruct (Nat.min_dec a b) as [->| ->]; tauto); try (destruct (Nat.max_dec a b) as [->| ->]; tauto); try (destruct (Nat.min_dec a1 b1) as [->| ->]; tauto); try (destruct (Nat.max_dec a1 b1) as [->| ->]; tauto).
  - destruct Hop as [<-|[]]. cbn; tauto.
  - destruct Hop as [<-|[]]. cbn; tauto.
  - destruct Hop as [<-|[]]. exact I.
  - destruct Hop as [<-|[]]. exact I.
  - destruct Hop as [<-|[]]. exact I.
  - destruct Hop as [<-|[]]. unfold relabel. cbn [local_operation]. destruct Hs as [Hs|Hs]; [left|right]; apply shift_acts; try assumption; intros p Hp; apply in_combine_r in Hp || (destruct p as [z t]; apply in_combine_r in Hp); cbn [snd] in *;
      unfold others; rewrite (Hs _ Hp); reflexivity.
  - destruct Hop as [<-|[]]. unfold relabel. cbn [local_operation]. destruct Hs as [Hs|Hs]; [left|right]; apply control_acts; try assumption; intros [a b] Hp; pose proof (in_combine_l _ _ _ _ Hp) as Ha; pose proof (in_combine_r _ _ _ _ Hp) as Hb; cbn [fst snd];
      unfold others; rewrite (Hs a), (Hs b) by (apply in_or_app; tauto); split; reflexivity.
  - destruct Hop as [<-|[]]. cbn; tauto.
  - destruct Hop as [<-|[]]. exact HT.
Qed.
Print Assumptions C82_calls.

(** ** What does create entanglement *)
Definition first (c : nat) : bool := c =? 0.
Definition two_dims : dims := Dims 2 2 true.
Definition four (a b c d : R) (lab : ident) : state :=
  State lab 1 [([0;0], (RtoC a, (a * a)%R)); ([1;0], (RtoC b, (b * b)%R)); ([0;1], (RtoC c, (c * c)%R)); ([1;1], (RtoC d, (d * d)%R))] [] [] [].
Lemma four_amp a b c d lab i j : i < 2 -> j < 2 ->
  amp_of two_dims (four a b c d lab) [i;j] = RtoC (if i =? 0 then if j =? 0 then a else c else if j =? 0 then b else d).
Proof. intros Hi Hj. do 2 (destruct i as [|i]; [do 2 (destruct j as [|j]; [reflexivity|]); lia|]). lia. Qed.
Lemma two_valid f : valid two_dims f -> exists i j, i < 2 /\ j < 2 /\ f = [i;j].
Proof. intros [Lf Vf]. cbn in Lf. destruct f as [|i [|j [|? ?]]]; try discriminate. inversion Vf as [|? ? H1 H2]; subst. inversion H2; subst. now exists i, j. Qed.
Lemma valid_two i j : i < 2 -> j < 2 -> valid two_dims [i;j].
Proof. intros Hi Hj. split; [reflexivity|]. constructor; [exact Hi|]. constructor; [exact Hj|]. constructor. Qed.
(** (x|0> + y|1>)(x|0> + y|1>) *)
Lemma four_product x y lab : sum_of_products two_dims first 1 (four (x * x) (y * x) (x * y) (y * y) lab).
Proof.
  exists [(fun f => RtoC (if nth 0 f 0 =? 0 then x else y), fun f => RtoC (if nth 1 f 0 =? 0 then x else y))]. split; [reflexivity|]. split.
  - constructor; [|constructor]. cbn [fst snd]. split; intros f g Vf Vg H.
    + now rewrite (H 0 ltac:(cbn; lia) eq_refl).
    + now rewrite (H 1 ltac:(cbn; lia) eq_refl).
  - intros f Vf. destruct (two_valid f Vf) as (i & j & Hi & Hj & ->). rewrite four_amp by assumption. rewrite Csum_cons, Csum_nil. cbn [fst snd nth].
    rewrite <- RtoC_mult. destruct (i =? 0), (j =? 0); apply C_eq; cbn; ring.
Qed.
Lemma four_proper x y : x <> 0%R -> y <> 0%R -> (x * x + y * y = 1)%R -> proper_items two_dims 0 [([97], four (x * x) (y * x) (x * y) (y * y) [97])].
Proof.
  intros Hx Hy E. split; [discriminate|]. split; [repeat constructor; cbn; intuition discriminate|]. constructor; [|constructor]. cbn [snd].
  assert (P : forall a b, a <> 0%R -> b <> 0%R -> RtoC (a * b) <> RtoC 0) by (intros a b Ha Hb H; apply RtoC_inj in H; apply Rmult_integral in H; tauto).
  split; [|split; [|split; [|split; [|split; reflexivity]]]].
  - split; [repeat constructor; cbn; intuition discriminate|]. intros nm. cbn [four s_comps map fst In]. intros [<-|[<-|[<-|[<-|[]]]]]; [exists [0;0]|exists [1;0]|exists [0;1]|exists [1;1]]; (split; [apply valid_two; lia|reflexivity]).
  - intros nm a p. cbn [four s_comps In]. intros [H|[H|[H|[H|[]]]]]; injection H as <- <- <-; (split; [now apply P|now rewrite Cnorm2_RtoC]).
  - unfold state_norm2. cbn [four s_comps]. rewrite !Rsum_cons. cbn [fst snd]. rewrite !Cnorm2_RtoC. cbn [Rsum fold_right]. unfold Rsum; cbn.
    replace 1%R with ((x * x + y * y) * (x * x + y * y))%R by (rewrite E; ring). ring.
  - cbn. lra.
Qed.
Lemma not_product st : (amp_of two_dims st [0;0] * amp_of two_dims st [1;1] <> amp_of two_dims st [1;0] * amp_of two_dims st [0;1])%C -> ~ sum_of_products two_dims first 1 st.
Proof.
  intros H HP. apply H. exact (C82_exchange two_dims first st HP [0;0] [1;1] (valid_two 0 0 ltac:(lia) ltac:(lia)) (valid_two 1 1 ltac:(lia) ltac:(lia))).
Qed.

(** REFUTED for phase shifts of a single channel: "a phase shift of channel 1 leaves products products".
    Channel 0 belongs to Alice, channel 1 to Bob. *)
Theorem C82_phase_shift_refuted : let its := [([97], four (/ 2) (/ 2) (/ 2) (/ 2) [97])] in
  exists nodes, program_nodes two_dims 0 [Optics (Phase_shift 1 PI)] = Some nodes /\ Forall (careful two_dims 0) [Optics (Phase_shift 1 PI)] /\
  proper_items two_dims 0 its /\ (forall it, In it its -> sum_of_products two_dims first 1 (snd it)) /\
  forall full X rnd, exists eps0, (0 < eps0)%R /\ forall eps, (0 < eps <= eps0)%R ->
    let c := Circuit two_dims 0 eps full (fresh_keys two_dims) nodes in
    exists out, evaluate_circuit X rnd c (coll_of c its) = Ok (coll_of c out) /\ out <> [] /\
      forall it, In it out -> ~ sum_of_products two_dims first 1 (snd it).
Proof.
  intros its. set (s := (/ sqrt 2)%R). assert (Hs : (s * s = / 2)%R) by apply PropOptical.sqrt2_inv_sq. assert (Hn : s <> 0%R) by (intros H; rewrite H in Hs; lra).
  assert (Eits : its = [([97], four (s * s) (s * s) (s * s) (s * s) [97])]) by (rewrite Hs; reflexivity).
  assert (B : exists nodes, program_nodes two_dims 0 [Optics (Phase_shift 1 PI)] = Some nodes) by (eexists; reflexivity). destruct B as (nodes & B).
  assert (HC : Forall (careful two_dims 0) [Optics (Phase_shift 1 PI)]) by (repeat constructor).
  assert (Hp : proper_items two_dims 0 its) by (rewrite Eits; apply four_proper; try assumption; lra).
  exists nodes. split; [exact B|]. split; [exact HC|]. split; [exact Hp|]. split; [intros it; rewrite Eits; intros [<-|[]]; apply four_product|].
  intros full X rnd. destruct (C62_program two_dims 0 full _ nodes its X rnd ltac:(cbn; lia) ltac:(cbn; lia) B HC Hp) as (eps0 & He & H).
  exists eps0. split; [exact He|]. intros eps Heps c. destruct (H eps Heps) as (out & E & Hp' & (E1 & HP & HF)). exists out. split; [exact E|]. split; [apply Hp'|].
  intros it Hit. set (A := generic_matrix 0 PI) in *.
  assert (HA : A = Mat2 (RtoC 1) (RtoC 0) (RtoC 0) (RtoC (-1))) by (unfold A; rewrite phase_matrix, cos_PI, sin_PI; f_equal; apply C_eq; cbn; ring).
  set (W := evolve two_dims (pair_amp two_dims A 0 1) (b_wave (branch_of two_dims (four (/ 2) (/ 2) (/ 2) (/ 2) [97])))).
  assert (HW : forall b, In b E1 -> b_wave b = W).
  { intros b Hb. apply (Permutation_in _ HP) in Hb. apply filter_In in Hb. destruct Hb as [Hb _]. cbn in Hb. destruct Hb as [<-|[]]. reflexivity. }
  assert (HI : forall f, valid two_dims f -> (RtoC (sqrt (s_cum (snd it))) * amp_of two_dims (snd it) f = W f)%C).
  { assert (Hb : In (branch_of two_dims (snd it)) (branches_of two_dims out)) by (unfold branches_of; now apply (in_map (fun it => branch_of two_dims (snd it)))).
    clear - HF Hb HW. induction HF as [|b b' l1 l2 (A1 & A2 & A3) HF IH]; [destruct Hb|]. destruct Hb as [->|Hb].
    - intros f Vf. rewrite <- (HW b' (or_introl eq_refl)), <- A3 by exact Vf. reflexivity.
    - apply IH; [|exact Hb]. intros b0 Hb0. apply HW. now right. }
  assert (HV : forall i j, i < 2 -> j < 2 -> W [i;j] = RtoC (if (i =? 0) && (j =? 1) then - / 2 else / 2)%R).
  { assert (H0 : forall f, valid two_dims f -> b_wave (branch_of two_dims (four (/ 2) (/ 2) (/ 2) (/ 2) [97])) f = RtoC (/ 2)).
    { intros f Vf. destruct (two_valid f Vf) as (i & j & Hi & Hj & ->). cbn [branch_of b_wave]. rewrite four_amp by assumption. cbn [s_cum four]. rewrite sqrt_1. destruct (i =? 0), (j =? 0); apply C_eq; cbn; ring. }
    intros i j Hi Hj. unfold W, evolve. assert (EB : basis two_dims = [[0;0];[1;0];[0;1];[1;1]] \/ basis two_dims = [[0;0];[0;1];[1;0];[1;1]]) by (vm_compute; tauto).
    assert (EC : forall F, Csum (basis two_dims) F = (F [0;0] + F [1;0] + F [0;1] + F [1;1])%C) by (intros F; destruct EB as [-> | ->]; rewrite !Csum_cons, Csum_nil; ring).
    rewrite EC, !H0 by (apply valid_two; lia). unfold pair_amp. cbn [seq dN two_dims forallb Nat.eqb orb andb nth dL]. 
    do 2 (destruct i as [|i]; [do 2 (destruct j as [|j]; [rewrite !PropSignal.gate_no_photon, !(gate_amp_high 2 A 1 1) by lia; cbn [Nat.eqb andb];
      rewrite ?(proj1 (gate_one_photon 2 A (le_n 2))), ?(proj1 (proj2 (gate_one_photon 2 A (le_n 2)))), ?(proj1 (proj2 (proj2 (gate_one_photon 2 A (le_n 2))))), ?(proj2 (proj2 (proj2 (gate_one_photon 2 A (le_n 2)))));
      rewrite ?(gate_amp_zero 2 A 1 0 0 0), ?(gate_amp_zero 2 A 1 0 1 1), ?(gate_amp_zero 2 A 0 1 0 0), ?(gate_amp_zero 2 A 0 1 1 1) by lia; rewrite ?HA; cbn [m00 m01 m10 m11]; apply C_eq; cbn; field|]); lia|]). lia. }
  apply not_product. intros EE.
  pose proof (HI [0;0] (valid_two 0 0 ltac:(lia) ltac:(lia))) as I1. pose proof (HI [1;1] (valid_two 1 1 ltac:(lia) ltac:(lia))) as I2. pose proof (HI [1;0] (valid_two 1 0 ltac:(lia) ltac:(lia))) as I3. pose proof (HI [0;1] (valid_two 0 1 ltac:(lia) ltac:(lia))) as I4.
  rewrite HV in I1, I2, I3, I4 by lia. cbn [Nat.eqb andb] in I1, I2, I3, I4.
  assert (F : (RtoC (/ 2) * RtoC (/ 2) = RtoC (/ 2) * RtoC (- / 2))%C).
  { set (k := RtoC (sqrt (s_cum (snd it)))) in *.
    transitivity ((k * amp_of two_dims (snd it) [0;0]) * (k * amp_of two_dims (snd it) [1;1]))%C; [now rewrite I1, I2|].
    transitivity ((k * amp_of two_dims (snd it) [1;0]) * (k * amp_of two_dims (snd it) [0;1]))%C; [|now rewrite I3, I4].
    transitivity (k * k * (amp_of two_dims (snd it) [0;0] * amp_of two_dims (snd it) [1;1]))%C; [ring|]. rewrite EE. ring. }
  rewrite <- !RtoC_mult in F. apply RtoC_inj in F. lra.
Qed.
Print Assumptions C82_phase_shift_refuted.

Lemma Forall2_one {A B} (P : A -> B -> Prop) a l : Forall2 P [a] l -> exists b, l = [b] /\ P a b.
Proof. intros H. inversion H as [|x y l1 l2 HP H' E1 E2]. subst. inversion H'. subst. exists y. now split. Qed.
Lemma identity_acts D S : acts_in D S (fun f g => if leqb g f then RtoC 1 else RtoC 0).
Proof. apply (relabel_acts D S (fun f => f)); auto. Qed.

(** REFUTED for thresholds that remove components: at threshold 1/10 a node that does nothing, applied to the
    product of (2|0> + |1>)/sqrt 5 with itself, gives a state that is no product. *)
Theorem C82_threshold_refuted : let its := [([97], four (4 / 5) (2 / 5) (2 / 5) (1 / 5) [97])] in
  let identity : mat := fun i j => if i =? j then RtoC 1 else RtoC 0 in
  let doing_nothing := Transform (fun f g => if leqb g f then RtoC 1 else RtoC 0) in
  means two_dims 0 (NCustomFock identity) doing_nothing /\ local_operation two_dims first doing_nothing /\
  proper_items two_dims 0 its /\ (forall it, In it its -> sum_of_products two_dims first 1 (snd it)) /\
  forall full X rnd, let c := Circuit two_dims 0 (1 / 10) full (fresh_keys two_dims) [NCustomFock identity] in
    exists out, evaluate_circuit X rnd c (coll_of c its) = Ok (coll_of c out) /\ out <> [] /\
      forall it, In it out -> ~ sum_of_products two_dims first 1 (snd it).
Proof.
  intros its identity doing_nothing. set (x := (2 * / sqrt 5)%R). set (y := (/ sqrt 5)%R).
  assert (H5 : (0 < sqrt 5)%R) by (apply sqrt_lt_R0; lra). assert (Q5 : (/ sqrt 5 * / sqrt 5 = / 5)%R) by (rewrite <- Rinv_mult, sqrt_sqrt by lra; reflexivity).
  assert (Hy : y <> 0%R) by (unfold y; apply Rinv_neq_0_compat; lra). assert (Hx : x <> 0%R) by (unfold x; fold y; lra).
  assert (Eits : its = [([97], four (x * x) (y * x) (x * y) (y * y) [97])]).
  { assert (E1 : (x * x = 4 / 5)%R) by (unfold x; transitivity (4 * (/ sqrt 5 * / sqrt 5))%R; [ring|rewrite Q5; lra]).
    assert (E2 : (y * x = 2 / 5)%R) by (unfold x, y; transitivity (2 * (/ sqrt 5 * / sqrt 5))%R; [ring|rewrite Q5; lra]).
    assert (E3 : (x * y = 2 / 5)%R) by (rewrite Rmult_comm; exact E2).
    assert (E4 : (y * y = 1 / 5)%R) by (unfold y; rewrite Q5; lra).
    unfold its. now rewrite E1, E2, E3, E4. }
  assert (Hp : proper_items two_dims 0 its) by (rewrite Eits; apply four_proper; try assumption; unfold x, y; nra).
  split; [|split; [left; apply identity_acts|split; [exact Hp|split; [intros it; rewrite Eits; intros [<-|[]]; apply four_product|]]]].
  - constructor.
    + intros i j Hi Hj. unfold identity. split; (rewrite (Csum_single _ i); [|apply seq_NoDup|apply in_seq; lia|]).
      * rewrite Nat.eqb_refl. rewrite (Nat.eqb_sym j i). destruct (i =? j); rewrite Cconj_RtoC; ring.
      * intros k _ Hne. destruct (Nat.eqb_spec i k); [congruence|]. ring.
      * rewrite Nat.eqb_refl. rewrite Cconj_RtoC. ring.
      * intros k _ Hne. destruct (Nat.eqb_spec k i); [congruence|]. rewrite Cconj_RtoC. ring.
    + intros f g Vf Vg. unfold identity. rewrite (index_eqb two_dims) by (try assumption; cbn; lia). reflexivity.
  - intros full X rnd c.
    destruct Hp as (_ & _ & HP). 
    assert (HC : Forall (fun it : ident * state => check_state (1 / 10) 0 (snd it) = true) its).
    { unfold its. constructor; [|constructor]. unfold check_state, Rltb. cbn. repeat (destruct (Rlt_dec _ _); [exfalso; lra|]). reflexivity. }
    destruct (PropCustomNodes.C58_fock_node X rnd c 0 identity (coll_of c its)) as (cs' & E & F); [cbn; lia|cbn; lia|reflexivity| |exact HC|].
    { eapply Forall_impl; [|exact HP]. intros it HI. apply HI. }
    exists (co_items cs'). cbn [coll_of co_items] in F. unfold its in F. destruct (Forall2_one _ _ _ F) as (it1 & Ec & HT). clear F.
    split; [|split].
    + unfold evaluate_circuit. change (seq 0 (length (c_nodes c))) with [0]. rewrite E. f_equal.
      assert (Hc : exists i, cs' = coll_of c i).
      { clear - E. rewrite PropMeasure.evaluate_single in E by (cbn; auto). unfold run_node in E. cbn [node_at c_nodes c nth] in E.
        destruct (custom_items _ _ _ _ _) as [[o sd]|]; [|discriminate]. cbn in E. injection E as <-. now eexists. }
      destruct Hc as (i & ->). reflexivity.
    + rewrite Ec. discriminate.
    + intros it. rewrite Ec. intros [<-|[]]. apply not_product. destruct HT as (_ & _ & _ & HA). cbn [fst snd] in HA.
      assert (Hz : forall i j, i < 2 -> j < 2 -> amp_of two_dims (snd it1) [i;j] = if Rlt_dec (Cnorm2 (amp_of two_dims (four (4 / 5) (2 / 5) (2 / 5) (1 / 5) [97]) [i;j])) (1 / 10) then RtoC 0 else amp_of two_dims (four (4 / 5) (2 / 5) (2 / 5) (1 / 5) [97]) [i;j]).
      { intros i j Hi Hj. pose proof (HA [i;j] (valid_two i j Hi Hj)) as H. cbv zeta in H. cbn [c_D c c_eps snd] in H.
        assert (Ez : Csum (seq 0 (dL two_dims ^ dN two_dims)) (fun k => identity (index_of_values two_dims [i;j]) k * amp_of two_dims (four (4 / 5) (2 / 5) (2 / 5) (1 / 5) [97]) (values_from_index two_dims k))%C
          = amp_of two_dims (four (4 / 5) (2 / 5) (2 / 5) (1 / 5) [97]) [i;j]).
        { rewrite (Csum_single _ (index_of_values two_dims [i;j])); [|apply seq_NoDup|apply in_seq; pose proof (index_of_values_bound two_dims [i;j] (valid_two i j Hi Hj)) as Hb; unfold size_of_basis in Hb; lia|].
          - unfold identity. rewrite Nat.eqb_refl, values_index_roundtrip by (try (cbn; lia); now apply valid_two). ring.
          - intros k _ Hne. unfold identity. destruct (Nat.eqb_spec (index_of_values two_dims [i;j]) k); [congruence|]. ring. }
        rewrite Ez in H. exact H. }
      rewrite !Hz, !four_amp by lia. cbn [Nat.eqb]. rewrite !Cnorm2_RtoC.
      destruct (Rlt_dec (4 / 5 * (4 / 5)) (1 / 10)); [lra|]. destruct (Rlt_dec (2 / 5 * (2 / 5)) (1 / 10)); [lra|]. destruct (Rlt_dec (1 / 5 * (1 / 5)) (1 / 10)); [|lra].
      rewrite <- !RtoC_mult. intros H. apply RtoC_inj in H. lra.
Qed.
Print Assumptions C82_threshold_refuted.

(** A program that meets the hypotheses: Alice (channels 0 and 1) turns her polarization, counts the photons
    in channel 0, and the count decides how Bob (channels 2 and 3) turns his; the input is
    (3|10> + 4|01>)/5 for Alice and |10> for Bob. *)
Example C82_case : let D := Dims 2 4 true in
  let p := [Optics (Half_wave_plate_225 0 1); Detectors [0] [0]; Plate_by 2 3 0 1] in let here c := c <? 2 in
  let its := [([65], State [65] 1 [([1;0;1;0], (RtoC (3 / 5), (9 / 25)%R)); ([0;1;1;0], (RtoC (4 / 5), (16 / 25)%R))] [0%R; 0%R] [] [])] in
  (exists nodes, program_nodes D 2 p = Some nodes) /\ Forall (careful D 2) p /\ Forall (on_one_side D here) p /\
  Forall (local_operation D here) (flat_map (meaning D) p) /\
  proper_items D 2 its /\ forall it, In it its -> sum_of_products D here 1 (snd it).
Proof.
  intros D p here its. split; [eexists; reflexivity|].
  assert (HC : Forall (careful D 2) p).
  { constructor; [cbn; unfold in_order; lia|]. constructor; [cbn; constructor; [intros []|constructor]|]. constructor; [cbn; unfold in_order; lia|constructor]. }
  assert (HS : Forall (on_one_side D here) p).
  { constructor; [split; [left; intros c [<-|[<-|[]]]; reflexivity|exact I]|]. constructor; [split; [left; intros c []|exact I]|].
    constructor; [split; [right; intros c [<-|[<-|[]]]; reflexivity|exact I]|constructor]. }
  split; [exact HC|]. split; [exact HS|]. split; [|split].
  - apply Forall_flat_map. apply Forall_forall. intros i Hi. pose proof (proj1 (Forall_forall _ _) HC i Hi) as Hc. pose proof (proj1 (Forall_forall _ _) HS i Hi) as Hs.
    assert (exists nds, nodes_of D 2 i = Some nds) as (nds & E) by (destruct Hi as [<-|[<-|[<-|[]]]]; eexists; reflexivity).
    apply (C82_calls D 2 here i nds); try assumption; cbn; lia.
  - split; [discriminate|]. split; [repeat constructor; cbn; intuition discriminate|]. constructor; [|constructor]. cbn [snd].
    split; [|split; [|split; [|split; [|split; reflexivity]]]].
    + split; [repeat constructor; cbn; intuition discriminate|]. intros nm. cbn [s_comps map fst In]. intros [<-|[<-|[]]]; [exists [1;0;1;0]|exists [0;1;1;0]]; (split; [split; [reflexivity|repeat constructor]|reflexivity]).
    + intros nm a q. cbn [s_comps In]. intros [H|[H|[]]]; injection H as <- <- <-; (split; [intros H; apply RtoC_inj in H; lra|rewrite Cnorm2_RtoC; lra]).
    + unfold state_norm2. cbn [s_comps]. rewrite !Rsum_cons. cbn [fst snd]. rewrite !Cnorm2_RtoC. unfold Rsum; cbn. lra.
    + cbn. lra.
  - intros it [<-|[]]. exists [(fun f => if leqb (firstn 2 f) [1;0] then RtoC (3 / 5) else if leqb (firstn 2 f) [0;1] then RtoC (4 / 5) else RtoC 0, fun f => if leqb (skipn 2 f) [1;0] then RtoC 1 else RtoC 0)].
    split; [reflexivity|]. split.
    + constructor; [|constructor]. cbn [fst snd]. split; intros f g [Lf _] [Lg _] H; cbn in Lf, Lg; do 5 (destruct f as [|? f]; try discriminate); do 5 (destruct g as [|? g]; try discriminate).
      * pose proof (H 0 ltac:(cbn; lia) eq_refl) as H0. pose proof (H 1 ltac:(cbn; lia) eq_refl) as H1. cbn in H0, H1. subst. reflexivity.
      * pose proof (H 2 ltac:(cbn; lia) eq_refl) as H0. pose proof (H 3 ltac:(cbn; lia) eq_refl) as H1. cbn in H0, H1. subst. reflexivity.
    + intros f Vf. apply basis_in in Vf. vm_compute in Vf. repeat (destruct Vf as [<-|Vf]; [rewrite Csum_cons, Csum_nil; cbn; apply C_eq; cbn; ring|]). destruct Vf.
Qed.
