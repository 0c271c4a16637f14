(** Lemmas about the layout of DrawModel.v. *)
From Coq Require Import List String Arith NArith Bool Lia.
From Verif Require Import DrawModel DrawSpec.
Import ListNotations.

(** ** Bits *)

Definition has (x : N) (b : nat) : Prop := N.testbit x (N.of_nat b) = true.

Lemma has_dec x b : has x b \/ ~ has x b.
Proof. unfold has. destruct (N.testbit x (N.of_nat b)); [left; reflexivity | right; discriminate]. Qed.

Lemma zero_bits x : x = 0%N <-> forall b, ~ has x b.
Proof.
  split.
  - intros -> b H. unfold has in H. rewrite N.bits_0 in H. discriminate.
  - intros H. apply N.bits_inj_0. intros n. rewrite <- (N2Nat.id n).
    destruct (N.testbit x (N.of_nat (N.to_nat n))) eqn:E; [|reflexivity]. exfalso. exact (H _ E).
Qed.

Lemma nonzero_bits x : x <> 0%N -> exists b, has x b.
Proof.
  intros H. exists (N.to_nat (N.log2 x)). unfold has. rewrite N2Nat.id. apply N.bit_log2. exact H.
Qed.

Lemma land_bits x y b : has (N.land x y) b <-> has x b /\ has y b.
Proof. unfold has. rewrite N.land_spec. apply andb_true_iff. Qed.

Lemma lor_bits x y b : has (N.lor x y) b <-> has x b \/ has y b.
Proof. unfold has. rewrite N.lor_spec. apply orb_true_iff. Qed.

Lemma disjoint_bits x y : N.land x y = 0%N <-> forall b, has x b -> has y b -> False.
Proof.
  rewrite zero_bits. split.
  - intros H b X Y. apply (H b). apply land_bits. split; assumption.
  - intros H b X. apply land_bits in X. destruct X. eauto.
Qed.

Lemma power_bits i b : has (N.shiftl 1 (N.of_nat i)) b <-> b = i.
Proof.
  unfold has. rewrite N.shiftl_1_l, N.pow2_bits_eqb, N.eqb_eq. split; [intros H; apply Nat2N.inj in H; auto | intros ->; reflexivity].
Qed.

Lemma test_bit x i : negb (N.land x (N.shiftl 1 (N.of_nat i)) =? 0)%N = N.testbit x (N.of_nat i).
Proof.
  destruct (N.testbit x (N.of_nat i)) eqn:E.
  - apply negb_true_iff, N.eqb_neq. intros H. rewrite disjoint_bits in H. apply (H i E). apply power_bits. reflexivity.
  - apply negb_false_iff, N.eqb_eq. apply disjoint_bits. intros b X Y. apply power_bits in Y. subst.
    unfold has in X. rewrite E in X. discriminate.
Qed.

Lemma shiftr_zero x i : negb (N.shiftr x (N.of_nat i) =? 0)%N = true <-> exists b, i <= b /\ has x b.
Proof.
  rewrite negb_true_iff, N.eqb_neq. split.
  - intros H. apply nonzero_bits in H. destruct H as (b & H). exists (b + i). split; [lia|].
    unfold has in *. rewrite N.shiftr_spec' in H. rewrite Nat2N.inj_add. exact H.
  - intros (b & L & H) Z. rewrite zero_bits in Z. apply (Z (b - i)). unfold has in *. rewrite N.shiftr_spec'.
    rewrite <- Nat2N.inj_add. replace (b - i + i) with b by lia. exact H.
Qed.

(** ** The channels of a node as bits *)

Lemma int_of_bits_has l x : int_of_bits l = Some x ->
  forall b, has x b <-> b < List.length l /\ nth (List.length l - 1 - b) l false = true.
Proof.
  unfold int_of_bits. intros H.
  assert (E : x = fold_left (fun acc b => (2 * acc + N.b2n b)%N) l 0%N) by (destruct l; [discriminate | congruence]).
  clear H. subst x. induction l as [|a l IH] using rev_ind.
  - intros b. cbn. split; [intros H; unfold has in H; rewrite N.bits_0 in H; discriminate | lia].
  - intros b. rewrite fold_left_app. cbn [fold_left]. rewrite app_length. cbn [List.length].
    unfold has in *. destruct b as [|b].
    + rewrite N.testbit_0_r. rewrite app_nth2 by lia.
      replace (List.length l + 1 - 1 - 0 - List.length l) with 0 by lia. cbn. split; [intros ->; split; [lia|reflexivity] | tauto].
    + rewrite Nat2N.inj_succ, N.testbit_succ_r, IH.
      split; intros (A & B); (split; [lia|]).
      * rewrite app_nth1 by lia. replace (List.length l + 1 - 1 - S b) with (List.length l - 1 - b) by lia. exact B.
      * rewrite app_nth1 in B by lia. replace (List.length l + 1 - 1 - S b) with (List.length l - 1 - b) in B by lia. exact B.
Qed.

(** The lines of a node in a drawing with [no] optical lines. *)
Definition on_lines (no : nat) (nd : drawn) : list nat := d_optical nd ++ map (fun c => no + c) (d_classical nd).

Definition in_range (no nc : nat) (nd : drawn) : Prop :=
  Forall (fun c => c < no) (d_optical nd) /\ Forall (fun c => c < nc) (d_classical nd).

Lemma existsb_eqb c l : existsb (Nat.eqb c) l = true <-> In c l.
Proof.
  rewrite existsb_exists. split.
  - intros (x & A & B). apply Nat.eqb_eq in B. subst. exact A.
  - intros H. exists c. split; [exact H | apply Nat.eqb_refl].
Qed.

Lemma channel_bits_length no nc o c : List.length (channel_bits no nc o c) = no + nc.
Proof. unfold channel_bits. rewrite app_length, !map_length, !seq_length. reflexivity. Qed.

Lemma nth_map_seq (f : nat -> bool) n l : l < n -> nth l (map f (seq 0 n)) false = f l.
Proof.
  intros L. rewrite (nth_indep _ false (f 0)) by (rewrite map_length, seq_length; exact L).
  rewrite (map_nth f). rewrite seq_nth by exact L. reflexivity.
Qed.

Lemma channel_bits_nth no nc nd l : l < no + nc ->
  nth l (channel_bits no nc (d_optical nd) (d_classical nd)) false = true <->
  (l < no /\ In l (d_optical nd)) \/ (no <= l /\ In (l - no) (d_classical nd)).
Proof.
  intros L. unfold channel_bits. destruct (Nat.lt_ge_cases l no) as [H|H].
  - rewrite app_nth1 by (rewrite map_length, seq_length; exact H).
    rewrite nth_map_seq by exact H. rewrite existsb_eqb. split; [intros X; left; tauto | intros [X|X]; [tauto | lia]].
  - rewrite app_nth2 by (rewrite map_length, seq_length; exact H). rewrite map_length, seq_length.
    assert (L' : l - no < nc) by lia.
    rewrite nth_map_seq by exact L'. rewrite existsb_eqb. split; [intros X; right; tauto | intros [X|X]; [lia | tauto]].
Qed.

Lemma node_bits no nc nd x : int_of_bits (channel_bits no nc (d_optical nd) (d_classical nd)) = Some x -> in_range no nc nd ->
  forall b, has x b <-> b < no + nc /\ In (no + nc - 1 - b) (on_lines no nd).
Proof.
  intros H (RO & RC) b. rewrite (int_of_bits_has _ _ H b), channel_bits_length.
  split; intros (L & X); (split; [exact L|]).
  - apply channel_bits_nth in X; [|lia]. unfold on_lines. apply in_app_iff. destruct X as [(A & B)|(A & B)]; [left; exact B | right].
    apply in_map_iff. exists (no + nc - 1 - b - no). split; [lia | exact B].
  - apply channel_bits_nth; [lia|]. unfold on_lines in X. apply in_app_iff in X. destruct X as [X|X].
    + left. rewrite Forall_forall in RO. split; [apply RO; exact X | exact X].
    + right. apply in_map_iff in X. destruct X as (c & E & X). split; [lia|]. rewrite <- E.
      replace (no + c - no) with c by lia. exact X.
Qed.

Lemma int_of_bits_some l : l <> [] -> exists x, int_of_bits l = Some x.
Proof. intros H. destruct l; [contradiction | eexists; reflexivity]. Qed.

Lemma node_bits_some no nc o c : 0 < no + nc -> exists x, int_of_bits (channel_bits no nc o c) = Some x.
Proof. intros H. apply int_of_bits_some. intros X. apply (f_equal (@List.length bool)) in X. rewrite channel_bits_length in X. cbn in X. lia. Qed.

Lemma all_bits_has no nc x : all_bits no nc = Some x -> forall b, has x b <-> b < no + nc.
Proof.
  intros H b. unfold all_bits in H. rewrite (int_of_bits_has _ _ H b), repeat_length. split; [tauto|].
  intros L. split; [exact L|]. rewrite (nth_indep _ false true) by (rewrite repeat_length; lia). apply nth_repeat.
Qed.

(** ** Filling up *)

Lemma fill_state lines used :
  forall n, n <= lines ->
  let s := fold_left (fun (s : bool * N) (bit_index : nat) =>
         let '(memory, occupied) := s in
         let i := N.of_nat bit_index in
         let memory := orb memory (negb (N.land used (N.shiftl 1 i) =? 0)%N) in
         let memory := andb memory (negb (N.shiftr used i =? 0)%N) in
         (memory, N.lor occupied (N.shiftl (N.b2n memory) i))) (seq 0 n) (false, 0%N) in
  (fst s = true -> exists b1, b1 < n /\ has used b1) /\
  (forall b1 b2, b1 < n -> n <= b2 -> has used b1 -> has used b2 -> fst s = true) /\
  (forall b, has (snd s) b <-> b < n /\ exists b1 b2, b1 <= b <= b2 /\ has used b1 /\ has used b2).
Proof.
  induction n as [|n IH]; intros Ln.
  - cbn. split; [discriminate|]. split; [lia|]. intros b. split; [intros H; unfold has in H; rewrite N.bits_0 in H; discriminate | lia].
  - cbv zeta in IH |- *. rewrite seq_S, fold_left_app. cbn [fold_left Nat.add].
    specialize (IH ltac:(lia)). destruct (fold_left _ (seq 0 n) (false, 0%N)) as [memory occupied]. cbn [fst snd] in *.
    destruct IH as (I1 & I2 & I3). rewrite test_bit.
    set (m := ((memory || N.testbit used (N.of_nat n)) && negb (N.shiftr used (N.of_nat n) =? 0)%N)%bool).
    assert (M : m = true <-> exists b1 b2, b1 <= n <= b2 /\ has used b1 /\ has used b2).
    { unfold m. rewrite andb_true_iff, orb_true_iff, shiftr_zero. split.
      - intros ([A|A] & (b2 & B & C)).
        + destruct (I1 A) as (b1 & D & E). exists b1, b2. repeat split; auto; lia.
        + exists n, b2. repeat split; auto.
      - intros (b1 & b2 & A & B & C). split; [|exists b2; split; [lia | exact C]].
        destruct (Nat.eq_dec b1 n) as [->|Ne]; [right; exact B|]. left. apply (I2 b1 b2); auto; lia. }
    split; [|split].
    + intros H. apply M in H. destruct H as (b1 & b2 & A & B & C). exists b1. split; [lia | exact B].
    + intros b1 b2 A B C D. apply M. exists b1, b2. repeat split; auto; lia.
    + intros b. rewrite lor_bits, I3. destruct m eqn:Em.
      * assert (Hb : has (N.shiftl (N.b2n true) (N.of_nat n)) b <-> b = n) by (apply power_bits).
        rewrite Hb. destruct M as [M1 M2]. specialize (M1 eq_refl). split.
        -- intros [(A & B)| ->]; [split; [lia | exact B] | split; [lia | exact M1]].
        -- intros (A & B). destruct (Nat.eq_dec b n) as [->|]; [right; reflexivity | left; split; [lia | exact B]].
      * assert (Hb : has (N.shiftl (N.b2n false) (N.of_nat n)) b <-> False).
        { split; [|tauto]. unfold has. cbn [N.b2n]. rewrite N.shiftl_0_l, N.bits_0. discriminate. }
        rewrite Hb. destruct M as [M1 M2]. split.
        -- intros [(A & B)|[]]. split; [lia | exact B].
        -- intros (A & B). left. split; [|exact B]. destruct (Nat.eq_dec b n) as [->|]; [|lia].
           specialize (M2 B). discriminate.
Qed.

Lemma fill_bits_has lines used b :
  has (fill_bits lines used) b <-> b < lines /\ exists b1 b2, b1 <= b <= b2 /\ has used b1 /\ has used b2.
Proof.
  pose proof (fill_state lines used lines (le_n _)) as H. cbv zeta in H. destruct H as (_ & _ & H). exact (H b).
Qed.

Lemma linked_bits_has lines linked o : (forall b, has o b -> b < lines) -> forall b,
  has (linked_bits lines linked o) b <-> has o b \/ (linked = true /\ exists b1, b <= b1 /\ has o b1 /\ forall b2, has o b2 -> b1 <= b2).
Proof.
  intros L b. unfold linked_bits. destruct linked; cbn [andb]; [|split; [tauto | intros [H|[H _]]; [exact H | discriminate]]].
  destruct (o =? 0)%N eqn:E; cbn [negb].
  - apply N.eqb_eq in E. subst. split; [tauto|]. intros [H|(_ & b1 & _ & H & _)]; [exact H|]. unfold has in H. rewrite N.bits_0 in H. discriminate.
  - apply N.eqb_neq in E. destruct (nonzero_bits o E) as (w & W).
    destruct (List.find _ (seq 0 lines)) as [i|] eqn:F.
    + assert (MIN : has o i /\ forall b2, has o b2 -> i <= b2).
      { assert (G : forall n s, List.find (fun i => negb (N.land o (N.shiftl 1 (N.of_nat i)) =? 0)%N) (seq s n) = Some i ->
                    has o i /\ forall b2, has o b2 -> s <= b2 -> i <= b2).
        { induction n as [|n IH]; intros s H; cbn [seq List.find] in H; [discriminate|]. rewrite test_bit in H.
          destruct (N.testbit o (N.of_nat s)) eqn:T.
          - inversion H; subst. split; [exact T | auto].
          - destruct (IH _ H) as (A & B). split; [exact A|]. intros b2 X Y. destruct (Nat.eq_dec b2 s) as [->|]; [unfold has in X; congruence|].
            apply B; [exact X | lia]. }
        destruct (G _ _ F) as (A & B). split; [exact A|]. intros b2 X. apply B; [exact X | lia]. }
      destruct MIN as (A & B). rewrite lor_bits.
      assert (MK : has (2 ^ N.of_nat i - 1) b <-> b < i).
      { unfold has. replace (2 ^ N.of_nat i - 1)%N with (N.ones (N.of_nat i)) by (rewrite N.ones_equiv; lia).
        rewrite N.ones_spec_iff. lia. }
      rewrite MK. split.
      * intros [H|H]; [left; exact H | right]. split; [reflexivity|]. exists i. repeat split; auto. lia.
      * intros [H|(_ & b1 & H & H1 & H2)]; [left; exact H|]. destruct (Nat.lt_ge_cases b i) as [G|G]; [right; exact G | left].
        pose proof (H2 i A). assert (b = i) by lia. subst. exact A.
    + exfalso. pose proof (find_none _ _ F w) as G. cbv beta in G. rewrite test_bit in G. unfold has in W. rewrite W in G.
      discriminate G. apply in_seq. specialize (L w W). lia.
Qed.

Lemma with_boundaries_has o b :
  has (with_boundaries o) b <-> has o b \/ has o (S b) \/ (0 < b /\ has o (b - 1)).
Proof.
  unfold with_boundaries. rewrite !lor_bits.
  assert (A : has (N.shiftl o 1) b <-> 0 < b /\ has o (b - 1)).
  { unfold has. destruct b as [|b].
    - split; [|lia]. rewrite N.shiftl_spec_low by lia. discriminate.
    - rewrite N.shiftl_spec_high' by lia. replace (N.of_nat (S b) - 1)%N with (N.of_nat (S b - 1)) by lia. split; [intros H; split; [lia | exact H] | tauto]. }
  assert (B : has (N.shiftr o 1) b <-> has o (S b)).
  { unfold has. rewrite N.shiftr_spec'. replace (N.of_nat b + 1)%N with (N.of_nat (S b)) by lia. tauto. }
  rewrite A, B. tauto.
Qed.

(** ** Lists of positions *)

Lemma leftmost_spec o pos : forall p q, leftmost o pos p <= q -> q < p -> N.land (nth q pos 0%N) o = 0%N.
Proof.
  induction p as [|p IH]; cbn [leftmost]; intros q A B; [lia|].
  destruct (N.land (nth p pos 0%N) o =? 0)%N eqn:E; [|lia]. apply N.eqb_eq in E.
  destruct (Nat.eq_dec q p) as [->|]; [exact E | apply IH; lia].
Qed.

Lemma leftmost_le o pos p : leftmost o pos p <= p.
Proof. induction p as [|p IH]; cbn [leftmost]; [lia|]. destruct (_ =? 0)%N; lia. Qed.

Lemma first_fit_spec b pos : forall n p, n = List.length pos - p -> p <= List.length pos ->
  let r := first_fit b (skipn p pos) p in
  p <= r <= List.length pos /\ (r < List.length pos -> N.land (nth r pos 0%N) b = 0%N).
Proof.
  induction n as [|n IH]; intros p E L; cbv zeta.
  - assert (p = List.length pos) by lia. subst p. rewrite skipn_all. cbn. split; [lia | lia].
  - assert (H : skipn p pos = nth p pos 0%N :: skipn (S p) pos).
    { clear -E. revert p E. induction pos as [|a pos IH]; intros p E; cbn in E; [lia|]. destruct p as [|p]; [reflexivity|].
      cbn [skipn nth]. apply IH. cbn in E. lia. }
    rewrite H. cbn [first_fit]. destruct (N.land (nth p pos 0%N) b =? 0)%N eqn:Z.
    + apply N.eqb_eq in Z. split; [lia | intros _; exact Z].
    + specialize (IH (S p) ltac:(lia) ltac:(lia)). cbv zeta in IH. destruct IH as (A & B). split; [lia | exact B].
Qed.

Lemma occupy_length p o pos : List.length (occupy p o pos) = List.length pos.
Proof. revert p. induction pos as [|a pos IH]; intros [|p]; cbn; auto. Qed.

Lemma occupy_nth pos : forall p o q, p < List.length pos ->
  nth q (occupy p o pos) 0%N = if q =? p then N.lor (nth q pos 0%N) o else nth q pos 0%N.
Proof.
  induction pos as [|a pos IH]; intros p o q L; cbn in L; [lia|].
  destruct p as [|p], q as [|q]; cbn [occupy nth Nat.eqb]; try reflexivity. apply IH. lia.
Qed.
