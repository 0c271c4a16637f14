From Coq Require Import Reals List Arith Lia Lra Bool Permutation.
From Coquelicot Require Import Complex.
From Verif Require Import Prelude NamesModel NamesSpec NamesProofs FockModel FockSpec FockProofs GateProofs
  OpticalModel OpticalProofs StateModel StateSpec CollectionModel EvalModel MeasureSpec MeasureProofs PropCustom PropOperator
  InterferenceSpec ArrangementProofs PermanentProofs CircuitSpec CircuitProofs EnsembleProofs PropCircuit ProtocolSpec.
Import ListNotations.

(** ** Two-channel elements as sums over the two channels *)
Definition put2 (h v x y : nat) (f : values) : values := set_nth (set_nth f h x) v y.
Lemma put2_valid D h v x y f : valid D f -> x < dL D -> y < dL D -> valid D (put2 h v x y f).
Proof. intros. unfold put2. now repeat apply set_nth_valid. Qed.
Lemma put2_nth h v x y f c : h < length f -> v < length f ->
  nth c (put2 h v x y f) 0 = if c =? v then y else if c =? h then x else nth c f 0.
Proof. intros Hh Hv. unfold put2. rewrite FockProofs.nth_set_nth by now rewrite set_nth_length. destruct (c =? v); [reflexivity|]. now apply FockProofs.nth_set_nth. Qed.
Lemma valid_nth_lt D f c : valid D f -> c < dN D -> nth c f 0 < dL D.
Proof. intros [H1 H2] Hc. rewrite Forall_forall in H2. apply H2. apply nth_In. now rewrite H1. Qed.
Lemma values_ext D f g : valid D f -> valid D g -> (forall c, c < dN D -> nth c f 0 = nth c g 0) -> f = g.
Proof. intros [H1 _] [H2 _] H. apply (nth_ext _ _ 0 0); [congruence|]. rewrite H1. exact H. Qed.
Definition elsewhereb (D : dims) (h v : nat) (f g : values) : bool := forallb (fun c => (c =? h) || (c =? v) || (nth c f 0 =? nth c g 0)) (seq 0 (dN D)).
Lemma elsewhereb_spec D h v f g : elsewhereb D h v f g = true <-> forall c, c < dN D -> c <> h -> c <> v -> nth c f 0 = nth c g 0.
Proof.
  unfold elsewhereb. rewrite forallb_forall. split.
  - intros H c Hc Hh Hv. specialize (H c). rewrite in_seq in H. specialize (H ltac:(lia)). rewrite !orb_true_iff, !Nat.eqb_eq in H. tauto.
  - intros H c Hc. apply in_seq in Hc. rewrite !orb_true_iff, !Nat.eqb_eq. destruct (Nat.eq_dec c h); [tauto|]. destruct (Nat.eq_dec c v); [tauto|]. right. apply H; lia.
Qed.
Definition pairs (L : nat) : list (nat * nat) := list_prod (seq 0 L) (seq 0 L).
Lemma pairs_in L x y : In (x, y) (pairs L) <-> x < L /\ y < L.
Proof. unfold pairs. rewrite in_prod_iff, !in_seq. lia. Qed.
Lemma list_prod_nodup {A B} (l : list A) (m : list B) : NoDup l -> NoDup m -> NoDup (list_prod l m).
Proof.
  intros Hl Hm. induction Hl as [|x l Hx Hl IH]; [constructor|]. cbn. apply NoDup_app_intro; [|exact IH|].
  - apply FinFun.Injective_map_NoDup; [|exact Hm]. intros a b E. now injection E.
  - intros [a b] H1 H2. apply in_map_iff in H1. destruct H1 as (z & E & _). injection E as <- <-. apply in_prod_iff in H2. tauto.
Qed.
Lemma pairs_nodup L : NoDup (pairs L).
Proof. apply list_prod_nodup; apply seq_NoDup. Qed.
Lemma Csum_pairs L F : Csum (pairs L) F = Csum (seq 0 L) (fun x => Csum (seq 0 L) (fun y => F (x, y))).
Proof.
  unfold pairs. induction (seq 0 L) as [|x l IH] at 1 3; [reflexivity|]. cbn [list_prod]. rewrite Csum_app, Csum_map, Csum_cons. f_equal. exact IH.
Qed.
Lemma pair_sum D A h v f F : h <> v -> h < dN D -> v < dN D -> valid D f ->
  Csum (basis D) (fun k => pair_amp D A h v f k * F k)%C
  = Csum (pairs (dL D)) (fun p => gate_amp (dL D) A (nth h f 0) (nth v f 0) (fst p) (snd p) * F (put2 h v (fst p) (snd p) f))%C.
Proof.
  intros Hne Hh Hv Vf. pose proof (proj1 Vf) as Lf. rewrite (Csum_image (basis D) (pairs (dL D)) (fun p => put2 h v (fst p) (snd p) f)).
  - apply Csum_ext. intros [x y] Hp. apply pairs_in in Hp. cbn [fst snd]. f_equal. unfold pair_amp. fold (elsewhereb D h v f (put2 h v x y f)).
    assert (E : elsewhereb D h v f (put2 h v x y f) = true).
    { apply elsewhereb_spec. intros c Hc Ch Cv. rewrite put2_nth by lia. destruct (Nat.eqb_spec c v); [congruence|]. destruct (Nat.eqb_spec c h); [congruence|reflexivity]. }
    rewrite E. rewrite !put2_nth by lia. rewrite !Nat.eqb_refl. destruct (Nat.eqb_spec h v); [congruence|reflexivity].
  - apply basis_nodup.
  - apply pairs_nodup.
  - intros [x y] [x' y'] _ _ E. cbn [fst snd] in E. pose proof (f_equal (fun l => nth h l 0) E) as E1. pose proof (f_equal (fun l => nth v l 0) E) as E2. cbv beta in E1, E2.
    rewrite !put2_nth in E1, E2 by lia. rewrite !Nat.eqb_refl in *. destruct (Nat.eqb_spec h v); congruence.
  - intros [x y] Hp. apply pairs_in in Hp. apply basis_in. now apply put2_valid.
  - intros k Hk Hn. apply basis_in in Hk. unfold pair_amp. fold (elsewhereb D h v f k). destruct (elsewhereb D h v f k) eqn:E; [|ring]. exfalso.
    apply (Hn (nth h k 0, nth v k 0)).
    + apply pairs_in. split; now apply (valid_nth_lt D).
    + cbn [fst snd]. apply (values_ext D); [exact Hk|apply put2_valid; try assumption; now apply (valid_nth_lt D)|]. intros c Hc. rewrite put2_nth by lia.
      destruct (Nat.eqb_spec c v); [now subst|]. destruct (Nat.eqb_spec c h); [now subst|]. symmetry. apply (proj1 (elsewhereb_spec D h v f k) E); assumption.
Qed.
Lemma gate_rows_pairs L A n m n' m' : unitary2 A -> n < L -> m < L -> n' < L -> m' < L ->
  Csum (pairs L) (fun p => gate_amp L A n m (fst p) (snd p) * Cconj (gate_amp L A n' m' (fst p) (snd p)))%C = if (n =? n') && (m =? m') then RtoC 1 else RtoC 0.
Proof. intros HU H1 H2 H3 H4. rewrite <- (gate_rows L A n m n' m' HU H1 H2 H3 H4). rewrite Csum_pairs, Csum_swap. reflexivity. Qed.

Lemma map_nodup {A B} (f : A -> B) l : (forall x y, In x l -> In y l -> f x = f y -> x = y) -> NoDup l -> NoDup (map f l).
Proof.
  intros H ND. induction ND as [|x l Hx ND IH]; [constructor|]. cbn [map]. constructor.
  - intro Hin. apply in_map_iff in Hin. destruct Hin as (y & E & Hy). apply Hx. rewrite (H x y); cbn; auto.
  - apply IH. intros y z Hy Hz. apply H; cbn; auto.
Qed.

Section Sides.
Variables (D : dims) (S : nat -> bool).
Definition agree_on (f g : values) : bool := forallb (fun c => negb (S c) || (nth c f 0 =? nth c g 0)) (seq 0 (dN D)).
Lemma agree_on_spec f g : agree_on f g = true <-> forall c, c < dN D -> S c = true -> nth c f 0 = nth c g 0.
Proof.
  unfold agree_on. rewrite forallb_forall. split.
  - intros H c Hc Hs. specialize (H c). rewrite in_seq in H. specialize (H ltac:(lia)). rewrite Hs in H. now apply Nat.eqb_eq.
  - intros H c Hc. apply in_seq in Hc. destruct (S c) eqn:E; [|reflexivity]. cbn. apply Nat.eqb_eq. apply H; [lia|exact E].
Qed.
Definition same_rest (f f' : values) : Prop := forall c, c < dN D -> S c = false -> nth c f 0 = nth c f' 0.
Definition on (p : values -> C) : Prop := forall f g, valid D f -> valid D g -> (forall c, c < dN D -> S c = true -> nth c f 0 = nth c g 0) -> p f = p g.
Definition off (q : values -> C) : Prop := forall f g, valid D f -> valid D g -> (forall c, c < dN D -> S c = false -> nth c f 0 = nth c g 0) -> q f = q g.
(** The channels [S] of [f] and the other channels of [g]. *)
Definition mix (f g : values) : values := map (fun c => if S c then nth c f 0 else nth c g 0) (seq 0 (dN D)).
Lemma mix_nth f g c : c < dN D -> nth c (mix f g) 0 = if S c then nth c f 0 else nth c g 0.
Proof.
  intro Hc. unfold mix. rewrite ApplyProofs.nth_map0 by now rewrite seq_length. now rewrite seq_nth.
Qed.
Lemma mix_valid f g : valid D f -> valid D g -> valid D (mix f g).
Proof.
  intros Vf Vg. split; [unfold mix; now rewrite map_length, seq_length|]. unfold mix. apply Forall_forall. intros x Hx. apply in_map_iff in Hx. destruct Hx as (c & <- & Hc). apply in_seq in Hc.
  destruct (S c); apply valid_nth_lt; try assumption; lia.
Qed.
Lemma mix_mix f g h : valid D f -> mix (mix f g) (mix h f) = f.
Proof.
  intro Vf. apply (nth_ext _ _ 0 0); [unfold mix; rewrite map_length, seq_length; symmetry; apply Vf|]. intros c Hc. unfold mix in Hc. rewrite map_length, seq_length in Hc. rewrite !mix_nth by exact Hc. now destruct (S c).
Qed.
End Sides.
Section Fibres.
Variables (D : dims) (S : nat -> bool).
Local Notation on := (on D S).
Local Notation mix := (mix D S).
Local Notation mix_nth := (mix_nth D S).
Local Notation mix_valid := (mix_valid D S).
(** Sums over the values that agree off [S] with a given one. *)
Definition agree_off (f g : values) : bool := agree_on D (fun c => negb (S c)) f g.
Lemma agree_off_spec f g : agree_off f g = true <-> forall c, c < dN D -> S c = false -> nth c f 0 = nth c g 0.
Proof. unfold agree_off. rewrite agree_on_spec. split; intros H c Hc Hs; apply H; try assumption; [now rewrite Hs|now destruct (S c)]. Qed.
Lemma fibre_sum (F : values -> values -> C) : (forall f f' k k', valid D f -> valid D f' -> valid D k -> valid D k' -> agree_off f k = true -> agree_off f' k' = true ->
    (forall c, c < dN D -> S c = true -> nth c f 0 = nth c f' 0) -> (forall c, c < dN D -> S c = true -> nth c k 0 = nth c k' 0) -> F f k = F f' k') ->
  (forall f k, valid D f -> valid D k -> agree_off f k = false -> F f k = RtoC 0) ->
  on (fun k => Csum (basis D) (fun f => F f k)).
Proof.
  intros HF Hz k k' Vk Vk' Hkk. 
  assert (R : forall k, valid D k -> Csum (basis D) (fun f => F f k) = Csum (filter (fun f => agree_off f k) (basis D)) (fun f => F f k)).
  { intros k0 V0. rewrite Csum_filter. apply Csum_ext. intros f Hf. apply basis_in in Hf. destruct (agree_off f k0) eqn:E; [reflexivity|]. now apply Hz. }
  rewrite (R k Vk), (R k' Vk'). rewrite (Csum_perm (filter (fun f => agree_off f k') (basis D)) (map (fun f => mix f k') (filter (fun f => agree_off f k) (basis D)))).
  - rewrite Csum_map. apply Csum_ext. intros f Hf. apply filter_In in Hf. destruct Hf as [Vf Hf]. apply basis_in in Vf. apply HF; try assumption; [now apply mix_valid| |].
    + apply agree_off_spec. intros c Hc Hs. rewrite mix_nth by exact Hc. now rewrite Hs.
    + intros c Hc Hs. rewrite mix_nth by exact Hc. now rewrite Hs.
  - apply NoDup_Permutation; [apply NoDup_filter, basis_nodup| |].
    + apply map_nodup; [|apply NoDup_filter, basis_nodup]. intros f f' H1 H2 E. apply filter_In in H1. apply filter_In in H2. destruct H1 as [V1 A1]. destruct H2 as [V2 A2]. apply basis_in in V1. apply basis_in in V2.
      apply (values_ext D); try assumption. intros c Hc. destruct (S c) eqn:Es.
      * apply (f_equal (fun x => nth c x 0)) in E. rewrite !mix_nth in E by exact Hc. now rewrite Es in E.
      * rewrite (proj1 (agree_off_spec f k) A1 c Hc Es). now rewrite (proj1 (agree_off_spec f' k) A2 c Hc Es).
    + intros f. rewrite filter_In, in_map_iff. split.
      * intros [Vf Af]. apply basis_in in Vf. exists (mix f k). split.
        -- apply (values_ext D); [apply mix_valid; [now apply mix_valid|exact Vk']|exact Vf|]. intros c Hc. rewrite !mix_nth by exact Hc. destruct (S c) eqn:Es; [reflexivity|]. symmetry. now apply (proj1 (agree_off_spec f k') Af).
        -- apply filter_In. split; [apply basis_in; now apply mix_valid|]. apply agree_off_spec. intros c Hc Hs. rewrite mix_nth by exact Hc. now rewrite Hs.
      * intros (f0 & <- & Hin). apply filter_In in Hin. destruct Hin as [V0 A0]. apply basis_in in V0. split; [apply basis_in; now apply mix_valid|]. apply agree_off_spec. intros c Hc Hs. rewrite mix_nth by exact Hc. now rewrite Hs.
Qed.
End Fibres.
(** ** Transformations that happen in some channels *)
Lemma pair_acts D S A h v : S h = true -> S v = true -> h <> v -> h < dN D -> v < dN D -> acts_in D S (pair_amp D A h v).
Proof.
  intros Sh Sv Hne Hh Hv. split.
  - intros f g c Vf Vg Hc HS Hn. unfold pair_amp. replace (forallb _ _) with false; [reflexivity|]. symmetry. apply not_true_iff_false. intros H.
    rewrite forallb_forall in H. specialize (H c ltac:(apply in_seq; lia)). apply orb_true_iff in H. destruct H as [H|H]; [apply orb_true_iff in H; destruct H as [H|H]|]; apply Nat.eqb_eq in H; subst; congruence.
  - intros f g f' g' Vf Vg Vf' Vg' H1 H2. unfold pair_amp. destruct (H1 h Hh Sh) as [-> ->]. destruct (H1 v Hv Sv) as [-> ->].
    replace (forallb (fun c => (c =? h) || (c =? v) || (nth c f 0 =? nth c g 0)) (seq 0 (dN D))) with (forallb (fun c => (c =? h) || (c =? v) || (nth c f' 0 =? nth c g' 0)) (seq 0 (dN D))); [reflexivity|].
    assert (G : forall l, (forall c, In c l -> c < dN D) -> forallb (fun c => (c =? h) || (c =? v) || (nth c f' 0 =? nth c g' 0)) l = forallb (fun c => (c =? h) || (c =? v) || (nth c f 0 =? nth c g 0)) l).
    { induction l as [|c l IH]; intros Hl; [reflexivity|]. cbn [forallb]. rewrite IH by (intros; apply Hl; now right). f_equal. f_equal.
      pose proof (Hl c (or_introl eq_refl)) as Hc. destruct (S c) eqn:E.
      - destruct (H1 c Hc E) as [-> ->]. reflexivity.
      - destruct (H2 c Hc E) as [-> ->]. now rewrite !Nat.eqb_refl. }
    apply G. intros c Hc. apply in_seq in Hc. lia.
Qed.
Lemma agree_off_false D S f g : agree_off D S f g = false -> exists c, c < dN D /\ S c = false /\ nth c f 0 <> nth c g 0.
Proof.
  intros E. unfold agree_off, agree_on in E.
  assert (exists c, In c (seq 0 (dN D)) /\ negb (negb (S c)) || (nth c f 0 =? nth c g 0) = false) as (c & Hin & H).
  { induction (seq 0 (dN D)) as [|x l IH]; [discriminate|]. cbn [forallb] in E. apply andb_false_iff in E. destruct E as [E|E]; [exists x; split; [now left|exact E]|].
    destruct (IH E) as (c & Hc & H). exists c. split; [now right|exact H]. }
  apply in_seq in Hin. apply orb_false_iff in H. destruct H as [H1 H2]. exists c. split; [lia|]. split; [now destruct (S c)|now apply Nat.eqb_neq].
Qed.
Lemma acts_zero D S T f g : acts_in D S T -> valid D f -> valid D g -> agree_off D S f g = false -> T f g = RtoC 0.
Proof. intros [HZ _] Vf Vg E. destruct (agree_off_false D S f g E) as (c & Hc & Hs & Hn). now apply (HZ f g c). Qed.
Lemma acts_wider D S S' T : (forall c, c < dN D -> S c = true -> S' c = true) -> acts_in D S T -> acts_in D S' T.
Proof.
  intros HS HT. assert (HO : forall c, c < dN D -> S' c = false -> S c = false) by (intros c Hc H; destruct (S c) eqn:E; [rewrite (HS c Hc E) in H; discriminate|reflexivity]).
  split.
  - intros f g c Vf Vg Hc Hs Hn. apply (proj1 HT f g c); try assumption. now apply HO.
  - intros f g f' g' Vf Vg Vf' Vg' H1 H2. destruct (agree_off D S f g) eqn:E.
    + pose proof (proj1 (agree_off_spec D S f g) E) as A. apply (proj2 HT); try assumption.
      * intros c Hc Hs. now apply H1, HS.
      * intros c Hc Hs. split; [now apply A|]. destruct (S' c) eqn:E'; [|now apply H2]. destruct (H1 c Hc E') as [<- <-]. now apply A.
    + rewrite (acts_zero D S T f g HT Vf Vg E). symmetry. destruct (agree_off_false D S f g E) as (c & Hc & Hs & Hn). apply (proj1 HT f' g' c); try assumption.
      destruct (S' c) eqn:E'.
      * destruct (H1 c Hc E') as [<- <-]. exact Hn.
      * exfalso. apply Hn. now apply H2.
Qed.
(** The transformation from [g], seen from [f]: the other channels play no part. *)
Lemma acts_moved D S T f g k : acts_in D S T -> valid D f -> valid D g -> valid D k -> agree_off D S f k = true ->
  T g (mix D S k g) = T (mix D S g f) k.
Proof.
  intros HT Vf Vg Vk A. apply (proj2 HT); try assumption; try (now apply mix_valid).
  - intros c Hc Hs. rewrite !mix_nth, Hs by exact Hc. now split.
  - intros c Hc Hs. rewrite !mix_nth, Hs by exact Hc. split; [reflexivity|]. now apply (proj1 (agree_off_spec D S f k) A).
Qed.
Lemma mix_off D S f g : agree_off D S (mix D S f g) g = true.
Proof. apply agree_off_spec. intros c Hc Hs. now rewrite mix_nth, Hs by exact Hc. Qed.
Lemma mix_on D S f g : agree_on D S (mix D S f g) f = true.
Proof. apply agree_on_spec. intros c Hc Hs. now rewrite mix_nth, Hs by exact Hc. Qed.
Lemma mix_self D S f g : valid D f -> valid D g -> agree_on D S f g = true -> mix D S f g = g.
Proof.
  intros Vf Vg E. apply (values_ext D); [now apply mix_valid|exact Vg|]. intros c Hc. rewrite mix_nth by exact Hc. destruct (S c) eqn:Es; [|reflexivity]. now apply (proj1 (agree_on_spec D S f g) E).
Qed.
Lemma mix_rest D S f g : valid D f -> valid D g -> agree_off D S f g = true -> mix D S f g = f.
Proof.
  intros Vf Vg E. apply (values_ext D); [now apply mix_valid|exact Vf|]. intros c Hc. rewrite mix_nth by exact Hc. destruct (S c) eqn:Es; [reflexivity|]. symmetry. now apply (proj1 (agree_off_spec D S f g) E).
Qed.
Lemma agree_both D S f g : valid D f -> valid D g -> agree_on D S f g = true -> agree_off D S f g = true -> f = g.
Proof. intros Vf Vg E E'. rewrite <- (mix_rest D S f g Vf Vg E'). now apply mix_self. Qed.

(** ** Observables that do not look at Alice's channels *)
Section Parties.
Variables (D : dims) (ncl : nat) (S K : nat -> bool).
Local Notation agree_on := (agree_on D S).
Local Notation agree_on_spec := (agree_on_spec D S).
Local Notation same_rest := (same_rest D S).
Definition blind (o : observable) : Prop :=
  (forall l r f g, length r = ncl -> valid D f -> valid D g -> agree_on f g = false -> o l r f g = RtoC 0) /\
  (forall l r r' f f' g g', length r = ncl -> same_outside K r r' -> valid D f -> valid D f' -> valid D g -> valid D g' ->
     agree_on f g = true -> agree_on f' g' = true -> same_rest f f' -> same_rest g g' -> o l r f g = o l r' f' g').
Lemma same_outside_refl r : same_outside K r r.
Proof. split; auto. Qed.
Lemma blind_agree o o' : agree D ncl o o' -> blind o -> blind o'.
Proof.
  intros H [B1 B2]. split.
  - intros l r f g Hr Vf Vg Ha. rewrite <- H by assumption. now apply B1.
  - intros l r r' f f' g g' Hr Hs Vf Vf' Vg Vg' A1 A2 S1 S2. rewrite <- !H; try assumption; [now apply B2|]. destruct Hs; congruence.
Qed.
Lemma expand_element A h v (o : values -> values -> C) f g : h <> v -> h < dN D -> v < dN D -> valid D f -> valid D g ->
  Csum (basis D) (fun f' => Csum (basis D) (fun g' => o f' g' * (pair_amp D A h v f f' * Cconj (pair_amp D A h v g g'))))%C
  = Csum (pairs (dL D)) (fun p => Csum (pairs (dL D)) (fun q => o (put2 h v (fst p) (snd p) f) (put2 h v (fst q) (snd q) g) *
      (gate_amp (dL D) A (nth h f 0) (nth v f 0) (fst p) (snd p) * Cconj (gate_amp (dL D) A (nth h g 0) (nth v g 0) (fst q) (snd q)))))%C.
Proof.
  intros Hne Hh Hv Vf Vg.
  transitivity (Csum (basis D) (fun f' => pair_amp D A h v f f' * Cconj (Csum (basis D) (fun g' => pair_amp D A h v g g' * Cconj (o f' g'))))%C).
  { apply Csum_ext. intros f' _. rewrite Csum_conj, <- Csum_scal_l. apply Csum_ext. intros g' _. rewrite Cconj_mult, Cconj_invol. ring. }
  rewrite (pair_sum D A h v f (fun f' => Cconj (Csum (basis D) (fun g' => pair_amp D A h v g g' * Cconj (o f' g'))%C)) Hne Hh Hv Vf).
  apply Csum_ext. intros p _. rewrite (pair_sum D A h v g (fun g' => Cconj (o (put2 h v (fst p) (snd p) f) g')) Hne Hh Hv Vg).
  rewrite Csum_conj, <- Csum_scal_l. apply Csum_ext. intros q _. rewrite Cconj_mult, Cconj_invol. ring.
Qed.
Lemma readout_agree opt f g : (forall c, In c opt -> c < dN D -> nth c f 0 = nth c g 0) -> length f = dN D -> length g = dN D -> readout opt f = readout opt g.
Proof.
  intros H Lf Lg. unfold readout. apply map_ext_in. intros c Hc. destruct (Nat.lt_ge_cases c (dN D)) as [Hlt|Hge]; [now apply H|]. rewrite !nth_overflow by lia. reflexivity.
Qed.
Lemma readout_nth opt f g c : readout opt f = readout opt g -> In c opt -> nth c f 0 = nth c g 0.
Proof.
  unfold readout. intros H Hc. induction opt as [|x opt IH]; [destruct Hc|]. cbn in H. injection H as H1 H2. destruct Hc as [<-|Hc]; [exact H1|now apply IH].
Qed.
Lemma noted_outside cl o r : (forall c, In c cl -> K c = true) -> same_outside K (noted cl o r) r.
Proof.
  intro H. split; [apply noted_length|]. intros c Hc. destruct (Nat.lt_ge_cases c (length r)) as [Hlt|Hge].
  - rewrite noted_nth by exact Hlt. rewrite noted_at_none; [reflexivity|]. intro Hin. specialize (H c Hin). congruence.
  - rewrite !nth_overflow; [reflexivity|exact Hge|now rewrite noted_length].
Qed.
Lemma noted_same cl o r r' : same_outside K r r' -> same_outside K (noted cl o r) (noted cl o r').
Proof.
  intros [H1 H2]. split; [now rewrite !noted_length|]. intros c Hc. destruct (Nat.lt_ge_cases c (length r)) as [Hlt|Hge].
  - rewrite !noted_nth by (try exact Hlt; lia). destruct (noted_at _ _ _); [reflexivity|]. now apply H2.
  - rewrite !nth_overflow; [reflexivity| |]; rewrite noted_length; lia.
Qed.

(** A transformation in Alice's channels. *)
Lemma alice_transform T o l r f g : acts_in D S T -> keeps_inner D T -> blind o -> length r = ncl -> valid D f -> valid D g ->
  Csum (basis D) (fun f' => Csum (basis D) (fun g' => o l r f' g' * (T f f' * Cconj (T g g'))))%C = o l r f g.
Proof.
  intros HT HI [B1 B2] Hr Vf Vg. set (g1 := mix D S f g). set (f1 := mix D S g f).
  assert (V1 : valid D g1) by now apply mix_valid. assert (V2 : valid D f1) by now apply mix_valid.
  assert (E1 : agree_on f g1 = true) by (apply agree_on_spec; intros c Hc Hs; unfold g1; now rewrite mix_nth, Hs by exact Hc).
  transitivity (Csum (basis D) (fun f' => o l r f g1 * (T f f' * Cconj (T f1 f')))%C).
  - apply Csum_ext. intros f' Hf. apply basis_in in Hf. destruct (agree_off D S f f') eqn:E.
    + rewrite (Csum_single _ (mix D S f' g)); [|apply basis_nodup|apply basis_in; now apply mix_valid|].
      * rewrite (acts_moved D S T f g f' HT Vf Vg Hf E). fold f1. f_equal. apply B2; try assumption; try apply same_outside_refl; try (now apply mix_valid).
        -- apply agree_on_spec. intros c Hc Hs. now rewrite mix_nth, Hs by exact Hc.
        -- intros c Hc Hs. symmetry. now apply (proj1 (agree_off_spec D S f f') E).
        -- intros c Hc Hs. unfold g1. now rewrite !mix_nth, Hs by exact Hc.
      * intros g' Hg Hne. apply basis_in in Hg. destruct (agree_off D S g g') eqn:E2.
        -- rewrite B1; [ring|assumption..|]. destruct (agree_on f' g') eqn:E3; [|reflexivity]. exfalso. apply Hne. symmetry.
           apply (values_ext D); [now apply mix_valid|exact Hg|]. intros c Hc. rewrite mix_nth by exact Hc. destruct (S c) eqn:Es; [now apply (proj1 (agree_on_spec f' g') E3)|now apply (proj1 (agree_off_spec D S g g') E2)].
        -- rewrite (acts_zero D S T g g' HT Vg Hg E2). rewrite Cconj_RtoC. ring.
    + rewrite (acts_zero D S T f f' HT Vf Hf E). rewrite Csum_zero; [ring|]. intros; ring.
  - rewrite Csum_scal_l, (HI f f1 Vf V2). destruct (agree_on f g) eqn:E.
    + assert (Eg : g1 = g) by (now apply mix_self). assert (Ef : f1 = f) by (apply mix_self; try assumption; apply agree_on_spec; intros c Hc Hs; symmetry; now apply (proj1 (agree_on_spec f g) E)).
      rewrite Eg, Ef, leqb_refl. ring.
    + rewrite (B1 l r f g Hr Vf Vg E). destruct (leqb f f1) eqn:E2; [|ring]. exfalso. apply leqb_spec in E2. assert (X : agree_on f g = true); [|congruence]. apply agree_on_spec. intros c Hc Hs.
      transitivity (nth c f1 0); [now rewrite <- E2|]. unfold f1. now rewrite mix_nth, Hs by exact Hc.
Qed.
(** A transformation in Bob's channels. *)
Lemma bob_transform T o : acts_in D (fun c => negb (S c)) T -> blind o -> blind (before D (Transform T) o).
Proof.
  intros HT [B1 B2]. cbn [before].
  assert (HK : forall f f', valid D f -> valid D f' -> agree_on f f' = false -> T f f' = RtoC 0).
  { intros f f' Vf Vf' E. apply (acts_zero D _ T f f' HT Vf Vf'). destruct (agree_off _ _ _ _) eqn:E'; [|reflexivity]. rewrite <- E. symmetry. apply agree_on_spec. intros c Hc Hs.
    apply (proj1 (agree_off_spec D _ f f') E' c Hc). now rewrite Hs. }
  split.
  - intros l r f g Hr Vf Vg E. apply Csum_zero. intros f' Hf. apply basis_in in Hf. apply Csum_zero. intros g' Hg. apply basis_in in Hg.
    destruct (agree_on f f') eqn:E1; [|rewrite (HK f f' Vf Hf E1); ring]. destruct (agree_on g g') eqn:E2; [|rewrite (HK g g' Vg Hg E2), Cconj_RtoC; ring].
    rewrite B1; [ring|assumption..|]. destruct (agree_on f' g') eqn:E3; [|reflexivity]. exfalso. assert (X : agree_on f g = true); [|congruence]. apply agree_on_spec. intros c Hc Hs.
    rewrite (proj1 (agree_on_spec f f') E1 c Hc Hs), (proj1 (agree_on_spec g g') E2 c Hc Hs). now apply (proj1 (agree_on_spec f' g') E3).
  - intros l r r' f f' g g' Hr Hs Vf Vf' Vg Vg' E E' Sf Sg. assert (Hr' : length r' = ncl) by (destruct Hs; congruence).
    set (w := fun r0 h k => o l r0 (mix D S f h) (mix D S f k)).
    assert (HA : forall h k, agree_on (mix D S f h) (mix D S f k) = true) by (intros h k; apply agree_on_spec; intros c Hc Hs'; now rewrite !mix_nth, Hs' by exact Hc).
    assert (Hw : forall r0, length r0 = ncl -> same_outside K r0 r' -> forall f0 g0, valid D f0 -> valid D g0 -> agree_on f0 g0 = true ->
      Csum (basis D) (fun h => Csum (basis D) (fun k => o l r0 h k * (T f0 h * Cconj (T g0 k))))%C = Csum (basis D) (fun h => Csum (basis D) (fun k => w r' h k * Cconj (T g0 k)) * T f0 h)%C).
    { intros r0 Hr0 Hs0 f0 g0 V0 V0' E0. apply Csum_ext. intros h Hh. apply basis_in in Hh. rewrite <- Csum_scal_r. apply Csum_ext. intros k Hk. apply basis_in in Hk.
      destruct (agree_on f0 h) eqn:E1; [|rewrite (HK f0 h V0 Hh E1); ring]. destruct (agree_on g0 k) eqn:E2; [|rewrite (HK g0 k V0' Hk E2), Cconj_RtoC; ring].
      replace (w r' h k) with (o l r0 h k); [ring|]. unfold w. apply B2; try assumption; try (now apply mix_valid); try apply HA.
      - apply agree_on_spec. intros c Hc Hs'. rewrite <- (proj1 (agree_on_spec f0 h) E1 c Hc Hs'), <- (proj1 (agree_on_spec g0 k) E2 c Hc Hs'). now apply (proj1 (agree_on_spec f0 g0) E0).
      - intros c Hc Hs'. now rewrite mix_nth, Hs' by exact Hc.
      - intros c Hc Hs'. now rewrite mix_nth, Hs' by exact Hc. }
    rewrite (Hw r Hr Hs f g Vf Vg E), (Hw r' Hr' (same_outside_refl r') f' g' Vf' Vg' E').
    assert (Hww : forall h k h' k', valid D h -> valid D k -> valid D h' -> valid D k' -> same_rest h h' -> same_rest k k' -> w r' h k = w r' h' k').
    { intros h k h' k' V1 V2 V3 V4 R1 R2. unfold w. apply B2; try assumption; try (now apply mix_valid); try apply HA; try apply same_outside_refl; intros c Hc Hs'; rewrite !mix_nth, Hs' by exact Hc; [now apply R1|now apply R2]. }
    assert (HN : forall c, negb (S c) = true -> S c = false) by (intros c; now destruct (S c)).
    assert (HN' : forall c, S c = false -> negb (S c) = true) by (intros c; now destruct (S c)).
    assert (HT2 : forall a b a' b', valid D a -> valid D a' -> valid D b -> valid D b' -> agree_off D (fun c => negb (S c)) a b = true -> agree_off D (fun c => negb (S c)) a' b' = true ->
      same_rest a a' -> same_rest b b' -> T b a = T b' a').
    { intros a b a' b' V1 V2 V3 V4 A1 A2 R1 R2. apply (proj2 HT); try assumption.
      - intros c Hc Hs'. split; [apply R2|apply R1]; auto.
      - intros c Hc Hs'. split; symmetry; [now apply (proj1 (agree_off_spec D _ a b) A1)|now apply (proj1 (agree_off_spec D _ a' b') A2)]. }
    assert (HT0 : forall a b, valid D a -> valid D b -> agree_off D (fun c => negb (S c)) a b = false -> T b a = RtoC 0).
    { intros a b V1 V2 A. apply (acts_zero D _ T b a HT V2 V1). destruct (agree_off _ _ b a) eqn:A'; [|reflexivity]. rewrite <- A. symmetry. apply agree_off_spec. intros c Hc Hs'. symmetry. now apply (proj1 (agree_off_spec D _ b a) A'). }
    transitivity (Csum (basis D) (fun h => Csum (basis D) (fun k => w r' h k * Cconj (T g' k)) * T f h)%C).
    + apply Csum_ext. intros h Hh. apply basis_in in Hh. f_equal.
      refine (fibre_sum D (fun c => negb (S c)) (fun k g0 => w r' h k * Cconj (T g0 k))%C _ _ g g' Vg Vg' _).
      * intros a a' b b' V1 V2 V3 V4 A1 A2 R1 R2. f_equal; [apply Hww; try assumption; [intros c Hc Hs'; reflexivity|]|f_equal; apply HT2; try assumption]; intros c Hc Hs'; try (now apply R1; auto); now apply R2; auto.
      * intros a b V1 V2 A. rewrite (HT0 a b V1 V2 A), Cconj_RtoC. ring.
      * intros c Hc Hs'. apply Sg; auto.
    + refine (fibre_sum D (fun c => negb (S c)) (fun h f0 => Csum (basis D) (fun k => w r' h k * Cconj (T g' k)) * T f0 h)%C _ _ f f' Vf Vf' _).
      * intros a a' b b' V1 V2 V3 V4 A1 A2 R1 R2. f_equal; [apply Csum_ext; intros k Hk; apply basis_in in Hk; f_equal; apply Hww; try assumption; [|intros c Hc Hs'; reflexivity]|apply HT2; try assumption]; intros c Hc Hs'; try (now apply R1; auto); now apply R2; auto.
      * intros a b V1 V2 A. rewrite (HT0 a b V1 V2 A). ring.
      * intros c Hc Hs'. apply Sf; auto.
Qed.

(** Nothing Alice does changes what such an observable shows. *)
Lemma alice_invisible op o : by_alice D ncl S K op -> blind o -> agree D ncl (before D op o) o.
Proof.
  intros Ha [B1 B2] l r f g Hr Vf Vg. destruct op as [A h v|T|F|opt cl]; cbn [before by_alice] in *.
  - destruct Ha as (Sh & Sv & Hne & Hh & Hv & HU). specialize (HU r Hr). rewrite expand_element by assumption. pose proof (proj1 Vf) as Lf. pose proof (proj1 Vg) as Lg.
    set (rest := forallb (fun c => negb (S c) || (c =? h) || (c =? v) || (nth c f 0 =? nth c g 0)) (seq 0 (dN D))).
    assert (Hrest : rest = true <-> forall c, c < dN D -> S c = true -> c <> h -> c <> v -> nth c f 0 = nth c g 0).
    { unfold rest. rewrite forallb_forall. split.
      - intros H c Hc Hs Ch Cv. specialize (H c). rewrite in_seq in H. specialize (H ltac:(lia)). rewrite !orb_true_iff, negb_true_iff, !Nat.eqb_eq in H. destruct H as [[[H|H]|H]|H]; congruence.
      - intros H c Hc. apply in_seq in Hc. rewrite !orb_true_iff, negb_true_iff, !Nat.eqb_eq. destruct (S c) eqn:E; [|tauto]. destruct (Nat.eq_dec c h); [tauto|]. destruct (Nat.eq_dec c v); [tauto|]. right. apply H; auto; lia. }
    assert (Hag : forall x y x' y', agree_on (put2 h v x y f) (put2 h v x' y' g) = true <-> rest = true /\ x = x' /\ y = y').
    { intros x y x' y'. rewrite agree_on_spec, Hrest. split.
      - intro H. split; [|split].
        + intros c Hc Hs Ch Cv. specialize (H c Hc Hs). rewrite !put2_nth in H by lia. destruct (Nat.eqb_spec c v); [congruence|]. destruct (Nat.eqb_spec c h); [congruence|exact H].
        + specialize (H h Hh Sh). rewrite !put2_nth in H by lia. rewrite Nat.eqb_refl in H. destruct (Nat.eqb_spec h v); [congruence|exact H].
        + specialize (H v Hv Sv). rewrite !put2_nth in H by lia. rewrite Nat.eqb_refl in H. exact H.
      - intros (H & -> & ->) c Hc Hs. rewrite !put2_nth by lia. destruct (Nat.eqb_spec c v); [reflexivity|]. destruct (Nat.eqb_spec c h); [reflexivity|]. now apply H. }
    destruct rest eqn:Er.
    + (* the sum over equal pairs *)
      set (w := o l r (put2 h v (nth h f 0) (nth v f 0) f) (put2 h v (nth h f 0) (nth v f 0) g)).
      assert (Hw : forall x y, x < dL D -> y < dL D -> o l r (put2 h v x y f) (put2 h v x y g) = w).
      { intros x y Hx Hy. unfold w. apply B2; try assumption; try (apply put2_valid; try assumption; now apply (valid_nth_lt D)); try apply same_outside_refl; try (apply Hag; tauto).
        - intros c Hc Hs. rewrite !put2_nth by lia. destruct (Nat.eqb_spec c v); [congruence|]. destruct (Nat.eqb_spec c h); [congruence|reflexivity].
        - intros c Hc Hs. rewrite !put2_nth by lia. destruct (Nat.eqb_spec c v); [congruence|]. destruct (Nat.eqb_spec c h); [congruence|reflexivity]. }
      transitivity (Csum (pairs (dL D)) (fun p => w * (gate_amp (dL D) (A r) (nth h f 0) (nth v f 0) (fst p) (snd p) * Cconj (gate_amp (dL D) (A r) (nth h g 0) (nth v g 0) (fst p) (snd p))))%C).
      { apply Csum_ext. intros [x y] Hp. pose proof Hp as Hp'. apply pairs_in in Hp'. cbn [fst snd]. rewrite (Csum_single _ (x, y)); [|apply pairs_nodup|exact Hp|].
        - cbn [fst snd]. now rewrite Hw by tauto.
        - intros [x' y'] Hq Hn. apply pairs_in in Hq. cbn [fst snd]. rewrite B1; [ring|exact Hr|apply put2_valid; tauto|apply put2_valid; tauto|].
          destruct (agree_on _ _) eqn:E; [|reflexivity]. apply Hag in E. destruct E as (_ & -> & ->). congruence. }
      rewrite Csum_scal_l, gate_rows_pairs by (try assumption; now apply (valid_nth_lt D)).
      destruct (Nat.eqb_spec (nth h f 0) (nth h g 0)) as [E1|E1]; [destruct (Nat.eqb_spec (nth v f 0) (nth v g 0)) as [E2|E2]|]; cbn [andb].
      * rewrite Cmult_1_r. unfold w.
        assert (P1 : put2 h v (nth h f 0) (nth v f 0) f = f).
        { apply (values_ext D); [apply put2_valid; try assumption; now apply (valid_nth_lt D)|exact Vf|]. intros c Hc. rewrite put2_nth by lia. destruct (Nat.eqb_spec c v); [now subst|]. destruct (Nat.eqb_spec c h); [now subst|reflexivity]. }
        assert (P2 : put2 h v (nth h f 0) (nth v f 0) g = g).
        { rewrite E1, E2. apply (values_ext D); [apply put2_valid; try assumption; now apply (valid_nth_lt D)|exact Vg|]. intros c Hc. rewrite put2_nth by lia. destruct (Nat.eqb_spec c v); [now subst|]. destruct (Nat.eqb_spec c h); [now subst|reflexivity]. }
        now rewrite P1, P2.
      * rewrite Cmult_0_r. symmetry. apply B1; try assumption. destruct (agree_on f g) eqn:E; [|reflexivity]. exfalso. apply E2. exact (proj1 (agree_on_spec f g) E v Hv Sv).
      * rewrite Cmult_0_r. symmetry. apply B1; try assumption. destruct (agree_on f g) eqn:E; [|reflexivity]. exfalso. apply E1. exact (proj1 (agree_on_spec f g) E h Hh Sh).
    + rewrite (B1 l r f g Hr Vf Vg).
      * apply Csum_zero. intros [x y] Hp. apply pairs_in in Hp. apply Csum_zero. intros [x' y'] Hq. apply pairs_in in Hq. cbn [fst snd]. rewrite B1; [ring|exact Hr|apply put2_valid; tauto|apply put2_valid; tauto|].
        destruct (agree_on _ _) eqn:E; [|reflexivity]. apply Hag in E. destruct E. discriminate.
      * destruct (agree_on f g) eqn:E; [|reflexivity]. exfalso. assert (false = true); [|discriminate]. apply Hrest. intros c Hc Hs _ _. exact (proj1 (agree_on_spec f g) E c Hc Hs).
  - now apply alice_transform.
  - specialize (Ha r Hr). destruct (agree_on f g) eqn:E.
    + apply B2; try assumption; try (intros c _ _; reflexivity). destruct Ha; congruence.
    + rewrite !B1; try assumption; [reflexivity|]. destruct Ha; congruence.
  - destruct Ha as [Ho Hc]. destruct (agree_on f g) eqn:E.
    + assert (E1 : readout opt f = readout opt g).
      { apply readout_agree; [|apply Vf|apply Vg]. intros c Hin Hlt. apply (proj1 (agree_on_spec f g) E c Hlt). now apply Ho. }
      rewrite (proj2 (leqb_spec _ _) E1). apply B2; try assumption; try (intros c _ _; reflexivity); [now rewrite noted_length|now apply noted_outside].
    + rewrite (B1 l r f g) by assumption. destruct (leqb _ _); [|reflexivity]. apply B1; try assumption. now rewrite noted_length.
Qed.

(** What Bob does keeps them blind. *)
Lemma bob_blind op o : by_bob D ncl S K op -> blind o -> blind (before D op o).
Proof.
  intros Hb [B1 B2]. destruct op as [A h v|T|F|opt cl]; cbn [before by_bob] in *.
  - destruct Hb as (Sh & Sv & Hne & Hh & Hv & HA).
    assert (Hag : forall f g x y x' y', valid D f -> valid D g -> agree_on (put2 h v x y f) (put2 h v x' y' g) = agree_on f g).
    { intros f g x y x' y' Vf Vg. pose proof (proj1 Vf). pose proof (proj1 Vg). apply eq_true_iff_eq. rewrite !agree_on_spec. split; intros Hag c Hc Hs; specialize (Hag c Hc Hs); rewrite !put2_nth in * by lia;
        (destruct (Nat.eqb_spec c v); [congruence|]); (destruct (Nat.eqb_spec c h); [congruence|]); exact Hag. }
    split.
    + intros l r f g Hr Vf Vg E. rewrite expand_element by assumption. apply Csum_zero. intros [x y] Hp. apply pairs_in in Hp. apply Csum_zero. intros [x' y'] Hq. apply pairs_in in Hq. cbn [fst snd].
      rewrite B1; [ring|exact Hr|apply put2_valid; tauto|apply put2_valid; tauto|]. now rewrite Hag.
    + intros l r r' f f' g g' Hr Hs Vf Vf' Vg Vg' E E' Sf Sg. rewrite !expand_element by assumption. rewrite (HA r r' Hr Hs).
      rewrite (Sf h Hh Sh), (Sf v Hv Sv), (Sg h Hh Sh), (Sg v Hv Sv). apply Csum_ext. intros [x y] Hp. apply pairs_in in Hp. apply Csum_ext. intros [x' y'] Hq. apply pairs_in in Hq. cbn [fst snd]. f_equal.
      pose proof (proj1 Vf). pose proof (proj1 Vg). pose proof (proj1 Vf'). pose proof (proj1 Vg').
      apply B2; try assumption; try (apply put2_valid; tauto); try (now rewrite Hag).
      * intros c Hc Hsc. rewrite !put2_nth by lia. destruct (Nat.eqb_spec c v); [reflexivity|]. destruct (Nat.eqb_spec c h); [reflexivity|]. now apply Sf.
      * intros c Hc Hsc. rewrite !put2_nth by lia. destruct (Nat.eqb_spec c v); [reflexivity|]. destruct (Nat.eqb_spec c h); [reflexivity|]. now apply Sg.
  - now apply bob_transform.
  - destruct Hb as [HF1 HF2]. split.
    + intros l r f g Hr Vf Vg E. apply B1; auto.
    + intros l r r' f f' g g' Hr Hs Vf Vf' Vg Vg' E E' Sf Sg. apply B2; auto.
  - destruct Hb as [Ho Hc]. split.
    + intros l r f g Hr Vf Vg E. destruct (leqb _ _); [|reflexivity]. apply B1; try assumption. now rewrite noted_length.
    + intros l r r' f f' g g' Hr Hs Vf Vf' Vg Vg' E E' Sf Sg.
      assert (E1 : readout opt f = readout opt f') by (apply readout_agree; [intros c Hin Hlt; apply Sf; [exact Hlt|now apply Ho]|apply Vf|apply Vf']).
      assert (E2 : readout opt g = readout opt g') by (apply readout_agree; [intros c Hin Hlt; apply Sg; [exact Hlt|now apply Ho]|apply Vg|apply Vg']).
      rewrite <- E1, <- E2. destruct (leqb _ _); [|reflexivity]. apply B2; try assumption; [now rewrite noted_length|now apply noted_same].
Qed.
Lemma kept_blind op o : by_alice D ncl S K op \/ by_bob D ncl S K op -> blind o -> blind (before D op o).
Proof.
  intros [H|H] B; [|now apply bob_blind]. apply (blind_agree o); [|exact B]. intros l r f g Hr Vf Vg. symmetry. now apply alice_invisible.
Qed.
Lemma before_agree op o o' : (forall r, length r = ncl -> match op with Compute F => length (F r) = ncl | _ => True end) -> agree D ncl o o' -> agree D ncl (before D op o) (before D op o').
Proof.
  intros Hop H l r f g Hr Vf Vg. specialize (Hop r Hr). destruct op as [A h v|T|F|opt cl]; cbn [before].
  - apply Csum_ext. intros f' Hf'. apply Csum_ext. intros g' Hg'. apply basis_in in Hf', Hg'. now rewrite H.
  - apply Csum_ext. intros f' Hf'. apply Csum_ext. intros g' Hg'. apply basis_in in Hf', Hg'. now rewrite H.
  - now apply H.
  - destruct (leqb _ _); [|reflexivity]. apply H; try assumption. now rewrite noted_length.
Qed.
Lemma differ_agree ops ops' o : differ_by_alice D ncl S K ops ops' -> blind o ->
  agree D ncl (before_all D ops o) (before_all D ops' o) /\ blind (before_all D ops o) /\ blind (before_all D ops' o).
Proof.
  intros H B. induction H as [|op ops ops' Hop H (IH1 & IH2 & IH3)|op ops ops' Hop H (IH1 & IH2 & IH3)|op ops ops' Hop H (IH1 & IH2 & IH3)].
  - split; [intros l r f g _ _ _; reflexivity|split; exact B].
  - change (before_all D (op :: ops) o) with (before D op (before_all D ops o)). change (before_all D (op :: ops') o) with (before D op (before_all D ops' o)). split; [|split; now apply kept_blind].
    apply before_agree; [|exact IH1]. intros r Hr. destruct op as [A h v|T|F|opt cl]; auto. destruct Hop as [Hop|[Hop _]]; [|now apply Hop]. cbn in Hop. destruct (Hop r Hr). congruence.
  - change (before_all D (op :: ops) o) with (before D op (before_all D ops o)). split; [|split; [now apply kept_blind; [left|]|exact IH3]].
    intros l r f g Hr Vf Vg. rewrite (alice_invisible op _ Hop IH2 l r f g Hr Vf Vg). now apply IH1.
  - change (before_all D (op :: ops') o) with (before D op (before_all D ops' o)). split; [|split; [exact IH2|now apply kept_blind; [left|]]].
    intros l r f g Hr Vf Vg. rewrite (alice_invisible op _ Hop IH3 l r f g Hr Vf Vg). now apply IH1.
Qed.
(** Looking at the classical channels outside [K] only. *)
Definition look (l : ident) (r : list R) : observable := trace_of (fun l' r' => leqb l' l && agrees_outside K r' r).
Lemma agrees_same r0 r r' : same_outside K r r' -> agrees_outside K r r0 = agrees_outside K r' r0.
Proof.
  intros [H1 H2]. unfold agrees_outside. rewrite <- H1. apply eq_true_iff_eq. rewrite !forallb_forall. split; intros H c Hc; specialize (H c Hc); destruct (K c) eqn:E; cbn in *; auto; rewrite (H2 c E) in *; exact H.
Qed.
Lemma look_blind l0 r0 : blind (look l0 r0).
Proof.
  unfold look, trace_of. split.
  - intros l r f g Hr Vf Vg E. destruct (leqb l l0 && _); [|reflexivity]. destruct (leqb f g) eqn:E1; [|reflexivity]. apply leqb_spec in E1. subst g. exfalso. assert (agree_on f f = true) by now apply agree_on_spec. congruence.
  - intros l r r' f f' g g' Hr Hs Vf Vf' Vg Vg' E E' Sf Sg. rewrite (agrees_same r0 r r' Hs). destruct (leqb l l0 && _); [|reflexivity].
    assert (leqb f g = leqb f' g') as ->; [|reflexivity]. pose proof (proj1 (agree_on_spec f g) E) as A1. pose proof (proj1 (agree_on_spec f' g') E') as A2.
    apply eq_true_iff_eq. rewrite !leqb_spec. split; intro Heq; (apply (values_ext D); [assumption|assumption|]); intros c Hc; destruct (S c) eqn:Es.
    + now apply A2.
    + rewrite <- (Sf c Hc Es), <- (Sg c Hc Es). now rewrite Heq.
    + now apply A1.
    + rewrite (Sf c Hc Es), (Sg c Hc Es). now rewrite Heq.
Qed.
End Parties.
