(** The probabilities of the outcomes behind several delays add up to one. *)
From Coq Require Import Reals List Arith Lia Lra Bool Permutation Sorted.
From Coquelicot Require Import Complex.
From Verif Require Import Prelude NamesModel NamesSpec NamesProofs FockModel FockSpec BosonProofs FockProofs GateProofs PropFock StateModel StateSpec StateProofs
  CollectionModel EvalModel MeasureSpec MeasureProofs ColumnModel ColumnSpec ColumnProofs TemporalSpec InterferenceSpec ArrangementProofs InterferenceProofs MeasuredProofs ExperimentSpec ExperimentProofs PermanentProofs PropPermanent SentProofs ConservationProofs RouteSpec RouteProofs.
Import ListNotations.

(** ** Photons in orthogonal channels overlap as far as their pulses do *)
Section Gram.
Variable (kap : R * R -> R * R -> R).
Definition bracket (p p' : nat * (R * R)) : C := if fst p =? fst p' then RtoC (kap (snd p) (snd p')) else RtoC 0.
Definition matched (l l' : list (nat * (R * R))) : C := Cprod (combine l l') (fun x => bracket (fst x) (snd x)).
Definition gram (l l' : list (nat * (R * R))) : C := Csum (permutations l') (matched l).

(** ** Moving all photons with a unitary matrix keeps the overlaps *)
Variables (n : nat) (U : nat -> nat -> C).
Hypothesis HU : unitary_mat n U.
Lemma reroutes_inserts (G : C -> list (nat * (R * R)) -> C) x r : forall k : C,
  Csum (inserts x r) (fun l => Csum (reroutes n U l) (fun y => G (k * fst y)%C (snd y)))
  = Csum (seq 0 n) (fun c => Csum (reroutes n U r) (fun y => Csum (inserts (c, snd x) (snd y)) (fun l => G (k * (U c (fst x) * fst y))%C l))).
Proof.
  revert G. induction r as [|z r IH]; intros G k.
  - cbn [inserts reroutes]. rewrite Csum_cons, Csum_nil, Cplus_0_r. cbn [reroutes]. rewrite Csum_flat_map. apply Csum_ext. intros c _. rewrite Csum_map. cbn [fst snd reroutes]. rewrite !Csum_cons, !Csum_nil, !Cplus_0_r. cbn [fst snd inserts]. now rewrite Csum_cons, Csum_nil, Cplus_0_r.
  - cbn [inserts]. rewrite Csum_cons, Csum_map.
    transitivity (Csum (seq 0 n) (fun c => Csum (seq 0 n) (fun d => Csum (reroutes n U r) (fun y => (G (k * (U c (fst x) * (U d (fst z) * fst y)))%C ((c, snd x) :: (d, snd z) :: snd y)
       + Csum (inserts (c, snd x) (snd y)) (fun l => G (k * (U c (fst x) * (U d (fst z) * fst y)))%C ((d, snd z) :: l)))%C)))).
    + transitivity ((Csum (seq 0 n) (fun c => Csum (seq 0 n) (fun d => Csum (reroutes n U r) (fun y => G (k * (U c (fst x) * (U d (fst z) * fst y)))%C ((c, snd x) :: (d, snd z) :: snd y))))
         + Csum (seq 0 n) (fun c => Csum (seq 0 n) (fun d => Csum (reroutes n U r) (fun y => Csum (inserts (c, snd x) (snd y)) (fun l => G (k * (U c (fst x) * (U d (fst z) * fst y)))%C ((d, snd z) :: l))))))%C).
      * f_equal.
        { cbn [reroutes]. rewrite Csum_flat_map. apply Csum_ext. intros c _. rewrite Csum_map, Csum_flat_map. apply Csum_ext. intros d _. rewrite Csum_map. reflexivity. }
        { rewrite Csum_swap. transitivity (Csum (seq 0 n) (fun d => Csum (inserts x r) (fun l => Csum (reroutes n U l) (fun y => G (k * U d (fst z) * fst y)%C ((d, snd z) :: snd y))))).
          - rewrite Csum_swap. apply Csum_ext. intros l _. cbn [reroutes]. rewrite Csum_flat_map. apply Csum_ext. intros d _. rewrite Csum_map. apply Csum_ext. intros y _. cbn [fst snd]. f_equal. ring.
          - apply Csum_ext. intros d _. rewrite (IH (fun a l => G a ((d, snd z) :: l)) (k * U d (fst z))%C). apply Csum_ext. intros c _. apply Csum_ext. intros y _. apply Csum_ext. intros l _. f_equal. ring. }
      * rewrite <- Csum_plus. apply Csum_ext. intros c _. rewrite <- Csum_plus. apply Csum_ext. intros d _. now rewrite <- Csum_plus.
    + apply Csum_ext. intros c _. cbn [reroutes]. rewrite Csum_flat_map. apply Csum_ext. intros d _. rewrite Csum_map. apply Csum_ext. intros y _. cbn [fst snd inserts]. rewrite Csum_cons, Csum_map. reflexivity.
Qed.
Lemma reroutes_permutations l : forall (G : C -> list (nat * (R * R)) -> C),
  Csum (permutations l) (fun l' => Csum (reroutes n U l') (fun y => G (fst y) (snd y))) = Csum (reroutes n U l) (fun y => Csum (permutations (snd y)) (fun l' => G (fst y) l')).
Proof.
  induction l as [|x r IH]; intro G.
  - cbn [permutations reroutes]. rewrite !Csum_cons, !Csum_nil. cbn [reroutes]. rewrite !Csum_cons, !Csum_nil. cbn [fst snd permutations]. rewrite !Csum_cons, !Csum_nil. reflexivity.
  - cbn [permutations]. rewrite Csum_flat_map.
    transitivity (Csum (permutations r) (fun r' => Csum (seq 0 n) (fun c => Csum (reroutes n U r') (fun y => Csum (inserts (c, snd x) (snd y)) (fun l => G (U c (fst x) * fst y)%C l))))).
    { apply Csum_ext. intros r' _. pose proof (reroutes_inserts G x r' (RtoC 1)) as E. rewrite (Csum_ext _ _ (fun l => Csum (reroutes n U l) (fun y => G (RtoC 1 * fst y)%C (snd y)))) by (intros; apply Csum_ext; intros; now rewrite Cmult_1_l).
      rewrite E. apply Csum_ext. intros c _. apply Csum_ext. intros y _. apply Csum_ext. intros l _. now rewrite Cmult_1_l. }
    rewrite Csum_swap. cbn [reroutes]. rewrite Csum_flat_map. apply Csum_ext. intros c _. rewrite (IH (fun a l' => Csum (inserts (c, snd x) l') (fun l => G (U c (fst x) * a)%C l))).
    rewrite Csum_map. apply Csum_ext. intros y _. cbn [fst snd permutations]. now rewrite Csum_flat_map.
Qed.
Definition below (l : list (nat * (R * R))) : Prop := Forall (fun p => fst p < n) l.
Lemma matched_moved l : forall l', length l' = length l -> below l -> below l' ->
  Csum (reroutes n U l) (fun y => Csum (reroutes n U l') (fun y' => (fst y * Cconj (fst y') * matched (snd y) (snd y'))%C)) = matched l l'.
Proof.
  induction l as [|p l IH]; intros [|p' l'] Hl Hb Hb'; try discriminate.
  - cbn [reroutes]. rewrite !Csum_cons, !Csum_nil. unfold matched. cbn [fst snd combine Cprod fold_right]. rewrite Cconj_RtoC. ring.
  - apply Forall_cons_iff in Hb. apply Forall_cons_iff in Hb'. destruct Hb as [Hp Hb], Hb' as [Hp' Hb']. cbn [reroutes]. rewrite Csum_flat_map.
    transitivity (Csum (seq 0 n) (fun c => Csum (seq 0 n) (fun c' => (U c (fst p) * Cconj (U c' (fst p')) * bracket (c, snd p) (c', snd p')) * matched l l')%C)).
    { apply Csum_ext. intros c _. rewrite Csum_map. transitivity (Csum (reroutes n U l) (fun y => Csum (seq 0 n) (fun c' => Csum (reroutes n U l') (fun y' => ((U c (fst p) * Cconj (U c' (fst p')) * bracket (c, snd p) (c', snd p')) * (fst y * Cconj (fst y') * matched (snd y) (snd y')))%C)))).
      - apply Csum_ext. intros y _. rewrite Csum_flat_map. apply Csum_ext. intros c' _. rewrite Csum_map. apply Csum_ext. intros y' _. cbn [fst snd]. unfold matched. cbn [combine]. rewrite Cprod_cons, Cconj_mult. cbn [fst snd]. ring.
      - rewrite Csum_swap. apply Csum_ext. intros c' _. rewrite <- (IH l') by (try assumption; now injection Hl). rewrite <- Csum_scal_l. apply Csum_ext. intros y _. rewrite <- Csum_scal_l. reflexivity. }
    transitivity (Csum (seq 0 n) (fun c => Cconj (U c (fst p')) * U c (fst p))%C * RtoC (kap (snd p) (snd p')) * matched l l')%C.
    + rewrite <- !Csum_scal_r. apply Csum_ext. intros c Hc. rewrite (Csum_single _ c); [|apply seq_NoDup|exact Hc|].
      * unfold bracket. cbn [fst snd]. rewrite Nat.eqb_refl. ring.
      * intros c' _ Hn. unfold bracket. cbn [fst snd]. destruct (Nat.eqb_spec c c'); [congruence|]. ring.
    + rewrite (proj2 (HU (fst p') (fst p) Hp' Hp)). unfold matched. cbn [combine]. rewrite Cprod_cons. cbn [fst snd]. unfold bracket at 2. rewrite (Nat.eqb_sym (fst p)). destruct (fst p' =? fst p); ring.
Qed.
Lemma gram_moved l l' : length l' = length l -> below l -> below l' ->
  Csum (reroutes n U l) (fun y => Csum (reroutes n U l') (fun y' => (fst y * Cconj (fst y') * gram (snd y) (snd y'))%C)) = gram l l'.
Proof.
  intros Hl Hb Hb'. unfold gram.
  transitivity (Csum (reroutes n U l) (fun y => Csum (permutations l') (fun m => Csum (reroutes n U m) (fun y' => (fst y * Cconj (fst y') * matched (snd y) (snd y'))%C)))).
  - apply Csum_ext. intros y _. rewrite (reroutes_permutations l' (fun a m => fst y * Cconj a * matched (snd y) m)%C). apply Csum_ext. intros y' _. now rewrite <- Csum_scal_l.
  - rewrite Csum_swap. apply Csum_ext. intros m Hm. apply permutations_in in Hm. apply matched_moved; [|exact Hb|].
    + now rewrite <- (Permutation_length Hm).
    + unfold below. now rewrite <- Hm.
Qed.
(** Two tracks, and all pairs of tracks. *)
Definition share (t t' : track) : C :=
  if length (tk_photons t') =? length (tk_photons t)
  then (tk_amplitude t / RtoC (tk_boson t) * Cconj (tk_amplitude t' / RtoC (tk_boson t')) * gram (tk_photons t) (tk_photons t'))%C else RtoC 0.
Definition shares (ts : list track) : C := Csum ts (fun t => Csum ts (fun t' => share t t')).
Lemma reroutes_length l y : In y (reroutes n U l) -> length (snd y) = length l.
Proof.
  revert y. induction l as [|p l IH]; intros y Hy; cbn [reroutes] in Hy.
  - destruct Hy as [<-|[]]. reflexivity.
  - apply in_flat_map in Hy. destruct Hy as (c & _ & Hy). apply in_map_iff in Hy. destruct Hy as (y0 & <- & Hy). cbn [snd length]. now rewrite (IH _ Hy).
Qed.
Lemma reroutes_below l y : In y (reroutes n U l) -> below (snd y).
Proof.
  revert y. induction l as [|p l IH]; intros y Hy; cbn [reroutes] in Hy.
  - destruct Hy as [<-|[]]. constructor.
  - apply in_flat_map in Hy. destruct Hy as (c & Hc & Hy). apply in_map_iff in Hy. destruct Hy as (y0 & <- & Hy). cbn [snd]. apply in_seq in Hc. constructor; [cbn; lia|exact (IH _ Hy)].
Qed.
Lemma shares_moved ts : Forall (fun t => below (tk_photons t)) ts -> shares (moved_tracks n U ts) = shares ts.
Proof.
  intro Hb. unfold shares, moved_tracks. rewrite Csum_flat_map. apply Csum_ext. intros t Ht.
  transitivity (Csum ts (fun t' => Csum (reroutes n U (tk_photons t)) (fun y => Csum (reroutes n U (tk_photons t')) (fun y' => share (Track (tk_amplitude t * fst y)%C (tk_boson t) (snd y)) (Track (tk_amplitude t' * fst y')%C (tk_boson t') (snd y')))))).
  { rewrite Csum_map. etransitivity; [|apply Csum_swap]. apply Csum_ext. intros y _. rewrite Csum_flat_map. apply Csum_ext. intros t' _. now rewrite Csum_map. }
  apply Csum_ext. intros t' Ht'. rewrite Forall_forall in Hb. unfold share. cbn [tk_photons tk_amplitude tk_boson]. destruct (Nat.eqb_spec (length (tk_photons t')) (length (tk_photons t))) as [E|E].
  - rewrite <- (gram_moved _ _ E (Hb t Ht) (Hb t' Ht')). rewrite <- Csum_scal_l. apply Csum_ext. intros y Hy. rewrite <- Csum_scal_l. apply Csum_ext. intros y' Hy'. rewrite (reroutes_length _ _ Hy), (reroutes_length _ _ Hy'), E, Nat.eqb_refl. unfold Cdiv. rewrite !Cconj_mult. ring.
  - apply Csum_zero. intros y Hy. apply Csum_zero. intros y' Hy'. rewrite (reroutes_length _ _ Hy), (reroutes_length _ _ Hy'). destruct (Nat.eqb_spec (length (tk_photons t')) (length (tk_photons t))); [contradiction|reflexivity].
Qed.

(** ** All patterns of counted photons together *)
Definition no_place : nat * (R * R) := (0, (0%R, 1%R)).
Definition places (P : list (nat * (R * R))) (s : list nat) : list (nat * (R * R)) := map (fun j => nth j P no_place) s.
Lemma permutations_map {A B} (h : A -> B) l : permutations (map h l) = map (map h) (permutations l).
Proof.
  assert (I : forall x (r : list A), inserts (h x) (map h r) = map (map h) (inserts x r)).
  { intros x r. induction r as [|y r IH]; [reflexivity|]. cbn [map inserts]. rewrite IH, !map_map. reflexivity. }
  induction l as [|x l IH]; [reflexivity|]. cbn [map permutations]. rewrite IH. rewrite map_flat. rewrite flat_mapped. apply flat_map_ext. intro r. apply I.
Qed.
Lemma places_seq P : places P (seq 0 (length P)) = P.
Proof.
  unfold places. apply (nth_ext _ _ no_place no_place); [now rewrite map_length, seq_length|]. intros j Hj. rewrite map_length, seq_length in Hj.
  rewrite (nth_indep _ no_place (nth 0 P no_place)) by (now rewrite map_length, seq_length). rewrite (map_nth (fun j => nth j P no_place)), seq_nth by exact Hj. reflexivity.
Qed.
Lemma permutations_places P : permutations P = map (places P) (orders (length P)).
Proof. unfold orders. rewrite <- (places_seq P) at 1. unfold places at 1. now rewrite permutations_map. Qed.
Lemma combine_places P P' s s' : combine (places P s) (places P' s') = map (fun x => (nth (fst x) P no_place, nth (snd x) P' no_place)) (combine s s').
Proof. unfold places. revert s'. induction s as [|i s IH]; intros [|j s']; try reflexivity. cbn [map combine fst snd]. now rewrite IH. Qed.
Lemma gram_orders P P' m : length P = m -> length P' = m -> Csum (orders m) (fun s => Csum (orders m) (fun s' => matched (places P s) (places P' s'))) = (gram P P' * RtoC (INR (fact m)))%C.
Proof.
  intros L1 L2. transitivity (Csum (orders m) (fun _ => gram P P')).
  - apply Csum_ext. intros s Hs. rewrite (reindex_Csum s) by exact Hs. unfold gram. rewrite permutations_places, L2, Csum_map. apply Csum_ext. intros s' Hs'. unfold matched.
    rewrite <- (places_seq P) at 2. rewrite L1, !combine_places, !Cprod_map. pose proof (orders_length _ _ Hs) as Ls. pose proof (orders_length _ _ Hs') as Ls'.
    apply Cprod_perm. assert (E : s = pickn (seq 0 m) s). { unfold pickn. rewrite (map_ext_in _ (fun j => j)); [now rewrite map_id|]. intros j Hj. apply seq_nth. exact (orders_bound _ _ _ Hs Hj). }
    rewrite E at 1. apply (combine_order (seq 0 m) s' s m); [apply seq_length|exact Ls'|exact Hs].
  - rewrite (Csum_ext _ _ (fun _ => (gram P P' * RtoC 1)%C)) by (intros; ring). rewrite Csum_scal_l. f_equal. unfold orders. replace (fact m) with (length (permutations (seq 0 m))) by (now rewrite permutations_length, seq_length).
    generalize (permutations (seq 0 m)). intro l. induction l as [|x l IH]; [reflexivity|]. rewrite Csum_cons, IH. cbn [length]. rewrite S_INR, RtoC_plus. ring.
Qed.
End Gram.

Section Patterns.
Variables (n L : nat) (U : nat -> nat -> C).
Hypothesis HU : unitary_mat n U.
Definition coupled (b b' : branch) (m : nat) (c : list nat) : C :=
  Csum (orders m) (fun s => Csum (orders m) (fun s' => (path b c s * Cconj (path b' c s') * RtoC (indistinct b b' s s'))%C)).
Lemma coupled_reorder b b' m c o : length c = m -> In o (orders m) -> coupled b b' m (pickn c o) = coupled b b' m c.
Proof.
  intros Hc Ho. unfold coupled. rewrite (reindex_Csum o) by exact Ho. apply Csum_ext. intros s Hs. rewrite (reindex_Csum o) by exact Ho. apply Csum_ext. intros s' Hs'.
  pose proof (orders_length _ _ Hs) as L1. pose proof (orders_length _ _ Hs') as L2. rewrite !(path_reorder _ _ _ o m) by assumption. f_equal. f_equal. unfold indistinct. apply Rprod_perm. now apply (combine_order s s' o m).
Qed.
Lemma track_nth t j : j < length (tk_photons t) -> nth_photon (track_branch U t) j = Photon (fun c => U c (fst (nth j (tk_photons t) no_place))) (snd (nth j (tk_photons t) no_place)).
Proof.
  intro Hj. unfold nth_photon, track_branch. cbn [br_photons]. rewrite (nth_indep _ _ (Photon (fun c => U c (fst no_place)) (snd no_place))) by (now rewrite map_length).
  exact (map_nth (fun x => Photon (fun c => U c (fst x)) (snd x)) (tk_photons t) no_place j).
Qed.
Lemma Rprod_Cprod {A} (l : list A) f : RtoC (Rprod l f) = Cprod l (fun x => RtoC (f x)).
Proof. induction l as [|x l IH]; [reflexivity|]. unfold Rprod, Cprod in *. cbn [fold_right]. rewrite RtoC_mult. now rewrite IH. Qed.
Lemma Cprod_mult {A} (l : list A) f g : Cprod l (fun x => f x * g x)%C = (Cprod l f * Cprod l g)%C.
Proof. induction l as [|x l IH]; [cbn; ring|]. rewrite !Cprod_cons, IH. ring. Qed.
Lemma coupled_total t t' : below n (tk_photons t) -> below n (tk_photons t') -> length (tk_photons t') = length (tk_photons t) ->
  Csum (tuples n (length (tk_photons t))) (coupled (track_branch U t) (track_branch U t') (length (tk_photons t))) = (share pulse_overlap t t' * RtoC (INR (fact (length (tk_photons t)))))%C.
Proof.
  intros B1 B2 EL. unfold share. rewrite EL, Nat.eqb_refl. set (m := length (tk_photons t)) in *. set (P := tk_photons t) in *. set (P' := tk_photons t') in *.
  set (K := (tk_amplitude t / RtoC (tk_boson t) * Cconj (tk_amplitude t' / RtoC (tk_boson t')))%C).
  rewrite <- Cmult_assoc, <- (gram_orders pulse_overlap P P' m eq_refl EL). unfold coupled. rewrite Csum_swap, <- Csum_scal_l. apply Csum_ext. intros s Hs. rewrite Csum_swap, <- Csum_scal_l. apply Csum_ext. intros s' Hs'.
  pose proof (orders_length _ _ Hs) as Ls. pose proof (orders_length _ _ Hs') as Ls'.
  assert (I1 : forall j, In j s -> j < m) by (intros j Hj; exact (orders_bound _ _ _ Hs Hj)). assert (I2 : forall j, In j s' -> j < m) by (intros j Hj; exact (orders_bound _ _ _ Hs' Hj)).
  set (A1 := fun j c => U c (fst (nth j P no_place))). set (A2 := fun j c => Cconj (U c (fst (nth j P' no_place)))).
  transitivity ((K * RtoC (indistinct (track_branch U t) (track_branch U t') s s')) * Csum (tuples n (length (combine s s'))) (fun c => Cprod (combine (combine s s') c) (fun x => (fun ss k => A1 (fst ss) k * A2 (snd ss) k)%C (fst x) (snd x))))%C.
  { rewrite <- Csum_scal_l, combine_length, Ls, Ls', Nat.min_id. apply Csum_ext. intros c Hc. apply tuples_in in Hc. destruct Hc as [Lc _].
    cbn beta. rewrite <- (Cprod_zip A1 A2) by congruence. unfold path. cbn [track_branch br_amplitude br_boson].
    replace (Cprod (combine s c) (fun x => ph_wave (nth_photon (track_branch U t) (fst x)) (snd x))) with (Cprod (combine s c) (fun x => A1 (fst x) (snd x))).
    2:{ apply Cprod_ext. intros [j k] Hx. cbn [fst snd]. rewrite (track_nth t j) by (apply I1; exact (in_combine_l _ _ _ _ Hx)). reflexivity. }
    replace (Cprod (combine s' c) (fun x => ph_wave (nth_photon (track_branch U t') (fst x)) (snd x))) with (Cprod (combine s' c) (fun x => U (snd x) (fst (nth (fst x) P' no_place)))).
    2:{ apply Cprod_ext. intros [j k] Hx. cbn [fst snd]. rewrite (track_nth t' j (Nat.lt_le_trans _ _ _ (I2 j (in_combine_l _ _ _ _ Hx)) (Nat.eq_le_incl _ _ (eq_sym EL)))). reflexivity. }
    rewrite (Cconj_mult (tk_amplitude t' / _)%C), Cprod_conj. subst A2. cbn beta. unfold K. ring. }
  rewrite (Csum_tuples_prod n (fun ss k => (A1 (fst ss) k * A2 (snd ss) k)%C)). rewrite <- Cmult_assoc. f_equal. unfold indistinct. rewrite Rprod_Cprod, <- Cprod_mult. unfold matched. rewrite combine_places, Cprod_map. apply Cprod_ext. intros [i j] Hx. cbn [fst snd].
  pose proof (in_combine_l _ _ _ _ Hx) as Hi. pose proof (in_combine_r _ _ _ _ Hx) as Hj. rewrite (track_nth t i (I1 i Hi)), (track_nth t' j (Nat.lt_le_trans _ _ _ (I2 j Hj) (Nat.eq_le_incl _ _ (eq_sym EL)))). cbn [ph_timing]. fold P P'.
  assert (C1 : fst (nth i P no_place) < n) by (apply (proj1 (Forall_forall _ _) B1), nth_In; exact (I1 i Hi)). assert (C2 : fst (nth j P' no_place) < n) by (apply (proj1 (Forall_forall _ _) B2), nth_In; rewrite EL; exact (I2 j Hj)).
  unfold A1, A2. rewrite (Csum_ext _ _ (fun k => (Cconj (U k (fst (nth j P' no_place))) * U k (fst (nth i P no_place)))%C)) by (intros; ring). rewrite (proj2 (HU _ _ C2 C1)). unfold bracket. rewrite Nat.eqb_sym. destruct (_ =? _); ring.
Qed.
Lemma patterns_total ts : Forall (fun t => below n (tk_photons t) /\ length (tk_photons t) < L) ts ->
  Csum (tuples L n) (fun f => interference (map (track_branch U) ts) f / RtoC (INR (factorials f)))%C = shares pulse_overlap ts.
Proof.
  intro HF. rewrite Forall_forall in HF.
  transitivity (Csum (tuples L n) (fun f => Csum ts (fun t => Csum ts (fun t' =>
     if length (tk_photons t) =? NamesSpec.photons f then if length (tk_photons t') =? NamesSpec.photons f then (coupled (track_branch U t) (track_branch U t') (length (tk_photons t)) (channels_of f) / RtoC (INR (factorials f)))%C else RtoC 0 else RtoC 0)))).
  { apply Csum_ext. intros f _. unfold interference, Cdiv. rewrite <- Csum_scal_r. unfold fitting. rewrite filter_map, Csum_map, Csum_filter. apply Csum_ext. intros t _.
    assert (Lb : forall t, length (br_photons (track_branch U t)) = length (tk_photons t)) by (intro v; cbn [track_branch br_photons]; now rewrite map_length).
    rewrite Lb. destruct (Nat.eqb_spec (length (tk_photons t)) (NamesSpec.photons f)) as [E|E]; [|symmetry; apply Csum_zero; reflexivity].
    rewrite <- Csum_scal_r, Csum_map, Csum_filter. apply Csum_ext. intros t' _. rewrite Lb. destruct (_ =? _); [|reflexivity]. unfold coupled. rewrite E. reflexivity. }
  rewrite Csum_swap. unfold shares. apply Csum_ext. intros t Ht. destruct (HF t Ht) as [B1 P1]. rewrite Csum_swap. apply Csum_ext. intros t' Ht'. destruct (HF t' Ht') as [B2 P2].
  destruct (Nat.eq_dec (length (tk_photons t')) (length (tk_photons t))) as [E|E].
  - transitivity (Csum (numbers L n (length (tk_photons t))) (fun f => coupled (track_branch U t) (track_branch U t') (length (tk_photons t)) (channels_of f) / RtoC (INR (factorials f)))%C).
    + unfold numbers. rewrite Csum_filter. apply Csum_ext. intros f _. rewrite E, (Nat.eqb_sym (NamesSpec.photons f)). now destruct (_ =? _).
    + rewrite (numbers_sum _ _ _ (coupled (track_branch U t) (track_branch U t') (length (tk_photons t))) P1) by (intros c o Hc Ho; apply coupled_reorder; [exact (proj1 (proj1 (tuples_in _ _ _) Hc))|exact Ho]).
      rewrite (coupled_total t t' B1 B2 E). assert (X : RtoC (INR (fact (length (tk_photons t)))) <> RtoC 0) by (intro X; apply RtoC_inj in X; pose proof (lt_0_INR _ (lt_O_fact (length (tk_photons t)))); lra).
      field. exact X.
  - unfold share. destruct (Nat.eqb_spec (length (tk_photons t')) (length (tk_photons t))) as [|_]; [contradiction|]. apply Csum_zero. intros f _. destruct (Nat.eqb_spec (length (tk_photons t)) (NamesSpec.photons f)) as [E1|]; [|reflexivity]. destruct (Nat.eqb_spec (length (tk_photons t')) (NamesSpec.photons f)) as [E2|]; [|reflexivity]. exfalso. congruence.
Qed.
End Patterns.

(** ** Delays keep the overlaps *)
Definition at_width (w : R) (a b : R * R) : R := pulse_overlap (fst a, w) (fst b, w).
Lemma shares_retimed kap kap' k st ts :
  (forall p p', bracket kap (fst p, retimed k st (fst p) (snd p)) (fst p', retimed k st (fst p') (snd p')) = bracket kap' p p') ->
  shares kap (timed_tracks k st ts) = shares kap' ts.
Proof.
  intro H. unfold shares, timed_tracks. rewrite Csum_map. apply Csum_ext. intros t _. rewrite Csum_map. apply Csum_ext. intros t' _. unfold share. cbn [tk_photons tk_amplitude tk_boson]. rewrite !map_length. destruct (_ =? _); [|reflexivity]. f_equal.
  unfold gram. rewrite permutations_map, Csum_map. apply Csum_ext. intros m _. unfold matched. generalize (tk_photons t). intro l. clear -H. revert m. induction l as [|p l IH]; intros [|p' m]; try reflexivity. cbn [map combine]. rewrite !Cprod_cons, IH. cbn [fst snd]. now rewrite H.
Qed.
Lemma delay_bracket chs d w w' st p p' : bracket (at_width w') (fst p, retimed (DelayOf chs d w) st (fst p) (snd p)) (fst p', retimed (DelayOf chs d w) st (fst p') (snd p')) = bracket (at_width w') p p'.
Proof.
  unfold bracket. cbn [fst snd retimed]. destruct (Nat.eqb_spec (fst p) (fst p')) as [E|]; [|reflexivity]. rewrite E. f_equal. unfold at_width, pulse_overlap. cbn [fst snd]. destruct (channel_in chs (fst p')); [|reflexivity]. f_equal. f_equal. f_equal. ring.
Qed.
Lemma delay_bracket_last chs d w st p p' : bracket pulse_overlap (fst p, retimed (DelayOf chs d w) st (fst p) (snd p)) (fst p', retimed (DelayOf chs d w) st (fst p') (snd p')) = bracket (at_width w) p p'.
Proof. rewrite <- (delay_bracket chs d w w st p p'). reflexivity. Qed.
Lemma timed_below n k st ts : Forall (fun t => below n (tk_photons t)) ts -> Forall (fun t => below n (tk_photons t)) (timed_tracks k st ts).
Proof. intro H. unfold timed_tracks. apply Forall_map. revert H. apply Forall_impl. intros t H. cbn [tk_photons]. unfold below in *. apply Forall_map. exact H. Qed.
Lemma timed_length L k st ts : Forall (fun t => length (tk_photons t) < L) ts -> Forall (fun t => length (tk_photons t) < L) (timed_tracks k st ts).
Proof. intro H. unfold timed_tracks. apply Forall_map. revert H. apply Forall_impl. intros t H. cbn [tk_photons]. now rewrite map_length. Qed.
Lemma moved_below n U ts : Forall (fun t => below n (tk_photons t)) (moved_tracks n U ts).
Proof. unfold moved_tracks. apply Forall_forall. intros t Ht. apply in_flat_map in Ht. destruct Ht as (t0 & _ & Ht). apply in_map_iff in Ht. destruct Ht as (y & <- & Hy). exact (reroutes_below n U _ y Hy). Qed.
Lemma moved_length n U L ts : Forall (fun t => length (tk_photons t) < L) ts -> Forall (fun t => length (tk_photons t) < L) (moved_tracks n U ts).
Proof. intro H. unfold moved_tracks. apply Forall_forall. intros t Ht. apply in_flat_map in Ht. destruct Ht as (t0 & H0 & Ht). apply in_map_iff in Ht. destruct Ht as (y & <- & Hy). cbn [tk_photons]. rewrite (reroutes_length n U _ y Hy). exact (proj1 (Forall_forall _ _) H t0 H0). Qed.

Lemma timing_bracket k w st p p' : bracket (at_width w) (fst p, retimed k st (fst p) (snd p)) (fst p', retimed k st (fst p') (snd p')) = bracket (at_width w) p p'.
Proof.
  destruct k as [chs d w0|chs w0]; [apply delay_bracket|]. unfold bracket. cbn [fst snd retimed]. destruct (Nat.eqb_spec (fst p) (fst p')) as [E|]; [|reflexivity]. rewrite E. destruct (channel_in chs (fst p')); reflexivity.
Qed.
(** Behind a last time delay all photons have its pulse width, and all that counts of the legs before it is that they are unitary. *)
Lemma routes_total n L chs d w es legs : unitary_mat n (transfer n es) -> Forall (fun l => unitary_mat n (transfer n (lg_optics l))) legs ->
  forall st ts, Forall (fun t => below n (tk_photons t)) ts -> Forall (fun t => length (tk_photons t) < L) ts ->
    Csum (tuples L n) (fun f => interference (routes n (legs ++ [Leg (DelayOf chs d w) es]) st ts) f / RtoC (INR (factorials f)))%C = shares (at_width w) ts /\
    forall b p, In b (routes n (legs ++ [Leg (DelayOf chs d w) es]) st ts) -> In p (br_photons b) -> snd (ph_timing p) = w.
Proof.
  intro HU. induction legs as [|l r IH]; intros HF st ts Hb Hl.
  - cbn [app routes lg_timing lg_optics]. split.
    + rewrite (patterns_total n L _ HU); [apply shares_retimed; apply delay_bracket_last|]. pose proof (timed_below n (DelayOf chs d w) st ts Hb) as H1. pose proof (timed_length L (DelayOf chs d w) st ts Hl) as H2. rewrite Forall_forall in *. intros t Ht. split; [now apply H1|now apply H2].
    + intros b p Hb' Hp. apply in_map_iff in Hb'. destruct Hb' as (t & <- & Ht). unfold timed_tracks in Ht. apply in_map_iff in Ht. destruct Ht as (t0 & <- & _). unfold track_branch in Hp. cbn [br_photons tk_photons] in Hp. rewrite map_map in Hp. apply in_map_iff in Hp. destruct Hp as (x & <- & _). reflexivity.
  - apply Forall_cons_iff in HF. destruct HF as [Hl1 HF]. specialize (IH HF).
    assert (E : routes n ((l :: r) ++ [Leg (DelayOf chs d w) es]) st ts = routes n (r ++ [Leg (DelayOf chs d w) es]) st (moved_tracks n (transfer n (lg_optics l)) (timed_tracks (lg_timing l) st ts))).
    { destruct r; reflexivity. }
    rewrite E. destruct (IH st (moved_tracks n (transfer n (lg_optics l)) (timed_tracks (lg_timing l) st ts)) (moved_below _ _ _) (moved_length _ _ _ _ (timed_length _ _ _ _ Hl))) as [H1 H2]. split; [|exact H2].
    rewrite H1, (shares_moved (at_width w) n _ Hl1) by (now apply timed_below). apply shares_retimed. intros p p'. apply timing_bracket.
Qed.
