(** Total probability of interference experiments. *)
From Coq Require Import Reals List Arith Lia Lra Bool Permutation.
From Coquelicot Require Import Complex.
From Verif Require Import Prelude NamesModel NamesSpec NamesProofs FockModel FockSpec FockProofs StateModel StateSpec StateProofs ApplyProofs
  CollectionModel EvalModel MeasureSpec MeasureProofs PropProducts ColumnModel ColumnSpec ColumnProofs PropColumn
  GroupProofs TemporalSpec TemporalProofs PropTemporal InterferenceSpec ArrangementProofs InterferenceProofs MeasuredProofs ExperimentSpec ExperimentProofs PermanentProofs PropPermanent SentProofs.
Import ListNotations.

(** ** Reordering *)
Definition orders (n : nat) : list (list nat) := permutations (seq 0 n).
Lemma pickn_id s n : length s = n -> pickn s (seq 0 n) = s.
Proof. intros <-. apply pickn_seq. Qed.
Lemma pickn_order s t n : In s (orders n) -> In t (orders n) -> In (pickn s t) (orders n).
Proof.
  intros Hs Ht. pose proof (orders_length _ _ Hs) as Ls. apply permutations_in in Hs. apply permutations_in in Ht. apply permutations_in.
  etransitivity; [exact Hs|]. rewrite <- (pickn_id s n Ls) at 1. apply Permutation_map. exact Ht.
Qed.
Lemma orders_nodup n : NoDup (orders n).
Proof. apply permutations_nodup. apply seq_NoDup. Qed.
Lemma reindex t n : In t (orders n) -> Permutation (map (fun s => pickn s t) (orders n)) (orders n).
Proof.
  intro Ht. apply NoDup_Permutation_bis.
  - assert (G : forall l, incl l (orders n) -> NoDup l -> NoDup (map (fun s => pickn s t) l)).
    { induction l as [|s l IH]; intros Hi ND; [constructor|]. inversion ND as [|? ? Hs ND']; subst. cbn [map]. constructor; [|apply IH; [intros x Hx; apply Hi; now right|exact ND']].
      intro Hin. apply in_map_iff in Hin. destruct Hin as (s' & E & Hs'). apply Hs. rewrite <- (pick_inj s' s t n); try assumption; apply orders_length; apply Hi; [now right|now left]. }
    apply G; [apply incl_refl|apply orders_nodup].
  - now rewrite map_length.
  - intros x Hx. apply in_map_iff in Hx. destruct Hx as (s & <- & Hs). now apply pickn_order.
Qed.
Lemma reindex_Csum t n (f : list nat -> C) : In t (orders n) -> Csum (orders n) f = Csum (orders n) (fun s => f (pickn s t)).
Proof. intro Ht. rewrite <- (Csum_perm _ _ f (reindex t n Ht)). apply Csum_map. Qed.
Lemma combine_pickn s c t : combine (pickn s t) (pickn c t) = map (fun j => (nth j s 0, nth j c 0)) t.
Proof. unfold pickn. induction t as [|j t IH]; [reflexivity|]. cbn [map combine]. now rewrite IH. Qed.
Lemma combine_seq s c n : length s = n -> length c = n -> map (fun j => (nth j s 0, nth j c 0)) (seq 0 n) = combine s c.
Proof. intros Hs Hc. rewrite <- combine_pickn, !pickn_id by assumption. reflexivity. Qed.
Lemma combine_order s c t n : length s = n -> length c = n -> In t (orders n) -> Permutation (combine (pickn s t) (pickn c t)) (combine s c).
Proof. intros Hs Hc Ht. rewrite combine_pickn, <- (combine_seq s c n) by assumption. apply Permutation_map. apply permutations_in in Ht. now symmetry. Qed.
Lemma Rprod_perm {A} (l l' : list A) f : Permutation l l' -> Rprod l f = Rprod l' f.
Proof. induction 1 as [|x l l' _ IH|x y l|l l' l'' _ IH1 _ IH2]; cbn; [reflexivity|unfold Rprod in IH; now rewrite IH|fold (Rprod l f); ring|congruence]. Qed.

(** ** Sequences of channels with given numbers of photons *)
Lemma occ_channels n l : Forall (fun c => c < n) l -> Permutation l (channels_of (occupation n l)).
Proof.
  intro Hb. rewrite <- channels_of_spec. apply (Permutation_count_occ Nat.eq_dec). intro x. rewrite photon_channels_pc, pc_count by lia. rewrite Nat.sub_0_r.
  destruct (Nat.lt_ge_cases x n) as [Hx|Hx].
  - rewrite occupation_nth by exact Hx. reflexivity.
  - rewrite nth_overflow by (rewrite occupation_length; exact Hx). apply count_occ_not_In. intro Z. pose proof (proj1 (Forall_forall _ _) Hb x Z) as Z'. cbn beta in Z'. lia.
Qed.
Lemma channels_occ f n : length f = n -> occupation n (channels_of f) = f.
Proof. intro H. rewrite <- channels_of_spec. now apply occupation_channels. Qed.
Definition numbers (L n m : nat) : list values := filter (fun f => NamesSpec.photons f =? m) (tuples L n).
Lemma numbers_in L n m f : m < L -> (In f (numbers L n m) <-> length f = n /\ NamesSpec.photons f = m).
Proof.
  intro Hm. unfold numbers. rewrite filter_In, tuples_in, Nat.eqb_eq. split; [intros [[H1 _] H2]; now split|]. intros [H1 H2]. split; [|exact H2]. split; [exact H1|].
  exact (proj2 (valid_bound (Dims L n true) f H1 ltac:(cbn; lia))).
Qed.
Lemma numbers_nodup L n m : NoDup (numbers L n m).
Proof. apply NoDup_filter. apply tuples_nodup. Qed.
Lemma sequences_count n m f : length f = n -> NamesSpec.photons f = m ->
  length (filter (fun c => leqb (occupation n c) f) (tuples n m)) * factorials f = fact m.
Proof.
  intros Lf Pf. apply INR_eq. apply RtoC_inj.
  transitivity (Csum (tuples n m) (fun c => Csum (orders m) (fun s => if leqb (pickn c s) (channels_of f) then RtoC 1 else RtoC 0))).
  - rewrite mult_INR, RtoC_mult, Rmult_comm || rewrite mult_INR, RtoC_mult. rewrite <- Csum_count, <- Csum_scal_r. apply Csum_ext. intros c Hc. apply tuples_in in Hc. rewrite Csum_count. unfold orders. rewrite <- Pf, (photon_orders n c f Lf); [|exact (proj2 Hc)|now rewrite Pf].
    destruct (leqb _ _); [ring|cbn; ring].
  - rewrite Csum_swap. rewrite (Csum_ext _ _ (fun _ => RtoC 1)).
    + assert (G : Csum (orders m) (fun _ => RtoC 1) = RtoC (INR (length (orders m)))) by (induction (orders m) as [|x l IH]; [reflexivity|]; rewrite Csum_cons, IH; cbn [length]; rewrite S_INR, RtoC_plus; ring).
      rewrite G. unfold orders. now rewrite permutations_length, seq_length.
    + intros s Hs. destruct (unpick s (channels_of f) m Hs) as (g & Lg & Eg); [now rewrite channels_length|].
      rewrite (Csum_single _ g); [now rewrite Eg, leqb_same| | |].
      * apply tuples_nodup.
      * apply tuples_in. split; [exact Lg|]. apply Forall_forall. intros x Hx. assert (Hx' : In x (channels_of f)) by (rewrite <- Eg; apply (Permutation_in x (pick_permutation g s _ m Lg Hs eq_refl)); exact Hx).
        rewrite <- Lf. now apply channels_bound.
      * intros c Hc Hn. apply tuples_in in Hc. destruct (leqb _ _) eqn:E; [|reflexivity]. exfalso. apply Hn. apply leqb_spec in E. apply (pick_inj c g s m); try assumption; [exact (proj1 Hc)|congruence].
Qed.
(** A sum over photon numbers as a sum over sequences of channels. *)
Lemma numbers_sum L n m (G : list nat -> C) : m < L -> (forall c s, In c (tuples n m) -> In s (orders m) -> G (pickn c s) = G c) ->
  Csum (numbers L n m) (fun f => G (channels_of f) / RtoC (INR (factorials f)))%C = (Csum (tuples n m) G / RtoC (INR (fact m)))%C.
Proof.
  intros Hm HG. assert (Fp : forall f, RtoC (INR (factorials f)) <> RtoC 0) by (intro f; intro X; apply RtoC_inj in X; pose proof (lt_0_INR _ (factorials_pos f)); lra).
  assert (F0 : RtoC (INR (fact m)) <> RtoC 0) by (intro X; apply RtoC_inj in X; pose proof (lt_0_INR _ (lt_O_fact m)); lra).
  assert (E : Csum (tuples n m) G = Csum (numbers L n m) (fun f => RtoC (INR (length (filter (fun c => leqb (occupation n c) f) (tuples n m)))) * G (channels_of f))%C).
  { transitivity (Csum (tuples n m) (fun c => Csum (numbers L n m) (fun f => (if leqb (occupation n c) f then RtoC 1 else RtoC 0) * G (channels_of f))%C)).
    - apply Csum_ext. intros c Hc. pose proof Hc as Hc'. apply tuples_in in Hc. destruct Hc as [Lc Bc]. pose proof (occ_channels n c Bc) as HP.
      rewrite (Csum_single _ (occupation n c)).
      + rewrite leqb_same. destruct (pick_exists c _ HP) as (s & Hs & Es). rewrite Lc in Hs. rewrite <- Es, (HG c s Hc' Hs). ring.
      + apply numbers_nodup.
      + apply numbers_in; [exact Hm|]. split; [apply occupation_length|]. rewrite <- channels_length, <- (Permutation_length HP). exact Lc.
      + intros f Hf Hn. rewrite leqb_false by congruence. ring.
    - rewrite Csum_swap. apply Csum_ext. intros f _. rewrite Csum_scal_r. now rewrite Csum_count. }
  rewrite E. unfold Cdiv at 2. rewrite <- Csum_scal_r. apply Csum_ext. intros f Hf. apply numbers_in in Hf; [|exact Hm]. destruct Hf as [Lf Pf].
  pose proof (sequences_count n m f Lf Pf) as HC. apply (f_equal INR) in HC. rewrite mult_INR in HC. rewrite <- HC, RtoC_mult. rewrite <- HC, RtoC_mult in F0. field. split; [exact (Fp f)|]. intro Z. apply F0. rewrite Z. ring.
Qed.

(** ** The detection probability is a sum of squares *)
Lemma Rprod_cons {A} (x : A) l f : Rprod (x :: l) f = (f x * Rprod l f)%R.
Proof. reflexivity. Qed.
Lemma Rprod_sums (a b : nat -> nat -> R) K : forall s t, length s = length t ->
  Rprod (combine s t) (fun x => Rsum (seq 0 K) (fun m => a (fst x) m * b (snd x) m)%R)
  = Rsum (tuples K (length s)) (fun ms => Rprod (combine s ms) (fun x => a (fst x) (snd x)) * Rprod (combine t ms) (fun x => b (fst x) (snd x)))%R.
Proof.
  induction s as [|i s IH]; intros [|j t] Hl; try discriminate; [unfold Rsum; cbn; ring|]. cbn [combine length tuples]. rewrite Rprod_cons, IH by (cbn in Hl; lia). cbn [fst snd].
  rewrite Rsum_flat_map. rewrite Rmult_comm, <- Rsum_scal_l. apply Rsum_ext. intros m _. rewrite Rsum_map, Rmult_comm, <- Rsum_scal_l. apply Rsum_ext. intros ms _. cbn [combine]. rewrite !Rprod_cons. cbn [fst snd]. ring.
Qed.
Definition mode_amplitude (e : R * R -> nat -> R) (bs : list branch) (f : values) (ms : list nat) : C :=
  Csum (fitting bs f) (fun b => Csum (orders (NamesSpec.photons f)) (fun s =>
    (path b (channels_of f) s * RtoC (Rprod (combine s ms) (fun x => e (ph_timing (nth_photon b (fst x))) (snd x))))%C)).
Lemma interference_modes K (e : R * R -> nat -> R) bs f :
  (forall b b' p p', In b bs -> In b' bs -> In p (br_photons b) -> In p' (br_photons b') ->
     pulse_overlap (ph_timing p) (ph_timing p') = Rsum (seq 0 K) (fun m => e (ph_timing p) m * e (ph_timing p') m)%R) ->
  interference bs f = RtoC (Rsum (tuples K (NamesSpec.photons f)) (fun ms => Cnorm2 (mode_amplitude e bs f ms))).
Proof.
  intro He. rewrite <- Csum_RtoC.
  transitivity (Csum (tuples K (NamesSpec.photons f)) (fun ms => mode_amplitude e bs f ms * Cconj (mode_amplitude e bs f ms))%C).
  2:{ apply Csum_ext. intros ms _. now rewrite Cmult_comm, Cconj_mult_norm2. }
  unfold mode_amplitude. transitivity (Csum (tuples K (NamesSpec.photons f)) (fun ms => Csum (fitting bs f) (fun b => Csum (fitting bs f) (fun b' =>
    Csum (orders (NamesSpec.photons f)) (fun s => Csum (orders (NamesSpec.photons f)) (fun t =>
      (path b (channels_of f) s * RtoC (Rprod (combine s ms) (fun x => e (ph_timing (nth_photon b (fst x))) (snd x))) *
       Cconj (path b' (channels_of f) t * RtoC (Rprod (combine t ms) (fun x => e (ph_timing (nth_photon b' (fst x))) (snd x)))))%C)))))).
  2:{ apply Csum_ext. intros ms _. rewrite Csum_conj, Csum_prod2. apply Csum_ext. intros b _. apply Csum_ext. intros b' _. rewrite Csum_conj, Csum_prod2. reflexivity. }
  unfold interference. etransitivity; [|symmetry; apply Csum_swap]. apply Csum_ext. intros b Hb. etransitivity; [|symmetry; apply Csum_swap]. apply Csum_ext. intros b' Hb'. etransitivity; [|symmetry; apply Csum_swap]. apply Csum_ext. intros s Hs. etransitivity; [|symmetry; apply Csum_swap]. apply Csum_ext. intros t Ht.
  unfold fitting in Hb, Hb'. apply filter_In in Hb. apply filter_In in Hb'. destruct Hb as [Hb Lb]. destruct Hb' as [Hb' Lb']. apply Nat.eqb_eq in Lb. apply Nat.eqb_eq in Lb'.
  assert (HI : indistinct b b' s t = Rsum (tuples K (NamesSpec.photons f)) (fun ms => Rprod (combine s ms) (fun x => e (ph_timing (nth_photon b (fst x))) (snd x)) * Rprod (combine t ms) (fun x => e (ph_timing (nth_photon b' (fst x))) (snd x)))%R).
  { rewrite <- (orders_length _ _ Hs). rewrite <- (Rprod_sums (fun j => e (ph_timing (nth_photon b j))) (fun j => e (ph_timing (nth_photon b' j)))) by (now rewrite (orders_length _ _ Hs), (orders_length _ _ Ht)).
    unfold indistinct. apply Rprod_ext. intros [i j] Hx. cbn [fst snd]. apply (He b b'); try assumption; unfold nth_photon; apply nth_In.
    - rewrite Lb. apply (orders_bound _ s); [exact Hs|]. exact (in_combine_l _ _ _ _ Hx).
    - rewrite Lb'. apply (orders_bound _ t); [exact Ht|]. exact (in_combine_r _ _ _ _ Hx). }
  rewrite HI, <- Csum_RtoC, <- Csum_scal_l. apply Csum_ext. intros ms _. rewrite RtoC_mult, Cconj_mult, Cconj_RtoC. ring.
Qed.
(** Two timings with equal width. *)
Definition two_modes (t w : R) (a : R * R) (m : nat) : R :=
  let g := pulse_overlap ((- t)%R, w) (0%R, w) in
  if Req_EM_T (fst a) 0 then (match m with 0 => g | _ => sqrt (1 - g * g) end) else (match m with 0 => 1 | _ => 0 end).
Lemma pulse_overlap_range a b : (0 < pulse_overlap a b)%R /\ (snd a <> 0%R \/ snd b <> 0%R -> (pulse_overlap a b <= 1)%R).
Proof.
  unfold pulse_overlap. split; [apply exp_pos|]. intro H. rewrite <- exp_0. assert (Hl : (0 < ln 2)%R) by (rewrite <- ln_1; apply ln_increasing; lra).
  assert (Hq : (0 <= (fst a - fst b) ^ 2 / (snd a ^ 2 + snd b ^ 2))%R).
  { apply Rle_mult_inv_pos; [apply pow2_ge_0|]. destruct H as [H|H]; [assert (0 < snd a ^ 2)%R by (rewrite <- Rsqr_pow2; apply Rsqr_pos_lt; exact H); pose proof (pow2_ge_0 (snd b)); lra|assert (0 < snd b ^ 2)%R by (rewrite <- Rsqr_pow2; apply Rsqr_pos_lt; exact H); pose proof (pow2_ge_0 (snd a)); lra]. }
  set (q := ((fst a - fst b) ^ 2 / (snd a ^ 2 + snd b ^ 2))%R) in *. assert (Hm : (- ln 2 * q <= 0)%R) by nra.
  destruct Hm as [Hm|Hm]; [left; now apply exp_increasing|right; now rewrite Hm].
Qed.
Lemma pulse_overlap_same a : pulse_overlap a a = 1%R.
Proof. unfold pulse_overlap. replace ((fst a - fst a) ^ 2)%R with 0%R by ring. unfold Rdiv. rewrite Rmult_0_l, Rmult_0_r. apply exp_0. Qed.
Lemma pulse_overlap_sym a b : pulse_overlap a b = pulse_overlap b a.
Proof. unfold pulse_overlap. replace ((fst b - fst a) ^ 2)%R with ((fst a - fst b) ^ 2)%R by ring. now rewrite (Rplus_comm (snd b ^ 2)). Qed.
Lemma two_modes_overlap t w : w <> 0%R -> forall a b, (a = ((- t)%R, w) \/ a = (0%R, w)) -> (b = ((- t)%R, w) \/ b = (0%R, w)) ->
  pulse_overlap a b = Rsum (seq 0 2) (fun m => two_modes t w a m * two_modes t w b m)%R.
Proof.
  intros Hw a b Ha Hb. set (g := pulse_overlap ((- t)%R, w) (0%R, w)).
  assert (Hg : (0 < g <= 1)%R) by (split; [apply pulse_overlap_range|apply pulse_overlap_range; now left]).
  assert (Hs : (sqrt (1 - g * g) * sqrt (1 - g * g) = 1 - g * g)%R) by (apply sqrt_sqrt; nra).
  assert (Ea : forall c, (c = ((- t)%R, w) \/ c = (0%R, w)) -> fst c = 0%R -> c = (0%R, w)).
  { intros c [->| ->] E; [|reflexivity]. cbn [fst] in E. now rewrite E. }
  assert (Eb : forall c, (c = ((- t)%R, w) \/ c = (0%R, w)) -> fst c <> 0%R -> c = ((- t)%R, w)).
  { intros c [->| ->] E; [reflexivity|]. cbn [fst] in E. congruence. }
  unfold Rsum. cbn [seq map fold_right]. unfold two_modes. fold g.
  destruct (Req_EM_T (fst a) 0) as [Fa|Fa]; [rewrite (Ea a Ha Fa)|rewrite (Eb a Ha Fa)]; (destruct (Req_EM_T (fst b) 0) as [Fb|Fb]; [rewrite (Ea b Hb Fb)|rewrite (Eb b Hb Fb)]).
  - rewrite pulse_overlap_same, Rplus_0_r, Hs. ring.
  - rewrite pulse_overlap_sym. fold g. ring.
  - fold g. ring.
  - rewrite pulse_overlap_same. ring.
Qed.

(** ** All outcomes together *)
Lemma Csum_tuples_prod {A} N (F : A -> nat -> C) : forall l, Csum (tuples N (length l)) (fun c => Cprod (combine l c) (fun x => F (fst x) (snd x))) = Cprod l (fun x => Csum (seq 0 N) (F x)).
Proof.
  induction l as [|x l IH]; [cbn [length tuples]; rewrite Csum_cons, Csum_nil; cbn; apply C_eq; cbn; ring|]. cbn [length tuples]. rewrite Csum_flat_map, Cprod_cons, <- IH, <- Csum_scal_r. apply Csum_ext. intros m _.
  rewrite Csum_map, <- Csum_scal_l. apply Csum_ext. intros c _. cbn [combine]. now rewrite Cprod_cons.
Qed.
Lemma Cprod_zip (A B : nat -> nat -> C) : forall s t c, length s = length c -> length t = length c ->
  (Cprod (combine s c) (fun x => A (fst x) (snd x)) * Cprod (combine t c) (fun x => B (fst x) (snd x)))%C = Cprod (combine (combine s t) c) (fun x => (A (fst (fst x)) (snd x) * B (snd (fst x)) (snd x))%C).
Proof.
  induction s as [|i s IH]; intros [|j t] [|k c] H1 H2; try discriminate; [cbn; ring|]. cbn [combine]. rewrite !Cprod_cons. cbn [fst snd]. rewrite <- IH by (cbn in H1, H2; lia). ring.
Qed.
Lemma Cprod_delta l l' : length l = length l' -> Cprod (combine l l') (fun x : nat * nat => if fst x =? snd x then RtoC 1 else RtoC 0) = if leqb l l' then RtoC 1 else RtoC 0.
Proof.
  revert l'. induction l as [|x l IH]; intros [|y l'] H; try discriminate; [reflexivity|]. cbn [combine]. rewrite Cprod_cons, leqb_cons, IH by (cbn in H; lia). cbn [fst snd]. destruct (x =? y); cbn [andb]; [|ring]. destruct (leqb l l'); ring.
Qed.
Section Total.
Variables (D : dims) (es : list optic) (chs : list nat) (t w : R).
Hypothesis (Hes : Forall (optic_ok D) es) (Hw : w <> 0%R).
Let N := dN D.
Let U := transfer N es.
Let tm := fun k : nat => ((if channel_in chs k then - t else 0)%R, w).
Let B := fun va : values * C => Branch (snd va) (sqrt (INR (factorials (fst va)))) (sent_photons N es chs t w (fst va)).
Lemma sent_nth (va : values * C) j : j < NamesSpec.photons (fst va) -> nth_photon (B va) j = Photon (fun c => U c (nth j (channels_of (fst va)) 0)) (tm (nth j (channels_of (fst va)) 0)).
Proof.
  intro Hj. unfold nth_photon, B, sent_photons. cbn [br_photons].
  rewrite (nth_indep _ _ (Photon (fun c => U c 0) (tm 0))) by (now rewrite map_length, channels_length). exact (map_nth (fun k => Photon (fun c => U c k) (tm k)) (channels_of (fst va)) 0 j).
Qed.
Lemma sent_timing va p : In p (br_photons (B va)) -> ph_timing p = ((- t)%R, w) \/ ph_timing p = (0%R, w).
Proof. intro Hp. cbn [B br_photons] in Hp. unfold sent_photons in Hp. apply in_map_iff in Hp. destruct Hp as (k & <- & _). cbn [ph_timing]. destruct (channel_in chs k); [now left|now right]. Qed.
Lemma sent_real vas f : interference (map B vas) f = RtoC (Rsum (tuples 2 (NamesSpec.photons f)) (fun ms => Cnorm2 (mode_amplitude (two_modes t w) (map B vas) f ms))).
Proof.
  apply interference_modes. intros b b' p p' Hb Hb' Hp Hp'. apply in_map_iff in Hb. destruct Hb as (va & <- & _). apply in_map_iff in Hb'. destruct Hb' as (va' & <- & _).
  apply two_modes_overlap; [exact Hw|exact (sent_timing va p Hp)|exact (sent_timing va' p' Hp')].
Qed.
Lemma sent_detection_real vas f : RtoC (detection (map B vas) f) = (interference (map B vas) f / RtoC (INR (factorials f)))%C.
Proof.
  unfold detection. rewrite RtoC_div by (pose proof (lt_0_INR _ (factorials_pos f)); lra). f_equal. rewrite sent_real. rewrite Cmod_R, Rabs_right; [reflexivity|]. apply Rle_ge. apply Rsum_nonneg. intros; apply Cnorm2_nonneg.
Qed.
(** One pair of components. *)
Definition pair_term (va va' : values * C) (c : list nat) : C :=
  Csum (orders (NamesSpec.photons (fst va))) (fun s => Csum (orders (NamesSpec.photons (fst va))) (fun s' =>
    (path (B va) c s * Cconj (path (B va') c s') * RtoC (indistinct (B va) (B va') s s'))%C)).
Lemma path_reorder b c s o n : length c = n -> length s = n -> In o (orders n) -> path b (pickn c o) (pickn s o) = path b c s.
Proof. intros Hc Hs Ho. unfold path. f_equal. apply Cprod_perm. now apply (combine_order s c o n). Qed.
Lemma pair_reorder (va va' : values * C) c o : length c = NamesSpec.photons (fst va) -> In o (orders (NamesSpec.photons (fst va))) -> pair_term va va' (pickn c o) = pair_term va va' c.
Proof.
  intros Hc Ho. unfold pair_term. rewrite (reindex_Csum o) by exact Ho. apply Csum_ext. intros s Hs. rewrite (reindex_Csum o) by exact Ho. apply Csum_ext. intros s' Hs'.
  pose proof (orders_length _ _ Hs) as L1. pose proof (orders_length _ _ Hs') as L2. rewrite !(path_reorder _ _ _ o (NamesSpec.photons (fst va))) by assumption. f_equal. f_equal. unfold indistinct. apply Rprod_perm. now apply (combine_order s s' o (NamesSpec.photons (fst va))).
Qed.
Lemma pair_total (va va' : values * C) : length (fst va) = N -> length (fst va') = N -> NamesSpec.photons (fst va') = NamesSpec.photons (fst va) ->
  Csum (tuples N (NamesSpec.photons (fst va))) (pair_term va va') = if leqb (fst va) (fst va') then (snd va * Cconj (snd va') * RtoC (INR (fact (NamesSpec.photons (fst va)))))%C else RtoC 0.
Proof.
  intros L1 L2 EP. set (m := NamesSpec.photons (fst va)) in *. unfold pair_term. fold m.
  set (K := ((snd va / RtoC (sqrt (INR (factorials (fst va))))) * Cconj (snd va' / RtoC (sqrt (INR (factorials (fst va'))))))%C).
  assert (HU : unitary_mat N U) by (now apply optics_transfer_unitary).
  assert (C1 : forall j, j < m -> nth j (channels_of (fst va)) 0 < N) by (intros j Hj; rewrite <- L1; apply channels_bound; apply nth_In; now rewrite channels_length).
  assert (C2 : forall j, j < m -> nth j (channels_of (fst va')) 0 < N) by (intros j Hj; rewrite <- L2; apply channels_bound; apply nth_In; rewrite channels_length, EP; exact Hj).
  etransitivity; [apply Csum_swap|].
  transitivity (Csum (orders m) (fun s => Csum (orders m) (fun s' => (K * if leqb (pickn (channels_of (fst va)) s) (pickn (channels_of (fst va')) s') then RtoC 1 else RtoC 0)%C))).
  { apply Csum_ext. intros s Hs. etransitivity; [apply Csum_swap|]. apply Csum_ext. intros s' Hs'. pose proof (orders_length _ _ Hs) as Ls. pose proof (orders_length _ _ Hs') as Ls'.
    assert (B1 : forall j, In j s -> j < m) by (intros j Hj; exact (orders_bound _ _ _ Hs Hj)). assert (B2 : forall j, In j s' -> j < m) by (intros j Hj; exact (orders_bound _ _ _ Hs' Hj)).
    set (A1 := fun j c => U c (nth j (channels_of (fst va)) 0)). set (A2 := fun j c => Cconj (U c (nth j (channels_of (fst va')) 0))).
    transitivity ((K * RtoC (indistinct (B va) (B va') s s')) * Csum (tuples N (length (combine s s'))) (fun c => Cprod (combine (combine s s') c) (fun x => (fun ss k => A1 (fst ss) k * A2 (snd ss) k)%C (fst x) (snd x))))%C.
    { rewrite <- Csum_scal_l, combine_length, Ls, Ls', Nat.min_id. apply Csum_ext. intros c Hc. apply tuples_in in Hc. destruct Hc as [Lc _].
      cbn beta. rewrite <- (Cprod_zip A1 A2) by congruence. unfold path. cbn [B br_amplitude br_boson].
      replace (Cprod (combine s c) (fun x => ph_wave (nth_photon (B va) (fst x)) (snd x))) with (Cprod (combine s c) (fun x => A1 (fst x) (snd x))).
      2:{ apply Cprod_ext. intros [j k] Hx. cbn [fst snd]. rewrite (sent_nth va j) by (apply B1; exact (in_combine_l _ _ _ _ Hx)). reflexivity. }
      replace (Cprod (combine s' c) (fun x => ph_wave (nth_photon (B va') (fst x)) (snd x))) with (Cprod (combine s' c) (fun x => U (snd x) (nth (fst x) (channels_of (fst va')) 0))).
      2:{ apply Cprod_ext. intros [j k] Hx. cbn [fst snd]. rewrite (sent_nth va' j (Nat.lt_le_trans _ _ _ (B2 j (in_combine_l _ _ _ _ Hx)) (Nat.eq_le_incl _ _ (eq_sym EP)))). reflexivity. }
      rewrite (Cconj_mult (snd va' / _)%C), Cprod_conj. subst A2. cbn beta. unfold K. idtac. ring. }
    rewrite (Csum_tuples_prod N (fun ss k => (A1 (fst ss) k * A2 (snd ss) k)%C)).
    transitivity ((K * RtoC (indistinct (B va) (B va') s s')) * Cprod (combine (pickn (channels_of (fst va)) s) (pickn (channels_of (fst va')) s')) (fun x : nat * nat => if fst x =? snd x then RtoC 1 else RtoC 0))%C.
    { f_equal. clear Hs Hs'. assert (G : combine (pickn (channels_of (fst va)) s) (pickn (channels_of (fst va')) s') = map (fun x => (nth (fst x) (channels_of (fst va)) 0, nth (snd x) (channels_of (fst va')) 0)) (combine s s')).
      { clear. unfold pickn. revert s'. induction s as [|i s IH]; intros [|j s']; try reflexivity. cbn [map combine fst snd]. now rewrite IH. }
      rewrite G, Cprod_map. apply Cprod_ext. intros [i j] Hx. cbn [fst snd]. unfold A1, A2. pose proof (in_combine_l _ _ _ _ Hx) as Hi. pose proof (in_combine_r _ _ _ _ Hx) as Hj.
      destruct (HU (nth j (channels_of (fst va')) 0) (nth i (channels_of (fst va)) 0) (C2 j (B2 j Hj)) (C1 i (B1 i Hi))) as [_ E].
      rewrite (Csum_ext _ _ (fun k => (Cconj (U k (nth j (channels_of (fst va')) 0%nat)) * U k (nth i (channels_of (fst va)) 0%nat))%C)) by (intros; ring). rewrite E. now rewrite Nat.eqb_sym. }
    rewrite Cprod_delta by (unfold pickn; rewrite !map_length; congruence).
    destruct (leqb (pickn (channels_of (fst va)) s) (pickn (channels_of (fst va')) s')) eqn:E; [|ring]. apply leqb_spec in E.
    assert (HI : indistinct (B va) (B va') s s' = 1%R); [|rewrite HI; ring].
    unfold indistinct. transitivity (Rprod (combine s s') (fun _ => 1%R)); [|clear; induction (combine s s') as [|x l IH]; [reflexivity|cbn; unfold Rprod in IH; rewrite IH; ring]].
    apply Rprod_ext. intros [i j] Hx. cbn [fst snd]. pose proof (in_combine_l _ _ _ _ Hx) as Hi. pose proof (in_combine_r _ _ _ _ Hx) as Hj. rewrite (sent_nth va i (B1 i Hi)), (sent_nth va' j (Nat.lt_le_trans _ _ _ (B2 j Hj) (Nat.eq_le_incl _ _ (eq_sym EP)))). cbn [ph_timing].
    assert (Ek : nth i (channels_of (fst va)) 0 = nth j (channels_of (fst va')) 0).
    { apply In_nth with (d := (0, 0)) in Hx. destruct Hx as (k & Hk & Ex). rewrite combine_length, Ls, Ls', Nat.min_id in Hk. rewrite combine_nth in Ex by congruence. injection Ex as Ei Ej.
      apply (f_equal (fun l => nth k l 0)) in E. rewrite !pickn_nth in E by congruence. congruence. }
    rewrite Ek. apply pulse_overlap_same. }
  (* counting *)
  assert (Fz : forall vs, RtoC (sqrt (INR (factorials vs))) <> RtoC 0) by (intros vs X; apply RtoC_inj in X; pose proof (sqrt_lt_R0 _ (lt_0_INR _ (factorials_pos vs))); lra).
  transitivity (Csum (orders m) (fun s' => Csum (orders m) (fun s => (K * if leqb (pickn (channels_of (fst va)) s) (pickn (channels_of (fst va')) s') then RtoC 1 else RtoC 0)%C))); [apply Csum_swap|].
  rewrite (Csum_ext _ _ (fun _ => (K * RtoC (INR (if leqb (fst va) (fst va') then factorials (fst va') else 0)))%C)).
  2:{ intros s' Hs'. rewrite (reindex_Csum s') by exact Hs'. rewrite Csum_scal_l. f_equal.
    rewrite (Csum_ext _ _ (fun s => if leqb (pickn (channels_of (fst va)) s) (channels_of (fst va')) then RtoC 1 else RtoC 0)).
    - rewrite Csum_count. unfold orders. rewrite <- EP. rewrite (photon_orders N (channels_of (fst va)) (fst va')); [|exact L2| |rewrite channels_length; now rewrite EP].
      + rewrite channels_occ by exact L1. reflexivity.
      + apply Forall_forall. intros k Hk. rewrite <- L1. now apply channels_bound.
    - intros s Hs. assert (Q : pickn (channels_of (fst va)) (pickn s s') = pickn (pickn (channels_of (fst va)) s) s').
      { unfold pickn. rewrite map_map. apply map_ext_in. intros j Hj. pose proof (orders_bound _ _ _ Hs' Hj) as Hj'. pose proof (pickn_nth (channels_of (fst va)) s j ltac:(rewrite (orders_length _ _ Hs); exact Hj')) as Q. unfold pickn in Q. now rewrite Q. }
      rewrite Q. destruct (leqb (pickn (channels_of (fst va)) s) (channels_of (fst va'))) eqn:E.
      + apply leqb_spec in E. now rewrite E, leqb_same.
      + rewrite leqb_false; [reflexivity|]. intro Z. apply (pick_inj _ _ _ m) in Z; [now rewrite Z, leqb_same in E| | |exact Hs']; [unfold pickn; rewrite map_length; exact (orders_length _ _ Hs)|rewrite channels_length; exact EP]. }
  assert (G : forall z, Csum (orders m) (fun _ => z) = (z * RtoC (INR (fact m)))%C).
  { intro z. rewrite (Csum_ext _ _ (fun _ => (z * RtoC 1)%C)) by (intros; ring). rewrite Csum_scal_l. f_equal. unfold orders. replace (fact m) with (length (permutations (seq 0 m))) by (now rewrite permutations_length, seq_length).
    generalize (permutations (seq 0 m)). intro l. induction l as [|x l IH]; [reflexivity|]. rewrite Csum_cons, IH. cbn [length]. rewrite S_INR, RtoC_plus. ring. }
  rewrite G. destruct (leqb (fst va) (fst va')) eqn:E; [|cbn [INR]; ring]. apply leqb_spec in E. unfold K. rewrite E.
  assert (Sq : RtoC (INR (factorials (fst va'))) = (RtoC (sqrt (INR (factorials (fst va')))) * RtoC (sqrt (INR (factorials (fst va')))))%C) by (rewrite <- RtoC_mult, sqrt_sqrt by apply pos_INR; reflexivity).
  rewrite Sq. pose proof (Fz (fst va')) as F0. set (q := sqrt (INR (factorials (fst va')))) in *. assert (Cq : Cconj (snd va' / RtoC q)%C = (Cconj (snd va') / RtoC q)%C).
  { unfold Cdiv. rewrite Cconj_mult. f_equal. rewrite <- RtoC_inv by (intro Z; apply F0; now rewrite Z). apply Cconj_RtoC. }
  rewrite Cq. field. exact F0.
Qed.
Lemma branches_total (vas : list (values * C)) : NoDup (map fst vas) -> Forall (fun va => length (fst va) = N /\ NamesSpec.photons (fst va) < dL D) vas ->
  Rsum (tuples (dL D) N) (detection (map B vas)) = Rsum vas (fun va => Cnorm2 (snd va)).
Proof.
  intros ND HF. rewrite Forall_forall in HF. apply RtoC_inj. rewrite <- !Csum_RtoC.
  transitivity (Csum (tuples (dL D) N) (fun f => Csum vas (fun va => Csum vas (fun va' =>
     if NamesSpec.photons (fst va) =? NamesSpec.photons f then if NamesSpec.photons (fst va') =? NamesSpec.photons f then (pair_term va va' (channels_of f) / RtoC (INR (factorials f)))%C else RtoC 0 else RtoC 0)))).
  { apply Csum_ext. intros f _. rewrite sent_detection_real. unfold interference, Cdiv. rewrite <- Csum_scal_r. unfold fitting. rewrite filter_map, Csum_map, Csum_filter. apply Csum_ext. intros va _.
    assert (Lb : forall va : values * C, length (br_photons (B va)) = NamesSpec.photons (fst va)) by (intro v; cbn [B br_photons]; unfold sent_photons; now rewrite map_length, channels_length).
    rewrite Lb. destruct (Nat.eqb_spec (NamesSpec.photons (fst va)) (NamesSpec.photons f)) as [E|E]; [|symmetry; apply Csum_zero; reflexivity].
    rewrite <- Csum_scal_r, Csum_map, Csum_filter. apply Csum_ext. intros va' _. rewrite Lb. destruct (_ =? _); [|reflexivity]. unfold pair_term. rewrite E. reflexivity. }
  rewrite Csum_swap. apply Csum_ext. intros va Hva. destruct (HF va Hva) as [L1 P1]. rewrite Csum_swap.
  rewrite (Csum_single _ va).
  - transitivity (Csum (numbers (dL D) N (NamesSpec.photons (fst va))) (fun f => pair_term va va (channels_of f) / RtoC (INR (factorials f)))%C).
    + unfold numbers. rewrite Csum_filter. apply Csum_ext. intros f _. rewrite (Nat.eqb_sym (NamesSpec.photons f)). now destruct (_ =? _).
    + rewrite (numbers_sum _ _ _ (pair_term va va) P1) by (intros c o Hc Ho; apply pair_reorder; [exact (proj1 (proj1 (tuples_in _ _ _) Hc))|exact Ho]).
      rewrite pair_total by (try assumption; reflexivity). rewrite leqb_same. rewrite <- Cconj_mult_norm2. assert (X : RtoC (INR (fact (NamesSpec.photons (fst va)))) <> RtoC 0) by (intro X; apply RtoC_inj in X; pose proof (lt_0_INR _ (lt_O_fact (NamesSpec.photons (fst va)))); lra).
      set (z := RtoC (INR (fact (NamesSpec.photons (fst va))))) in *. set (a := snd va). change ((a * Cconj a * z / z)%C = (Cconj a * a)%C). field. exact X.
  - exact (NoDup_map_inv _ _ ND).
  - exact Hva.
  - intros va' Hva' Hn. destruct (HF va' Hva') as [L2 P2]. destruct (Nat.eq_dec (NamesSpec.photons (fst va')) (NamesSpec.photons (fst va))) as [E|E].
    + assert (Hd : fst va <> fst va').
      { intro Z. apply Hn. clear - ND Hva Hva' Z. induction vas as [|x l IH]; [destruct Hva|]. cbn [map] in ND. inversion ND as [|? ? Hx ND']; subst.
        destruct Hva as [->|Hva], Hva' as [->|Hva']; [reflexivity| | |now apply IH].
        - exfalso. apply Hx. rewrite Z. now apply in_map.
        - exfalso. apply Hx. rewrite <- Z. now apply in_map. }
      transitivity (Csum (numbers (dL D) N (NamesSpec.photons (fst va))) (fun f => pair_term va va' (channels_of f) / RtoC (INR (factorials f)))%C).
      * unfold numbers. rewrite Csum_filter. apply Csum_ext. intros f _. rewrite E, (Nat.eqb_sym (NamesSpec.photons f)). now destruct (_ =? _).
      * rewrite (numbers_sum _ _ _ (pair_term va va') P1) by (intros c o Hc Ho; apply pair_reorder; [exact (proj1 (proj1 (tuples_in _ _ _) Hc))|exact Ho]).
        rewrite pair_total by assumption. rewrite leqb_false by exact Hd. unfold Cdiv. ring.
    + apply Csum_zero. intros f _. destruct (Nat.eqb_spec (NamesSpec.photons (fst va)) (NamesSpec.photons f)) as [E1|]; [|reflexivity]. destruct (Nat.eqb_spec (NamesSpec.photons (fst va')) (NamesSpec.photons f)) as [E2|]; [|reflexivity]. exfalso. congruence.
Qed.
End Total.

(** The components of a state as pairs (photon numbers, amplitude). *)
Definition parts_values (D : dims) (st : state) : list (values * C) := map (fun x => (values_of_name D (fst x), snd x)) (weighted_components st).
Lemma parts_values_facts D st : wf_state D st -> sendable D st -> s_comps st <> [] ->
  NoDup (map fst (parts_values D st)) /\ Forall (fun va => length (fst va) = dN D /\ NamesSpec.photons (fst va) < dL D) (parts_values D st) /\ Rsum (parts_values D st) (fun va => Cnorm2 (snd va)) = 1%R.
Proof.
  intros [ND Hv] (_ & Hn & Hp) Hne. unfold parts_values. rewrite map_map. cbn [fst].
  assert (Ew : map fst (weighted_components st) = map fst (s_comps st)).
  { unfold weighted_components. destruct (s_comps st) as [|[n1 q1] [|c2 cs]]; [reflexivity|reflexivity|]. rewrite map_map. reflexivity. }
  assert (Hval : forall nm, In nm (map fst (s_comps st)) -> valid D (values_of_name D nm) /\ nm = name_string D (values_of_name D nm)).
  { intros nm Hnm. destruct (Hv nm Hnm) as (vs & Vv & ->). rewrite values_of_name_string by apply Vv. now split. }
  split; [|split].
  - rewrite <- (map_map fst (values_of_name D)), Ew. clear - ND Hval. induction (map fst (s_comps st)) as [|nm l IH]; [constructor|]. inversion ND as [|? ? Hx ND']; subst. cbn [map]. constructor; [|apply IH; [exact ND'|intros; apply Hval; now right]].
    intro Hin. apply in_map_iff in Hin. destruct Hin as (nm' & E & Hin). apply Hx. rewrite (proj2 (Hval nm (or_introl eq_refl))), <- E, <- (proj2 (Hval nm' (or_intror Hin))). exact Hin.
  - apply Forall_map. apply Forall_forall. intros x Hx. cbn [fst]. assert (Hin : In (fst x) (map fst (s_comps st))) by (rewrite <- Ew; now apply in_map). split; [apply (Hval _ Hin)|].
    apply in_map_iff in Hin. destruct Hin as (c & Ec & Hc). rewrite <- Ec. exact (proj1 (Forall_forall _ _) Hp c Hc).
  - rewrite Rsum_map. cbn [snd]. unfold weighted_components. unfold state_norm2 in Hn. destruct (s_comps st) as [|[n1 q1] [|c2 cs]]; [congruence|unfold Rsum, Cnorm2; cbn; ring|]. rewrite Rsum_map. cbn [snd]. exact Hn.
Qed.
