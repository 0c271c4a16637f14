(** Photons that arrive as number states: the amplitude of an arrival written with permanents, and
    its expansion over the photon numbers behind the elements. *)
From Coq Require Import Reals List Arith Lia Lra Bool Permutation.
From Coquelicot Require Import Complex.
From Verif Require Import Prelude NamesModel NamesSpec NamesProofs FockModel FockSpec FockProofs StateModel StateSpec StateProofs ApplyProofs
  CollectionModel EvalModel MeasureSpec MeasureProofs PropProducts ColumnModel ColumnSpec ColumnProofs PropColumn
  GroupProofs TemporalSpec TemporalProofs PropTemporal InterferenceSpec ArrangementProofs InterferenceProofs MeasuredProofs ExperimentSpec ExperimentProofs PermanentProofs PropPermanent SentProofs ConservationProofs.
Import ListNotations.

(** ** Arrivals *)
Definition pk {A} (d : A) (l : list A) (s : list nat) : list A := map (fun j => nth j l d) s.
Lemma pk_seq {A} (d : A) l n : length l = n -> pk d l (seq 0 n) = l.
Proof.
  intros <-. unfold pk. induction l as [|x l IH]; [reflexivity|]. cbn [length seq map nth]. f_equal. rewrite <- seq_shift, map_map. cbn [nth]. exact IH.
Qed.
Lemma pk_pk {A} (d : A) l s o n : length s = n -> Forall (fun j => j < n) o -> pk d (pk d l s) o = pk d l (pickn s o).
Proof.
  intros Hs Ho. unfold pk, pickn. rewrite map_map. apply map_ext_in. intros j Hj. pose proof (proj1 (Forall_forall _ _) Ho j Hj) as Hlt. cbn beta in Hlt.
  rewrite (nth_indep _ d (nth 0 l d)) by (rewrite map_length; lia). now rewrite (map_nth (fun j => nth j l d)).
Qed.
Lemma combine_pk {A B} (d : A) (d' : B) l l' o n : length l = n -> length l' = n -> In o (orders n) -> Permutation (combine (pk d l o) (pk d' l' o)) (combine l l').
Proof.
  intros Hl Hl' Ho. unfold pk. assert (E : forall s, combine (map (fun j => nth j l d) s) (map (fun j => nth j l' d') s) = map (fun j => (nth j l d, nth j l' d')) s) by (induction s as [|j s IH]; [reflexivity|]; cbn [map combine]; now rewrite IH).
  rewrite E. apply permutations_in in Ho. etransitivity; [apply Permutation_map; symmetry; exact Ho|]. rewrite <- E. change (Permutation (combine (pk d l (seq 0 n)) (pk d' l' (seq 0 n))) (combine l l')). now rewrite !pk_seq.
Qed.
Lemma orders_forall n s : In s (orders n) -> length s = n /\ Forall (fun j => j < n) s.
Proof. intro H. split; [exact (orders_length _ _ H)|]. apply Forall_forall. intros j Hj. exact (orders_bound _ _ _ H Hj). Qed.
(** Inverse orders. *)
Lemma order_inverse n s : In s (orders n) -> exists t, In t (orders n) /\ pickn s t = seq 0 n.
Proof.
  intro H. pose proof (orders_length _ _ H) as Hl. apply permutations_in in H. destruct (pick_exists s (seq 0 n) (Permutation_sym H)) as (t & Ht & E). rewrite Hl in Ht. now exists t.
Qed.

Definition hit (e : R * R -> nat -> R) (p : photon) (q : nat * nat) : C := (ph_wave p (fst q) * RtoC (e (ph_timing p) (snd q)))%C.
(** The amplitude that the photons [ph] arrive at the places [qs]. *)
Definition arr (e : R * R -> nat -> R) (qs : list (nat * nat)) (ph : list photon) : C :=
  Csum (orders (length qs)) (fun s => Cprod (combine ph (pk (0, 0) qs s)) (fun x => hit e (fst x) (snd x))).

Lemma inverse_sum n (f : list nat -> C) (g : list nat -> C) : (forall s t, In s (orders n) -> In t (orders n) -> pickn s t = seq 0 n -> f s = g t) -> Csum (orders n) f = Csum (orders n) g.
Proof.
  intro H. assert (HE : forall s, exists t, In s (orders n) -> In t (orders n) /\ pickn s t = seq 0 n).
  { intro s. destruct (in_dec (list_eq_dec Nat.eq_dec) s (orders n)) as [Y|Y]; [|exists []; contradiction]. destruct (order_inverse n s Y) as (t & H1 & H2). exists t. auto. }
  assert (HI : exists inv : list nat -> list nat, forall s, In s (orders n) -> In (inv s) (orders n) /\ pickn s (inv s) = seq 0 n).
  { exists (fun s => hd [] (filter (fun t => leqb (pickn s t) (seq 0 n)) (orders n))). intros s Hs. destruct (HE s) as (t & Ht). destruct (Ht Hs) as [T1 T2].
    destruct (filter (fun t => leqb (pickn s t) (seq 0 n)) (orders n)) as [|t' r] eqn:E.
    - exfalso. assert (Hin : In t (filter (fun t => leqb (pickn s t) (seq 0 n)) (orders n))) by (apply filter_In; split; [exact T1|now apply leqb_spec]). rewrite E in Hin. exact Hin.
    - assert (Hin : In t' (filter (fun t => leqb (pickn s t) (seq 0 n)) (orders n))) by (rewrite E; now left). apply filter_In in Hin. cbn [hd]. split; [apply Hin|]. apply leqb_spec. apply Hin. }
  destruct HI as (inv & HI). transitivity (Csum (orders n) (fun s => g (inv s))).
  - apply Csum_ext. intros s Hs. destruct (HI s Hs) as [H1 H2]. now apply H.
  - transitivity (Csum (map inv (orders n)) g); [now rewrite Csum_map|]. apply Csum_perm. apply NoDup_Permutation_bis.
    + assert (HNI : forall l, NoDup l -> (forall a, In a l -> In a (orders n)) -> NoDup (map inv l)).
      { induction 1 as [|a l Ha _ IH]; intro HA; cbn [map]; constructor.
        - intro Z. apply in_map_iff in Z. destruct Z as (b & E & Hb). apply Ha. replace a with b; [exact Hb|]. destruct (HI a (HA a (or_introl eq_refl))) as [A1 A2]. destruct (HI b (HA b (or_intror Hb))) as [B1 B2].
          rewrite E in B2. apply (pick_inj b a (inv a) n); [apply (orders_length _ _ (HA b (or_intror Hb)))|apply (orders_length _ _ (HA a (or_introl eq_refl)))|exact A1|congruence].
        - apply IH. intros b Hb. apply HA. now right. }
      apply HNI; [apply orders_nodup|auto].
    + now rewrite map_length.
    + intros t Ht. apply in_map_iff in Ht. destruct Ht as (s & <- & Hs). apply HI. exact Hs.
Qed.
Lemma arr_places e qs ph : length ph = length qs -> arr e qs ph = Csum (orders (length qs)) (fun s => Cprod (combine s qs) (fun x => hit e (nth (fst x) ph no_photon) (snd x))).
Proof.
  intro Hl. unfold arr. symmetry. apply inverse_sum. intros s t Hs Ht E. destruct (orders_forall _ _ Hs) as [Ls Bs]. destruct (orders_forall _ _ Ht) as [Lt Bt].
  rewrite <- (Cprod_perm _ _ _ (combine_pk 0 (0, 0) s qs t (length qs) Ls eq_refl Ht)). change (pk 0 s t) with (pickn s t). rewrite E.
  assert (EP : combine ph (pk (0, 0) qs t) = combine (map (fun j => nth j ph no_photon) (seq 0 (length qs))) (pk (0, 0) qs t)) by (f_equal; symmetry; exact (pk_seq no_photon ph (length qs) Hl)).
  rewrite EP. clear EP E. generalize (pk (0, 0) qs t). generalize (seq 0 (length qs)). clear.
  induction l as [|j l IH]; intros [|q l']; try reflexivity. cbn [map combine]. rewrite !Cprod_cons, IH. reflexivity.
Qed.
Lemma mode_arr e bs f ms : length ms = NamesSpec.photons f ->
  mode_amplitude e bs f ms = Csum (fitting bs f) (fun b => (br_amplitude b / RtoC (br_boson b) * arr e (combine (channels_of f) ms) (br_photons b))%C).
Proof.
  intro Hm. unfold mode_amplitude. apply Csum_ext. intros b Hb. unfold fitting in Hb. apply filter_In in Hb. destruct Hb as [_ Hb]. apply Nat.eqb_eq in Hb.
  assert (Hlc : length (channels_of f) = NamesSpec.photons f) by apply channels_length.
  assert (Hq : length (combine (channels_of f) ms) = NamesSpec.photons f) by (rewrite combine_length; lia).
  rewrite arr_places by lia. rewrite Hq, <- Csum_scal_l. apply Csum_ext. intros s Hs. pose proof (orders_length _ _ Hs) as Ls. unfold path. rewrite <- Cmult_assoc. f_equal.
  unfold nth_photon. clear -Hlc Hm Ls. revert Ls Hlc Hm. generalize (channels_of f) as cs. generalize (NamesSpec.photons f). revert ms.
  induction s as [|j s IH]; intros ms n [|c cs] L1 L2 L3; cbn in L1, L2; subst n; try discriminate; destruct ms as [|m ms]; try discriminate.
  - cbn. apply C_eq; cbn; ring.
  - cbn [combine]. rewrite !Cprod_cons, Rprod_cons, RtoC_mult. cbn [fst snd]. rewrite <- (IH ms (length s) cs eq_refl) by (cbn in *; lia). unfold hit. cbn [fst snd]. ring.
Qed.
(** The order of the photons does not matter. *)
Lemma perm_pk {A} (d : A) l l' : Permutation l l' -> exists o, In o (orders (length l)) /\ l' = pk d l o.
Proof.
  intro H. assert (E : Permutation (map (fun j => nth j l d) (seq 0 (length l))) l') by (change (Permutation (pk d l (seq 0 (length l))) l'); now rewrite pk_seq).
  apply Permutation_sym in E. destruct (Permutation_map_inv _ _ E) as (o & Eo & Ho). exists o. split; [|exact Eo]. now apply permutations_in.
Qed.
Lemma arr_perm e qs ph ph' : length ph = length qs -> Permutation ph ph' -> arr e qs ph = arr e qs ph'.
Proof.
  intros Hl HP. destruct (perm_pk no_photon ph ph' HP) as (o & Ho & ->). rewrite Hl in Ho. unfold arr. symmetry. rewrite (reindex_Csum o) by exact Ho. apply Csum_ext. intros s Hs.
  destruct (orders_forall _ _ Hs) as [Ls Bs]. destruct (orders_forall _ _ Ho) as [Lo Bo]. rewrite <- (pk_pk (0, 0) qs s o (length qs) Ls Bo).
  apply Cprod_perm. apply (combine_pk no_photon (0, 0) ph (pk (0, 0) qs s) o (length qs) Hl); [unfold pk; now rewrite map_length|exact Ho].
Qed.

(** ** Expansion of the photons over the channels *)
Definition lamp (c : nat) (T : R * R) : photon := Photon (fun k => if k =? c then RtoC 1 else RtoC 0) T.
Lemma Cprod_app {A} (l l' : list A) f : Cprod (l ++ l') f = (Cprod l f * Cprod l' f)%C.
Proof. induction l as [|x l IH]; [cbn [app]; change (Cprod [] f) with (RtoC 1); ring|]. cbn [app]. rewrite !Cprod_cons, IH. ring. Qed.
Lemma combine_split {A B} (a : list A) x b (l : list B) : length l = length (a ++ x :: b) -> exists l1 y l2, length l1 = length a /\ l = l1 ++ y :: l2 /\ combine (a ++ x :: b) l = combine a l1 ++ (x, y) :: combine b l2 /\
  forall x', combine (a ++ x' :: b) l = combine a l1 ++ (x', y) :: combine b l2.
Proof.
  revert l. induction a as [|z a IH]; intros [|y l] Hl; try discriminate.
  - exists [], y, l. repeat split.
  - cbn [app length] in Hl. destruct (IH l ltac:(lia)) as (l1 & y' & l2 & E1 & -> & E3 & E4). exists (y :: l1), y', l2. cbn [length app combine]. rewrite E1, E3. split; [reflexivity|]. split; [reflexivity|]. split; [reflexivity|]. intro x'. now rewrite E4.
Qed.
Lemma arr_linear e qs N W T pre post : Forall (fun q => fst q < N) qs -> length (pre ++ Photon W T :: post) = length qs ->
  arr e qs (pre ++ Photon W T :: post) = Csum (seq 0 N) (fun c => (W c * arr e qs (pre ++ lamp c T :: post))%C).
Proof.
  intros Hq Hl. unfold arr.
  transitivity (Csum (seq 0 N) (fun c => Csum (orders (length qs)) (fun s => (W c * Cprod (combine (pre ++ lamp c T :: post) (pk (0, 0) qs s)) (fun x => hit e (fst x) (snd x)))%C))).
  2:{ apply Csum_ext. intros c _. now rewrite Csum_scal_l. }
  etransitivity; [|apply Csum_swap]. apply Csum_ext. intros s Hs. destruct (orders_forall _ _ Hs) as [Ls Bs].
  destruct (combine_split pre (Photon W T) post (pk (0, 0) qs s)) as (l1 & y & l2 & E1 & E2 & E3 & E4); [unfold pk; rewrite map_length; lia|].
  assert (Hy : fst y < N).
  { assert (Hin : In y (pk (0, 0) qs s)) by (rewrite E2; apply in_or_app; right; now left). unfold pk in Hin. apply in_map_iff in Hin. destruct Hin as (j & <- & Hj). apply (proj1 (Forall_forall _ _) Hq). apply nth_In. exact (proj1 (Forall_forall _ _) Bs j Hj). }
  rewrite E3, Cprod_app, Cprod_cons. cbn [fst snd]. set (A := Cprod (combine pre l1) _). set (B := Cprod (combine post l2) _).
  transitivity (Csum (seq 0 N) (fun c => if c =? fst y then (A * (W c * RtoC (e T (snd y)) * B))%C else RtoC 0)).
  - rewrite (Csum_single _ (fst y)).
    + rewrite Nat.eqb_refl. reflexivity.
    + apply seq_NoDup.
    + apply in_seq. lia.
    + intros c _ Hc. apply Nat.eqb_neq in Hc. now rewrite Hc.
  - apply Csum_ext. intros c _. rewrite E4, Cprod_app, Cprod_cons. cbn [fst snd]. fold A B. unfold hit, lamp. cbn [ph_wave ph_timing fst snd]. rewrite (Nat.eqb_sym (fst y) c). destruct (c =? fst y); ring.
Qed.
(** A block of photons with the same timing that came from the channels [ks]. *)
Definition beams (U : nat -> nat -> C) (T : R * R) (ks : list nat) : list photon := map (fun k => Photon (fun c => U c k) T) ks.
Definition lamps (T : R * R) (g : list nat) : list photon := map (fun c => lamp c T) g.
Lemma tuples_sum N m (F : list nat -> C) : Csum (tuples N (S m)) F = Csum (seq 0 N) (fun c => Csum (tuples N m) (fun g => F (c :: g))).
Proof. cbn [tuples]. rewrite Csum_flat_map. apply Csum_ext. intros c _. now rewrite Csum_map. Qed.
Lemma arr_block e qs N U T post : Forall (fun q => fst q < N) qs -> forall ks pre, length (pre ++ beams U T ks ++ post) = length qs ->
  arr e qs (pre ++ beams U T ks ++ post) = Csum (tuples N (length ks)) (fun g => (Cprod (combine g ks) (fun x => U (fst x) (snd x)) * arr e qs (pre ++ lamps T g ++ post))%C).
Proof.
  intros Hq. induction ks as [|k ks IH]; intros pre Hl.
  - cbn [length tuples beams map app]. rewrite Csum_cons, Csum_nil. cbn [combine lamps map app]. change (Cprod [] _) with (RtoC 1). ring.
  - cbn [length beams map app]. fold (beams U T ks). rewrite tuples_sum. rewrite (arr_linear e qs N) by assumption. apply Csum_ext. intros c Hc.
    replace (pre ++ lamp c T :: beams U T ks ++ post) with ((pre ++ [lamp c T]) ++ beams U T ks ++ post) by (rewrite <- app_assoc; reflexivity).
    rewrite IH by (unfold beams in *; rewrite ?app_length, ?map_length in *; cbn [length map app] in *; rewrite ?app_length, ?map_length in *; lia).
    rewrite <- Csum_scal_l. apply Csum_ext. intros g Hg. cbn [combine lamps map app]. rewrite Cprod_cons. cbn [fst snd]. rewrite <- app_assoc. cbn [app]. fold (lamps T g). ring.
Qed.

(** ** Sums over channels and sums over photon numbers *)
Lemma pickn_tuples N m s : In s (orders m) -> Permutation (map (fun c => pickn c s) (tuples N m)) (tuples N m).
Proof.
  intro Hs. destruct (orders_forall _ _ Hs) as [Ls Bs]. apply NoDup_Permutation_bis.
  - assert (HN : forall l, NoDup l -> (forall a, In a l -> length a = m) -> NoDup (map (fun c => pickn c s) l)).
    { induction 1 as [|a l Ha _ IH]; intro HA; cbn [map]; constructor; [|apply IH; intros b Hb; apply HA; now right].
      intro Z. apply in_map_iff in Z. destruct Z as (b & E & Hb). apply Ha. replace a with b; [exact Hb|]. apply (pick_inj b a s m); [apply HA; now right|apply HA; now left|exact Hs|exact E]. }
    apply HN; [apply tuples_nodup|]. intros a Ha. apply tuples_in in Ha. apply Ha.
  - now rewrite map_length.
  - intros c Hc. apply in_map_iff in Hc. destruct Hc as (a & <- & Ha). apply tuples_in in Ha. destruct Ha as [La Ba]. apply tuples_in. split; [unfold pickn; now rewrite map_length|].
    unfold pickn. apply Forall_map. revert Bs. apply Forall_impl. intros j Hj. apply (proj1 (Forall_forall _ _) Ba). apply nth_In. lia.
Qed.
Lemma Csum_same {A} (l : list A) z : Csum l (fun _ => z) = (RtoC (INR (length l)) * z)%C.
Proof. induction l as [|x l IH]; [rewrite Csum_nil; cbn [length INR]; ring|]. rewrite Csum_cons, IH. cbn [length]. rewrite S_INR, RtoC_plus. ring. Qed.
Lemma symmetric_sum L N U ks m (Phi : list nat -> C) : m < L -> length ks = m -> (forall c s, In c (tuples N m) -> In s (orders m) -> Phi (pickn c s) = Phi c) ->
  Csum (tuples N m) (fun g => Cprod (combine g ks) (fun x => U (fst x) (snd x)) * Phi g)%C
  = Csum (numbers L N m) (fun u => Csum (orders m) (fun s => Cprod (combine s (channels_of u)) (fun x => U (snd x) (nth (fst x) ks 0))) / RtoC (INR (factorials u)) * Phi (channels_of u))%C.
Proof.
  intros HmL Hks HPhi. set (Q := fun c : list nat => Csum (orders m) (fun s => Cprod (combine s c) (fun x => U (snd x) (nth (fst x) ks 0)))).
  assert (HQ : forall c o, length c = m -> In o (orders m) -> Q (pickn c o) = Q c).
  { intros c o Hc Ho. unfold Q. rewrite (reindex_Csum o) by exact Ho. apply Csum_ext. intros s Hs. apply Cprod_perm. apply (combine_order s c o m); [apply (orders_length _ _ Hs)|exact Hc|exact Ho]. }
  pose proof (numbers_sum L N m (fun c => (Q c * Phi c)%C) HmL) as E.
  assert (Hf : RtoC (INR (fact m)) <> RtoC 0) by (intro Z; apply RtoC_inj in Z; pose proof (lt_O_fact m) as K; apply lt_INR in K; cbn [INR] in K; lra).
  transitivity (Csum (tuples N m) (fun c => (Q c * Phi c)%C) / RtoC (INR (fact m)))%C.
  2:{ etransitivity; [symmetry; apply E|].
      2:{ apply Csum_ext. intros u _. unfold Q, Cdiv. ring. }
      intros c s Hc Hs. rewrite HPhi by assumption. rewrite HQ; [reflexivity| |exact Hs]. apply tuples_in in Hc. apply Hc. }
  assert (Z : Csum (tuples N m) (fun c => (Q c * Phi c)%C) = (RtoC (INR (fact m)) * Csum (tuples N m) (fun g => Cprod (combine g ks) (fun x => U (fst x) (snd x)) * Phi g))%C).
  { transitivity (Csum (orders m) (fun s => Csum (tuples N m) (fun c => (Cprod (combine s c) (fun x => U (snd x) (nth (fst x) ks 0)) * Phi c)%C))).
    { etransitivity; [|apply Csum_swap]. apply Csum_ext. intros c _. unfold Q. now rewrite <- Csum_scal_r. }
    transitivity (Csum (orders m) (fun _ => Csum (tuples N m) (fun g => Cprod (combine g ks) (fun x => U (fst x) (snd x)) * Phi g)%C)).
    - apply Csum_ext. intros s Hs. destruct (orders_forall _ _ Hs) as [Ls Bs]. rewrite <- (Csum_perm _ _ _ (pickn_tuples N m s Hs)), Csum_map. apply Csum_ext. intros c Hc. pose proof Hc as Hc'. apply tuples_in in Hc'. destruct Hc' as [Lc _].
      rewrite HPhi by assumption. f_equal. rewrite <- (Cprod_perm _ _ _ (combine_order c ks s m Lc Hks Hs)). clear. unfold pickn.
      induction s as [|j s IH]; [reflexivity|]. cbn [map combine]. rewrite !Cprod_cons. cbn [fst snd]. f_equal.
      assert (G : forall l, Cprod (combine l (map (fun j => nth j c 0) l)) (fun x => U (snd x) (nth (fst x) ks 0)) = Cprod (combine (map (fun j => nth j c 0) l) (map (fun j => nth j ks 0) l)) (fun x => U (fst x) (snd x))).
      { induction l as [|i l IHl]; [reflexivity|]. cbn [map combine]. rewrite !Cprod_cons, IHl. reflexivity. }
      apply G.
    - rewrite Csum_same. f_equal. f_equal. unfold orders. rewrite permutations_length, seq_length. reflexivity. }
  rewrite Z. field. exact Hf.
Qed.

(** ** Number states spread over the photon numbers behind the elements *)
Fixpoint spread (L N : nat) (U : nat -> nat -> C) (ps : list (values * (R * R))) (K : list photon -> C) : C :=
  match ps with
  | [] => K []
  | p :: r => Csum (numbers L N (NamesSpec.photons (fst p))) (fun u =>
      (permanent U (fst p) u / RtoC (INR (factorials u)) * spread L N U r (fun l => K (lamps (snd p) (channels_of u) ++ l)))%C)
  end.
Definition block_beams (U : nat -> nat -> C) (ps : list (values * (R * R))) : list photon := flat_map (fun p => beams U (snd p) (channels_of (fst p))) ps.
Lemma spread_ext L N U ps : forall K K', (forall l, K l = K' l) -> spread L N U ps K = spread L N U ps K'.
Proof.
  induction ps as [|p ps IH]; intros K K' H; cbn [spread]; [apply H|]. apply Csum_ext. intros u _. f_equal. apply IH. intro l. apply H.
Qed.
Lemma lamps_length T g : length (lamps T g) = length g.
Proof. apply map_length. Qed.
Lemma beams_length U T g : length (beams U T g) = length g.
Proof. apply map_length. Qed.
Lemma spread_arr L N U e qs : Forall (fun q => fst q < N) qs -> forall ps pre, Forall (fun p => NamesSpec.photons (fst p) < L) ps -> length (pre ++ block_beams U ps) = length qs ->
  spread L N U ps (fun l => arr e qs (pre ++ l)) = arr e qs (pre ++ block_beams U ps).
Proof.
  intro Hqs. induction ps as [|p ps IH]; intros pre HF Hlen; [reflexivity|]. apply Forall_cons_iff in HF. destruct HF as [Hp HF]. cbn [spread].
  unfold block_beams in Hlen |- *. cbn [flat_map] in Hlen |- *. fold (block_beams U ps) in Hlen |- *. set (m := NamesSpec.photons (fst p)) in *.
  assert (Lc : length (channels_of (fst p)) = m) by apply channels_length.
  rewrite !app_length, beams_length, Lc in Hlen.
  rewrite (arr_block e qs N U (snd p) (block_beams U ps) Hqs (channels_of (fst p)) pre) by (rewrite !app_length, beams_length, Lc; lia). rewrite Lc.
  rewrite (symmetric_sum L N U (channels_of (fst p)) m (fun g => arr e qs (pre ++ lamps (snd p) g ++ block_beams U ps)) Hp Lc).
  - apply Csum_ext. intros u Hu. apply (numbers_in L N m u Hp) in Hu. destruct Hu as [Lu Pu].
    assert (EP : permanent U (fst p) u = Csum (orders m) (fun s => Cprod (combine s (channels_of u)) (fun x => U (snd x) (nth (fst x) (channels_of (fst p)) 0)))) by (unfold permanent, orders; now rewrite Pu).
    rewrite EP. f_equal. 
    rewrite (spread_ext L N U ps _ (fun l => arr e qs ((pre ++ lamps (snd p) (channels_of u)) ++ l))) by (intro l; now rewrite app_assoc).
    rewrite IH; [now rewrite <- app_assoc|exact HF|]. rewrite !app_length, lamps_length, channels_length. rewrite Pu. lia.
  - intros c s Hc Hs. apply tuples_in in Hc. destruct Hc as [Lg _]. apply arr_perm.
    + rewrite !app_length, lamps_length. unfold pickn. rewrite map_length. rewrite (orders_length m s Hs). lia.
    + apply Permutation_app_head. apply Permutation_app_tail. apply Permutation_map. unfold pickn. apply permutations_in in Hs.
      transitivity (map (fun j => nth j c 0) (seq 0 m)); [apply Permutation_map; now symmetry|]. rewrite <- Lg. fold (pk 0 c (seq 0 (length c))). now rewrite pk_seq.
Qed.
